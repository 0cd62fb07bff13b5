(** Model of include/MTToolBox/AlgorithmEquidistribution.hpp.
    [int] values are unbounded [Z] here; the counts stay far below 2^31 for
    any generator that fits into memory (see [EquiProofs]). Divisions, array
    accesses and the recursion budget are checked. *)
From Coq Require Import NArith ZArith List Bool.
From Verif Require Import Base GenModel.
Import ListNotations.
Local Open Scope Z_scope.

(** Checked access to an array of pointers with an [int] index. *)
Definition geti {A} (l : list A) (i : Z) : res A :=
  if i <? 0 then Undef
  else match nth_error l (Z.to_nat i) with Some x => Ret x | None => Undef end.
Fixpoint upd {A} (l : list A) (i : nat) (x : A) : list A :=
  match l, i with
  | [], _ => []
  | _ :: r, O => x :: r
  | y :: r, Datatypes.S j => y :: upd r j x
  end.
Definition seti {A} (l : list A) (i : Z) (x : A) : res (list A) :=
  if (i <? 0) || (Z.of_nat (length l) <=? i) then Undef else Ret (upd l (Z.to_nat i) x).

Section Equi.
Variable S : Type.
Variable G : gen_ops S.
(** calc_1pos for the output type (util.hpp:280-356): see UtilModel. *)
Variable pos : N -> res Z.
Notation w := (g_width G).

(** AlgorithmEquidistribution.hpp:86-210  linear_generator_vector. *)
Record lvec : Type := {
  lv_rand : S;
  lv_count : Z;
  lv_zero : bool;
  lv_next : N
}.

(** 114-121  linear_generator_vector(generator) *)
Definition lv_gen (g : S) : lvec :=
  {| lv_rand := g; lv_count := 0; lv_zero := false; lv_next := 0%N |}.
(** 145-157  linear_generator_vector(generator, bit_pos) *)
Definition lv_unit (g : S) (bit_pos : N) : lvec :=
  {| lv_rand := g_setZero G g; lv_count := 0; lv_zero := false;
     lv_next := wshl w 1 (w - bit_pos - 1) |}.
(** 546-553  add *)
Definition lv_add (b src : lvec) : lvec :=
  {| lv_rand := g_add G (lv_rand b) (lv_rand src); lv_count := lv_count b;
     lv_zero := lv_zero b; lv_next := N.lxor (lv_next b) (lv_next src) |}.
(** 580-581 and 591-592: next = rand->generate(bit_len); count++; *)
Definition lv_step (bit_len : Z) (b : lvec) : lvec :=
  let '(x, r) := g_generate_len G bit_len (lv_rand b) in
  {| lv_rand := r; lv_count := lv_count b + 1; lv_zero := lv_zero b; lv_next := x |}.
(** 582-593: [rem] is bitSize*2 minus zero_count, the number of further
    generate calls allowed before zero_count exceeds bitSize*2. *)
Fixpoint ns_loop (bit_len : Z) (rem : nat) (b : lvec) : lvec :=
  if (lv_next b =? 0)%N then
    match rem with
    | O => {| lv_rand := lv_rand b; lv_count := lv_count b; lv_zero := true;
              lv_next := lv_next b |}
    | Datatypes.S r => ns_loop bit_len r (lv_step bit_len b)
    end
  else b.
(** 572-594  next_state.  bitSize() of a generator does not change while it
    runs, so it is read once. *)
Definition next_state (bit_len : Z) (b : lvec) : lvec :=
  if lv_zero b then b
  else ns_loop bit_len (2 * g_bitSize G (lv_rand b)) (lv_step bit_len b).

(** 235-380  AlgorithmEquidistribution; [size] is the length of [ae_basis]. *)
Record ae : Type := {
  ae_basis : list lvec;
  ae_bit_len : Z;
  ae_stateBitSize : Z
}.

(** 293-308  constructor *)
Definition ae_new (rand : S) (bit_length : nat) (mexp : Z) : ae :=
  {| ae_basis := map (fun i => lv_unit rand (N.of_nat i)) (seq 0 bit_length)
                 ++ [next_state (Z.of_nat bit_length) (lv_gen rand)];
     ae_bit_len := Z.of_nat bit_length;
     ae_stateBitSize := if mexp =? 0 then Z.of_nat (g_bitSize G rand) else mexp |}.

(** 395-407  adjust *)
Definition adjust_vec (new_len : Z) (b : lvec) : lvec :=
  let mask := wshl w (wnot w 0) (w - Z.to_N new_len) in
  let b' := {| lv_rand := lv_rand b; lv_count := lv_count b; lv_zero := lv_zero b;
               lv_next := N.land (lv_next b) mask |} in
  if (lv_next b' =? 0)%N then next_state new_len b' else b'.
Definition adjust (new_len : Z) (basis : list lvec) : list lvec :=
  map (adjust_vec new_len) basis.

(** 621-703  the reduction loop of get_equidist_main.  [fuel] bounds the
    number of iterations. *)
Fixpoint reduce (fuel : nat) (v : Z) (basis : list lvec) (pivot : Z) : res (list lvec) :=
  match fuel with
  | O => NoFuel
  | Datatypes.S f =>
    do bv <- geti basis v;
    if lv_zero bv then Ret basis
    else
      do bp <- geti basis pivot;
      (* 646-648 *)
      let sw := lv_count bv >? lv_count bp in
      let bv1 := if sw then bp else bv in
      let bp1 := if sw then bv else bp in
      do basis1 <- seti basis pivot bp1;
      (* 657 *)
      let bv2 := lv_add bv1 bp1 in
      if (lv_next bv2 =? 0)%N then
        (* 665-667 *)
        let bv3 := next_state v bv2 in
        do basis2 <- seti basis1 v bv3;
        do p <- pos (lv_next bv3);
        reduce f v basis2 p
      else
        (* 687-702 *)
        do basis2 <- seti basis1 v bv2;
        do p <- pos (lv_next bv2);
        if v <=? p then Throw
        else if pivot <=? p then Throw
        else reduce f v basis2 p
  end.

(** 706-711 *)
Fixpoint min_loop (v : nat) (i : Z) (basis : list lvec) (m : Z) : res Z :=
  match v with
  | O => Ret m
  | Datatypes.S v' =>
    do b <- geti basis i;
    min_loop v' (i + 1) basis (if m >? lv_count b then lv_count b else m)
  end.

(** C++ integer division; division by zero is undefined. *)
Definition idiv (a b : Z) : res Z := if b =? 0 then Undef else Ret (Z.quot a b).

(** 612-731  get_equidist_main *)
Definition get_equidist_main (fuel : nat) (stateBitSize : Z) (v : Z) (basis : list lvec) :
  res (Z * list lvec) :=
  do bv <- geti basis v;
  do p <- pos (lv_next bv);
  do basis' <- reduce fuel v basis p;
  do b0 <- geti basis' 0;
  do m <- min_loop (Z.to_nat (v - 1)) 1 basis' (lv_count b0);
  do q <- idiv stateBitSize v;
  if m >? q then Throw else Ret (m, basis').

(** 479-484: the loop over the smaller lengths, [n] = current bit_len. *)
Fixpoint all_loop (fuel : nat) (sbs : Z) (n : nat) (basis : list lvec) (veq : list Z) (sum : Z) :
  res (list lvec * list Z * Z) :=
  match n with
  | O => Ret (basis, veq, sum)
  | Datatypes.S n' =>
    let v := Z.of_nat n in
    let basis1 := adjust v basis in
    do '(k, basis2) <- get_equidist_main fuel sbs v basis1;
    do veq' <- seti veq (v - 1) k;
    do q <- idiv sbs v;
    all_loop fuel sbs n' basis2 veq' (sum + (q - k))
  end.
(** 466-486  get_all_equidist(veq): result: the object afterwards, the array
    and the returned sum.  [fuel] bounds each reduction loop. *)
Definition get_all_equidist (fuel : nat) (a : ae) (veq : list Z) : res (ae * list Z * Z) :=
  let v := ae_bit_len a in
  let sbs := ae_stateBitSize a in
  do '(k, basis1) <- get_equidist_main fuel sbs v (ae_basis a);
  do veq1 <- seti veq (v - 1) k;
  do q <- idiv sbs v;
  do '(basis2, veq2, sum) <- all_loop fuel sbs (Z.to_nat (v - 1)) basis1 veq1 (q - k);
  Ret ({| ae_basis := basis2; ae_bit_len := Z.min (v - 1) 0; ae_stateBitSize := sbs |}, veq2, sum).

(** 526-530 *)
Fixpoint sum_loop (fuel : nat) (sbs : Z) (n : nat) (basis : list lvec) (sum : Z) :
  res (list lvec * Z) :=
  match n with
  | O => Ret (basis, sum)
  | Datatypes.S n' =>
    let v := Z.of_nat n in
    let basis1 := adjust v basis in
    do '(k, basis2) <- get_equidist_main fuel sbs v basis1;
    do q <- idiv sbs v;
    sum_loop fuel sbs n' basis2 (sum + (q - k))
  end.
(** 520-533  get_equidist: result: object afterwards, *sum_equidist, returned value. *)
Definition get_equidist (fuel : nat) (a : ae) : res (ae * Z * Z) :=
  let v := ae_bit_len a in
  let sbs := ae_stateBitSize a in
  do '(k, basis1) <- get_equidist_main fuel sbs v (ae_basis a);
  do '(basis2, sum) <- sum_loop fuel sbs (Z.to_nat (v - 1)) basis1 0;
  Ret ({| ae_basis := basis2; ae_bit_len := Z.min (v - 1) 0; ae_stateBitSize := sbs |}, sum, k).
End Equi.
Arguments lv_rand {S}.
Arguments lv_count {S}.
Arguments lv_zero {S}.
Arguments lv_next {S}.
Arguments ae_basis {S}.
Arguments ae_bit_len {S}.
Arguments ae_stateBitSize {S}.
Arguments lv_gen {S}.
Arguments lv_unit {S}.
Arguments lv_add {S}.
Arguments lv_step {S}.
Arguments ns_loop {S}.
Arguments next_state {S}.
Arguments ae_new {S}.
Arguments adjust_vec {S}.
Arguments adjust {S}.
Arguments reduce {S}.
Arguments min_loop {S}.
Arguments get_equidist_main {S}.
Arguments all_loop {S}.
Arguments get_all_equidist {S}.
Arguments sum_loop {S}.
Arguments get_equidist {S}.
