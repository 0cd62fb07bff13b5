(** Model of AlgorithmCalculateParity.hpp: the period certification vector
    (parity vector) of a reducible generator. *)
From Coq Require Import NArith ZArith List Bool.
From mathcomp Require Import all_ssreflect all_algebra.
From Verif Require Import Base UtilModel GenModel PolyF2 PeriodModel.
Import ListNotations.
Set Implicit Arguments.
Unset Strict Implicit.
Unset Printing Implicit Defensive.
Delimit Scope Z_scope with coqZ.

(** The functions that ReducibleGenerator.hpp:83-124 adds to the interface of
    an equidistribution-calculatable generator.  setOneBit of a sample
    generator can have undefined behaviour, hence [res]. *)
Record par_ops (S : Type) : Type := {
  (** ReducibleGenerator.hpp:124  int getMexp() const *)
  p_getMexp : S -> Z;
  (** ReducibleGenerator.hpp:83  void setOneBit(int bitPos) *)
  p_setOneBit : nat -> S -> res S;
  (** ReducibleGenerator.hpp:97  U getParityValue() const *)
  p_getParityValue : S -> N;
  (** ReducibleGenerator.hpp:110  void setParityValue(U parity) *)
  p_setParityValue : N -> S -> S
}.
Arguments p_getMexp {S}.
Arguments p_setOneBit {S}.
Arguments p_getParityValue {S}.
Arguments p_setParityValue {S}.

(** setBitOfPos and fromGF2Vec; [lax = None] is the C++ standard, where the
    shift by -1 at the end of the loops is undefined, and [lax = Some junk] an
    implementation where that shift yields [junk]. *)
Definition sbp (lax : option N) (w bits : N) (pos : Z) (b : N) : res N :=
  match lax with
  | None => setBitOfPos w bits pos b
  | Some junk => Ret (setBitOfPos_junk junk w bits pos b)
  end.
Definition fgv (lax : option N) (w : N) (v : list bool) : res N :=
  match lax with
  | None => fromGF2Vec w v
  | Some junk => fromGF2Vec_junk junk w v
  end.

(** AlgorithmCalculateParity.hpp:183-187  struct internal_state *)
Record internal_state (S : Type) : Type := {
  is_zero : bool;
  is_next : N;
  is_rg : S
}.
Arguments is_zero {S}.
Arguments is_next {S}.
Arguments is_rg {S}.

Section Parity.
Variable S : Type.
Variable G : gen_ops S.
Variable P : par_ops S.
(** calc_1pos<U>, util.hpp:280-360 *)
Variable pos : N -> res Z.
(** NTL::kernel(X, A) for a matrix given by its dimensions and entries. *)
Variable kernel : nat -> nat -> (nat -> nat -> bool) -> list (list bool).
Variable lax : option N.

(** AlgorithmCalculateParity.hpp:265-272: the loop of set_state, entered with
    the value of getParityValue in [next]. *)
Fixpoint set_state_loop (fuel : nat) (rg : S) (next : N) : res (internal_state S) :=
  if (next =? 0)%num then
    if g_isZero G rg then Ret {| is_zero := true; is_next := next; is_rg := rg |}
    else
      match fuel with
      | O => NoFuel
      | Datatypes.S fuel' =>
          let rg' := (g_generate G rg).2 in
          set_state_loop fuel' rg' (p_getParityValue P rg')
      end
  else Ret {| is_zero := false; is_next := next; is_rg := rg |}.

(** AlgorithmCalculateParity.hpp:250-277  set_state *)
Definition set_state (fuel : nat) (st : internal_state S) : res (internal_state S) :=
  if g_isZero G (is_rg st) then Ret {| is_zero := true; is_next := 0%num; is_rg := is_rg st |}
  else
    let rg := (g_generate G (is_rg st)).2 in
    set_state_loop fuel rg (p_getParityValue P rg).

(** AlgorithmCalculateParity.hpp:292-295  add_state *)
Definition add_state (dist src : internal_state S) : internal_state S :=
  {| is_zero := is_zero dist; is_next := N.lxor (is_next dist) (is_next src);
     is_rg := g_add G (is_rg dist) (is_rg src) |}.

(** AlgorithmCalculateParity.hpp:308-313  get_next_state *)
Definition get_next_state (fuel : nat) (st : internal_state S) : res (internal_state S) :=
  if is_zero st then Ret st else set_state fuel st.

(** AlgorithmCalculateParity.hpp:202-237  calc_basis; [cnt] is
    maxdegree - *bit_pos. *)
Fixpoint calc_basis_loop (fuel cnt : nat) (f : f2x) (st : internal_state S) (bit_pos : nat)
    : res (internal_state S * nat) :=
  match cnt with
  | O => Ret (st, bit_pos)
  | Datatypes.S c =>
      do rg <- p_setOneBit P bit_pos (is_rg st);
      let rg := annihilate G rg f in
      do st' <- set_state fuel {| is_zero := is_zero st; is_next := is_next st; is_rg := rg |};
      if is_zero st' then calc_basis_loop fuel c f st' bit_pos.+1 else Ret (st', bit_pos.+1)
  end.
Definition calc_basis (fuel : nat) (st : internal_state S) (f : f2x) (bit_pos : nat)
    : res (internal_state S * nat) :=
  calc_basis_loop fuel (g_bitSize G (is_rg st) - bit_pos) f st bit_pos.

(** Assignment to an element of the array. *)
Fixpoint set_at (A : Type) (l : list A) (i : nat) (x : A) : list A :=
  match l, i with
  | [], _ => []
  | _ :: t, O => x :: t
  | y :: t, Datatypes.S i' => y :: set_at t i' x
  end.

(** AlgorithmCalculateParity.hpp:333-373  addBase; [cnt] iterations remain.
    The first component of the result is the array, the second the candidate. *)
Fixpoint addBase_loop (fuel cnt : nat) (bases : list (internal_state S)) (size : Z) (work : internal_state S)
    : res (list (internal_state S) * internal_state S) :=
  match cnt with
  | O => Ret (bases, work)
  | Datatypes.S c =>
      let step (work : internal_state S) :=
        do pivot <- pos (is_next work);
        if (size <=? pivot)%coqZ then Throw
        else if (pivot <? 0)%coqZ then Undef
        else
          match List.nth_error bases (Z.to_nat pivot) with
          | None => Undef
          | Some b =>
              if (is_next b =? 0)%num then Ret (set_at bases (Z.to_nat pivot) (add_state b work), work)
              else addBase_loop fuel c bases size (add_state work b)
          end in
      if (is_next work =? 0)%num then
        do work <- get_next_state fuel work;
        if is_zero work then Ret (bases, work) else step work
      else step work
  end.
Definition addBase (fuel : nat) (bases : list (internal_state S)) (size : Z) (work : internal_state S)
    : res (list (internal_state S) * internal_state S) :=
  addBase_loop fuel (N.to_nat (g_width G * 10 + 1)) bases size work.

(** AlgorithmCalculateParity.hpp:144-149: the bases that are counted *)
Definition nonzero (bases : list (internal_state S)) : list (internal_state S) :=
  List.filter (fun b => negb (is_next b =? 0)%num) bases.

(** AlgorithmCalculateParity.hpp:141-156: the loop of searchParity. *)
Fixpoint search_loop (fuel cnt : nat) (f : f2x) (maxdegree : nat) (base_num : Z)
    (bases : list (internal_state S)) (work : internal_state S) (bit_pos : nat)
    : res (list (internal_state S)) :=
  if (bit_pos < maxdegree)%N then
    match cnt with
    | O => NoFuel
    | Datatypes.S c =>
        do '(work, bit_pos) <- calc_basis fuel work f bit_pos;
        do '(bases, work) <- addBase fuel bases (Z.of_N (g_width G)) work;
        if (base_num <=? Z.of_nat (length (nonzero bases)))%coqZ then Ret bases
        else search_loop fuel c f maxdegree base_num bases work bit_pos
    end
  else Ret bases.

(** AlgorithmCalculateParity.hpp:403-420: the rows of the matrix mx.  A column
    index beyond [size] is an NTL error; the model calls it undefined. *)
Fixpoint matrix_rows (cnt : nat) (p : Z) (mask : N) (cols : list N) : res (list (list bool)) :=
  match cnt with
  | O => Ret []
  | Datatypes.S c =>
      let row := List.map (fun x => negb (N.land mask x =? 0)%num) cols in
      do mask' <- sbp lax (g_width G) 0 (p - 1)%coqZ 1;
      do rows <- matrix_rows c (p - 1)%coqZ mask' cols;
      Ret (row :: rows)
  end.
(** AlgorithmCalculateParity.hpp:391-445  search_parity_check_vector *)
Definition search_parity_check_vector (bases : list (internal_state S)) (size : Z) : res N :=
  let w := g_width G in
  let cols := List.map is_next (nonzero bases) in
  if (size <? Z.of_nat (length cols))%coqZ then Undef
  else
    let p := (Z.of_N w - 1)%coqZ in
    do mask <- sbp lax w 0 p 1;
    do mx <- matrix_rows (N.to_nat w) p mask cols;
    match kernel (N.to_nat w) (Z.to_nat size) (fun i j => List.nth j (List.nth i mx []) false) with
    | [] => Throw
    | row :: _ => fgv lax w row
    end.

(** AlgorithmCalculateParity.hpp:110-179  searchParity *)
Definition searchParity (fuel : nat) (g : S) (f : f2x) : res (N * S) :=
  let mexp := p_getMexp P g in
  let maxdegree := g_bitSize G g in
  let base_num := (Z.of_nat maxdegree - mexp)%coqZ in
  let empty := {| is_zero := true; is_next := 0%num; is_rg := g_setZero G g |} in
  let bases := List.repeat empty (N.to_nat (g_width G)) in
  do bases <- search_loop fuel maxdegree f maxdegree base_num bases empty 0;
  do parity <- search_parity_check_vector bases base_num;
  Ret (parity, p_setParityValue P parity g).
End Parity.
