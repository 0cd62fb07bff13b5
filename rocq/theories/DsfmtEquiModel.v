(** Model of samples/dSFMTdc/AlgorithmDSFMTEquidistribution.hpp with U = w128_t.
    The file is a copy of AlgorithmSIMDEquidistribution.hpp with changes; the
    loops which are the same in both are those of SimdModel. [int] values are
    unbounded [Z]; array accesses, shifts and divisions are checked. *)
From Coq Require Import Arith NArith ZArith List Bool.
From Verif Require Import Base UtilModel GenModel EquiModel W128Model W128Spec SfmtModel SimdModel.
Import ListNotations.
Local Open Scope Z_scope.

(** AlgorithmDSFMTEquidistribution.hpp:56-59  DSFMTInfo; elementNo is a count *)
Record dsfmt_info := DI { di_bitSize : Z; di_elementNo : nat }.

(** 478-489  the loop over i, [cnt] passes left; sv_bits is the loop over j of
    480-488 *)
Fixpoint dv_lanes (v : nat) (words : list N) (cnt i : nat) (k : Z) (next : w128) : res w128 :=
  match cnt with
  | O => Ret next
  | S c =>
    match nth_error words i with
    | None => Undef
    | Some word =>
      do '(k', next') <- sv_bits v word 0x0008000000000000%N k next;
      dv_lanes v words c (i + 1) k' next'
    end
  end.
(** 475-489  the part of get_next after the call of generate.  The loop over j
    runs from 0 in steps of elementNo below v * elementNo. *)
Definition dv_pack (info : dsfmt_info) (v : nat) (w : w128) : res w128 :=
  dv_lanes v [u0 w; u1 w] (di_elementNo info) 0 (di_bitSize info - 1) w_zero.

Section Dsfmt.
Variable S : Type.
Variable G : gen_ops S.
(** calc_1pos for w128_t: see W128Model. *)
Variable pos : N -> res Z.
Variable info : dsfmt_info.
Notation lvec := (lvec S).

(** 140-158  dsfmt_linear_generator_vector(generator, bit_pos, info) *)
Definition dv_unit (g : S) (bit_pos : nat) : res lvec :=
  do x <- w_shl w_one (128 - Z.of_nat bit_pos - 1);
  Ret {| lv_rand := g_setZero G g; lv_count := 0; lv_zero := false; lv_next := wval x |}.
(** 468-498  get_next *)
Definition dv_get_next (v : nat) (b : lvec) : res lvec :=
  let '(w, r) := g_generate G (lv_rand b) in
  do x <- dv_pack info v (w_of w);
  Ret {| lv_rand := r; lv_count := lv_count b; lv_zero := lv_zero b; lv_next := wval x |}.
(** 524-525 and 535-536: get_next(bitLen); count++; *)
Definition dv_step (v : nat) (b : lvec) : res lvec :=
  do c <- dv_get_next v b;
  Ret {| lv_rand := lv_rand c; lv_count := lv_count c + 1; lv_zero := lv_zero c; lv_next := lv_next c |}.
(** 526-537: [rem] is bitSize*2 minus zero_count *)
Fixpoint dv_ns_loop (v : nat) (rem : nat) (b : lvec) : res lvec :=
  if w_isZero (w_of (lv_next b)) then
    match rem with
    | O => Ret {| lv_rand := lv_rand b; lv_count := lv_count b; lv_zero := true; lv_next := lv_next b |}
    | Datatypes.S r => do b' <- dv_step v b; dv_ns_loop v r b'
    end
  else Ret b.
(** 516-538  next_state *)
Definition dv_next_state (v : nat) (b : lvec) : res lvec :=
  if lv_zero b then Ret b
  else do b' <- dv_step v b; dv_ns_loop v (2 * g_bitSize G (lv_rand b)) b'.
(** 455-462  add *)
Definition dv_add (b src : lvec) : lvec :=
  {| lv_rand := g_add G (lv_rand b) (lv_rand src); lv_count := lv_count b; lv_zero := lv_zero b;
     lv_next := wval (w_xor (w_of (lv_next b)) (w_of (lv_next src))) |}.

(** 299-301 *)
Fixpoint de_units (rand : S) (cnt i : nat) : res (list lvec) :=
  match cnt with
  | O => Ret []
  | Datatypes.S c => do u <- dv_unit rand i; do l <- de_units rand c (i + 1); Ret (u :: l)
  end.
(** 282-309  the constructor: the array basis; 302 is the constructor of 102-116 *)
Definition de_new (rand : S) (bit_len : nat) : res (list lvec) :=
  do l <- de_units rand (bit_len * di_elementNo info) 0;
  do b <- dv_next_state bit_len (lv_gen rand);
  Ret (l ++ [b]).

(** 574-659  the loop of get_equidist_main, [bs] = v * elementNo *)
Fixpoint de_reduce (fuel : nat) (v : nat) (bs : Z) (basis : list lvec) (pivot : Z) : res (list lvec) :=
  match fuel with
  | O => NoFuel
  | Datatypes.S f =>
    do bv <- geti basis bs;
    if lv_zero bv then Ret basis
    else
      do bp <- geti basis pivot;
      (* 605-607 *)
      let sw := lv_count bv >? lv_count bp in
      let bv1 := if sw then bp else bv in
      let bp1 := if sw then bv else bp in
      do basis1 <- seti basis pivot bp1;
      (* 614 *)
      let bv2 := dv_add bv1 bp1 in
      if w_isZero (w_of (lv_next bv2)) then
        (* 622-623 *)
        do bv3 <- dv_next_state v bv2;
        do basis2 <- seti basis1 bs bv3;
        do p <- pos (lv_next bv3);
        de_reduce f v bs basis2 p
      else
        (* 644-657 *)
        do basis2 <- seti basis1 bs bv2;
        do p <- pos (lv_next bv2);
        if bs <=? p then Throw
        else if pivot <=? p then Throw
        else de_reduce f v bs basis2 p
  end.
(** 669-676 *)
Fixpoint de_min (cnt : nat) (i : Z) (basis : list lvec) (m : Z) : res Z :=
  match cnt with
  | O => Ret m
  | Datatypes.S c =>
    do b <- geti basis i;
    de_min c (i + 1) basis (if lv_zero b then m else if m >? lv_count b then lv_count b else m)
  end.
(** 437-442, 556-698  get_equidist, get_equidist_main *)
Definition de_get_equidist (fuel : nat) (stateBitSize : Z) (v : nat) (basis : list lvec) : res Z :=
  let bs := Z.of_nat (v * di_elementNo info) in
  do bv <- geti basis bs;
  do p <- pos (lv_next bv);
  do basis' <- de_reduce fuel v bs basis p;
  do b0 <- geti basis' 0;
  do m <- de_min (v * di_elementNo info - 1) 1 basis' (lv_count b0);
  do q <- idiv stateBitSize bs;
  if m >? q then Throw else Ret m.

(** 700-773  calc_dSFMT_equidistribution *)
Variables (setStart setWeight : Z -> S -> S).
(** 730-758  the body of the loop over v; [vw] is veq_weight *)
Definition d_one_v (fuel : nat) (mexp : Z) (rand : S) (sm wm : Z) (v : nat) (vw : list Z) : res (list Z) :=
  let work := snd (g_generate G (setWeight wm (setStart sm rand))) in
  do basis <- de_new work v;
  do e0 <- de_get_equidist fuel (Z.of_nat (g_bitSize G rand)) v basis;
  let L := Z.of_nat (di_elementNo info) in
  let e := e0 * L - (L - wm) in
  do q <- idiv mexp (Z.of_nat v);
  if e >? q then Throw
  else
    do old <- geti vw (Z.of_nat v - 1);
    if e >? old then seti vw (Z.of_nat v - 1) e else Ret vw.
(** 729-759 *)
Fixpoint d_v_loop (fuel : nat) (mexp : Z) (rand : S) (sm wm : Z) (cnt v : nat) (vw : list Z) : res (list Z) :=
  match cnt with
  | O => Ret vw
  | Datatypes.S c => do vw' <- d_one_v fuel mexp rand sm wm v vw; d_v_loop fuel mexp rand sm wm c (v + 1) vw'
  end.
(** 719-760  the loop over wm *)
Fixpoint d_wm_loop (fuel : nat) (mexp : Z) (rand : S) (bit_len : nat) (sm : Z) (wms : list Z) (vw : list Z) : res (list Z) :=
  match wms with
  | [] => Ret vw
  | wm :: l =>
    do vw' <- d_v_loop fuel mexp rand sm wm bit_len 1 vw;
    d_wm_loop fuel mexp rand bit_len sm l vw'
  end.
(** 715-767  the loop over sm; 707-710: state_inc and weight_dec are 1,
    weight_max and state_max are elementNo.  fill is 716-718, min_veq 761-766. *)
Fixpoint d_sm_loop (fuel : nat) (mexp : Z) (rand : S) (bit_len : nat) (sms : list Z) (veq : list Z) : res (list Z) :=
  match sms with
  | [] => Ret veq
  | sm :: l =>
    do vw0 <- fill bit_len 0 (-1) (repeat 0 bit_len);
    do vw <- d_wm_loop fuel mexp rand bit_len sm (for_lt 1 (Z.of_nat (di_elementNo info) + 1) 1) vw0;
    do veq' <- min_veq bit_len 0 vw veq;
    d_sm_loop fuel mexp rand bit_len l veq'
  end.
(** 700-773; INT_MAX = 2^31 - 1; fill is 711-713, sum_veq 768-771 *)
Definition calc_DSFMT (fuel : nat) (mexp : Z) (rand : S) (bit_len : nat) (veq : list Z) : res (list Z * Z) :=
  do veq0 <- fill bit_len 0 (2 ^ 31 - 1) veq;
  do veq1 <- d_sm_loop fuel mexp rand bit_len (for_lt 0 (Z.of_nat (di_elementNo info)) 1) veq0;
  do sum <- sum_veq mexp bit_len 1 veq1 0;
  Ret (veq1, sum).
End Dsfmt.
Arguments dv_unit {S}.
Arguments dv_get_next {S}.
Arguments dv_step {S}.
Arguments dv_ns_loop {S}.
Arguments dv_next_state {S}.
Arguments dv_add {S}.
Arguments de_units {S}.
Arguments de_new {S}.
Arguments de_reduce {S}.
Arguments de_min {S}.
Arguments de_get_equidist {S}.
Arguments d_one_v {S}.
Arguments d_v_loop {S}.
Arguments d_wm_loop {S}.
Arguments d_sm_loop {S}.
Arguments calc_DSFMT {S}.
