(** Model of samples/sfmtdc/AlgorithmSIMDEquidistribution.hpp with U = w128_t.  [int] values are unbounded
    [Z]; array accesses, shifts and divisions are checked.  A w128_t in the
    record is stored as its 128-bit number, as in SfmtModel. *)
From Coq Require Import Arith NArith ZArith List Bool.
From Verif Require Import Base UtilModel GenModel EquiModel W128Model W128Spec SfmtModel.
Import ListNotations.
Local Open Scope Z_scope.

(** AlgorithmSIMDEquidistribution.hpp:56-60  SIMDInfo; elementNo is a count *)
Record simd_info := SI { si_bitSize : Z; si_bitMode : Z; si_elementNo : nat }.

(** 485-490, 504-507  the words w.u[] or w.u64[], reversed when lsb is set *)
Definition sv_words (info : simd_info) (lsb : bool) (w : w128) : list N :=
  if si_bitMode info =? 32 then
    map (fun i => if lsb then reverse_bit32 (w32 w i) else w32 w i) [0; 1; 2; 3]%nat
  else map (fun x => if lsb then reverse_bit64 x else x) [u0 w; u1 w].
(** 492, 509 *)
Definition sv_mask (info : simd_info) : N :=
  if si_bitMode info =? 32 then 0x80000000%N else 0x8000000000000000%N.
(** 493-501, 510-518  the loop over j, [cnt] passes *)
Fixpoint sv_bits (cnt : nat) (word mask : N) (k : Z) (next : w128) : res (Z * w128) :=
  match cnt with
  | O => Ret (k, next)
  | S c =>
    do next' <- w_setBit next k (if (N.land word mask =? 0)%N then 0%N else 1%N);
    sv_bits c word (wshr mask 1) (k - 1) next'
  end.
(** 491-502, 508-519  the loop over i, [cnt] passes left *)
Fixpoint sv_lanes (info : simd_info) (v : nat) (words : list N) (cnt i : nat) (k : Z) (next : w128) : res w128 :=
  match cnt with
  | O => Ret next
  | S c =>
    match nth_error words i with
    | None => Undef
    | Some word =>
      do '(k', next') <- sv_bits v word (sv_mask info) k next;
      sv_lanes info v words c (i + 1) k' next'
    end
  end.
(** 481-520  the part of get_next after the call of generate.  The loop over j
    runs from 0 in steps of elementNo below v * elementNo. *)
Definition sv_pack (info : simd_info) (lsb : bool) (v : nat) (w : w128) : res w128 :=
  sv_lanes info v (sv_words info lsb w) (si_elementNo info) 0 (si_bitSize info - 1) w_zero.

Section Simd.
Variable S : Type.
Variable G : gen_ops S.
(** calc_1pos for w128_t: see W128Model. *)
Variable pos : N -> res Z.
Variable info : simd_info.
Variable lsb : bool.
Notation lvec := (lvec S).

(** 143-166  simd_linear_generator_vector(generator, bit_pos, ...) *)
Definition sv_unit (g : S) (bit_pos : nat) : res lvec :=
  do x <- w_shl w_one (128 - Z.of_nat bit_pos - 1);
  Ret {| lv_rand := g_setZero G g; lv_count := 0; lv_zero := false; lv_next := wval x |}.
(** 474-529  get_next *)
Definition sv_get_next (v : nat) (b : lvec) : res lvec :=
  let '(w, r) := g_generate G (lv_rand b) in
  do x <- sv_pack info lsb v (w_of w);
  Ret {| lv_rand := r; lv_count := lv_count b; lv_zero := lv_zero b; lv_next := wval x |}.
(** 555-556 and 565-566: get_next(bitLen); count++; *)
Definition sv_step (v : nat) (b : lvec) : res lvec :=
  do c <- sv_get_next v b;
  Ret {| lv_rand := lv_rand c; lv_count := lv_count c + 1; lv_zero := lv_zero c; lv_next := lv_next c |}.
(** 557-567: [rem] is bitSize*2 minus zero_count *)
Fixpoint sv_ns_loop (v : nat) (rem : nat) (b : lvec) : res lvec :=
  if w_isZero (w_of (lv_next b)) then
    match rem with
    | O => Ret {| lv_rand := lv_rand b; lv_count := lv_count b; lv_zero := true; lv_next := lv_next b |}
    | Datatypes.S r => do b' <- sv_step v b; sv_ns_loop v r b'
    end
  else Ret b.
(** 547-568  next_state *)
Definition sv_next_state (v : nat) (b : lvec) : res lvec :=
  if lv_zero b then Ret b
  else do b' <- sv_step v b; sv_ns_loop v (2 * g_bitSize G (lv_rand b)) b'.
(** 461-468  add *)
Definition sv_add (b src : lvec) : lvec :=
  {| lv_rand := g_add G (lv_rand b) (lv_rand src); lv_count := lv_count b; lv_zero := lv_zero b;
     lv_next := wval (w_xor (w_of (lv_next b)) (w_of (lv_next src))) |}.

(** 308-310 *)
Fixpoint se_units (rand : S) (cnt i : nat) : res (list lvec) :=
  match cnt with
  | O => Ret []
  | Datatypes.S c => do u <- sv_unit rand i; do l <- se_units rand c (i + 1); Ret (u :: l)
  end.
(** 287-317  the constructor: the array basis *)
Definition se_new (rand : S) (bit_len : nat) : res (list lvec) :=
  do l <- se_units rand (bit_len * si_elementNo info) 0;
  do b <- sv_next_state bit_len (lv_gen rand);
  Ret (l ++ [b]).

(** 605-690  the loop of get_equidist_main, [bs] = v * elementNo *)
Fixpoint se_reduce (fuel : nat) (v : nat) (bs : Z) (basis : list lvec) (pivot : Z) : res (list lvec) :=
  match fuel with
  | O => NoFuel
  | Datatypes.S f =>
    do bv <- geti basis bs;
    if lv_zero bv then Ret basis
    else
      do bp <- geti basis pivot;
      (* 636-638 *)
      let sw := lv_count bv >? lv_count bp in
      let bv1 := if sw then bp else bv in
      let bp1 := if sw then bv else bp in
      do basis1 <- seti basis pivot bp1;
      (* 645 *)
      let bv2 := sv_add bv1 bp1 in
      if w_isZero (w_of (lv_next bv2)) then
        (* 652-654 *)
        do bv3 <- sv_next_state v bv2;
        do basis2 <- seti basis1 bs bv3;
        do p <- pos (lv_next bv3);
        se_reduce f v bs basis2 p
      else
        (* 674-688 *)
        do basis2 <- seti basis1 bs bv2;
        do p <- pos (lv_next bv2);
        if bs <=? p then Throw
        else if pivot <=? p then Throw
        else se_reduce f v bs basis2 p
  end.
(** 700-707 *)
Fixpoint se_min (cnt : nat) (i : Z) (basis : list lvec) (m : Z) : res Z :=
  match cnt with
  | O => Ret m
  | Datatypes.S c =>
    do b <- geti basis i;
    se_min c (i + 1) basis (if lv_zero b then m else if m >? lv_count b then lv_count b else m)
  end.
(** 443-448, 587-728  get_equidist, get_equidist_main *)
Definition se_get_equidist (fuel : nat) (stateBitSize : Z) (v : nat) (basis : list lvec) : res Z :=
  let bs := Z.of_nat (v * si_elementNo info) in
  do bv <- geti basis bs;
  do p <- pos (lv_next bv);
  do basis' <- se_reduce fuel v bs basis p;
  do b0 <- geti basis' 0;
  do m <- se_min (v * si_elementNo info - 1) 1 basis' (lv_count b0);
  do q <- idiv stateBitSize bs;
  if m >? q then Throw else Ret m.

(** 731-808  calc_SIMD_equidistribution *)
Variables (setStart setWeight : Z -> S -> S).
(** for (x = lo; x < hi; x += step) *)
Fixpoint range (fuel : nat) (x hi step : Z) : list Z :=
  match fuel with
  | O => []
  | Datatypes.S f => if x <? hi then x :: range f (x + step) hi step else []
  end.
Definition for_lt (lo hi step : Z) : list Z := range (Z.to_nat (hi - lo)) lo hi step.
Definition state_inc : Z := if si_bitMode info =? 32 then 1 else 2.
(** 739-740 *)
Definition weight_max : Z := Z.quot (si_bitSize info) 32.
(** 748-750, 753-755 *)
Fixpoint fill (cnt : nat) (i : Z) (x : Z) (a : list Z) : res (list Z) :=
  match cnt with
  | O => Ret a
  | Datatypes.S c => do a' <- seti a i x; fill c (i + 1) x a'
  end.
(** 766-792  the body of the loop over v; [vw] is veq_weight *)
Definition one_v (fuel : nat) (mexp : Z) (rand work : S) (wm : Z) (v : nat) (vw : list Z) : res (list Z) :=
  do basis <- se_new work v;
  do e0 <- se_get_equidist fuel (Z.of_nat (g_bitSize G rand)) v basis;
  let L := Z.of_nat (si_elementNo info) in
  let e := if si_bitMode info =? 32 then e0 * L - (L - wm) else e0 * L - (L - Z.quot wm 2) in
  do q <- idiv mexp (Z.of_nat v);
  if e >? q then Throw
  else
    do old <- geti vw (Z.of_nat v - 1);
    if e >? old then seti vw (Z.of_nat v - 1) e else Ret vw.
Fixpoint v_loop (fuel : nat) (mexp : Z) (rand work : S) (wm : Z) (cnt v : nat) (vw : list Z) : res (list Z) :=
  match cnt with
  | O => Ret vw
  | Datatypes.S c => do vw' <- one_v fuel mexp rand work wm v vw; v_loop fuel mexp rand work wm c (v + 1) vw'
  end.
(** 756-794  the loop over wm *)
Fixpoint wm_loop (fuel : nat) (mexp : Z) (rand : S) (bit_len : nat) (sm : Z) (wms : list Z) (vw : list Z) : res (list Z) :=
  match wms with
  | [] => Ret vw
  | wm :: l =>
    let work := snd (g_generate G (setWeight wm (setStart sm rand))) in
    do vw' <- v_loop fuel mexp rand work wm bit_len 1 vw;
    wm_loop fuel mexp rand bit_len sm l vw'
  end.
(** 795-800 *)
Fixpoint min_veq (cnt : nat) (i : Z) (vw veq : list Z) : res (list Z) :=
  match cnt with
  | O => Ret veq
  | Datatypes.S c =>
    do a <- geti veq i;
    do b <- geti vw i;
    do veq' <- (if a >? b then seti veq i b else Ret veq);
    min_veq c (i + 1) vw veq'
  end.
(** 752-801  the loop over sm *)
Fixpoint sm_loop (fuel : nat) (mexp : Z) (rand : S) (bit_len : nat) (sms : list Z) (veq : list Z) : res (list Z) :=
  match sms with
  | [] => Ret veq
  | sm :: l =>
    do vw0 <- fill bit_len 0 (-1) (repeat 0 bit_len);
    do vw <- wm_loop fuel mexp rand bit_len sm (for_lt state_inc (weight_max + 1) state_inc) vw0;
    do veq' <- min_veq bit_len 0 vw veq;
    sm_loop fuel mexp rand bit_len l veq'
  end.
(** 803-806 *)
Fixpoint sum_veq (mexp : Z) (cnt i : nat) (veq : list Z) (sum : Z) : res Z :=
  match cnt with
  | O => Ret sum
  | Datatypes.S c =>
    do q <- idiv mexp (Z.of_nat i);
    do k <- geti veq (Z.of_nat i - 1);
    sum_veq mexp c (i + 1) veq (sum + (q - k))
  end.
(** 731-808; INT_MAX = 2^31 - 1 *)
Definition calc_SIMD (fuel : nat) (mexp : Z) (rand : S) (bit_len : nat) (veq : list Z) : res (list Z * Z) :=
  do veq0 <- fill bit_len 0 (2 ^ 31 - 1) veq;
  do veq1 <- sm_loop fuel mexp rand bit_len (for_lt 0 weight_max state_inc) veq0;
  do sum <- sum_veq mexp bit_len 1 veq1 0;
  Ret (veq1, sum).
End Simd.
Arguments sv_unit {S}.
Arguments sv_get_next {S}.
Arguments sv_step {S}.
Arguments sv_ns_loop {S}.
Arguments sv_next_state {S}.
Arguments sv_add {S}.
Arguments se_units {S}.
Arguments se_new {S}.
Arguments se_reduce {S}.
Arguments se_min {S}.
Arguments se_get_equidist {S}.
Arguments one_v {S}.
Arguments v_loop {S}.
Arguments wm_loop {S}.
Arguments sm_loop {S}.
Arguments calc_SIMD {S}.
