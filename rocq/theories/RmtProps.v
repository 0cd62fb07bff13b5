(** Properties C45, C57: RMT64Search. *)
From Coq Require Import NArith ZArith List Bool Lia.
From mathcomp Require Import all_ssreflect all_algebra.
From mathcomp Require Import zify.
From Verif Require Import Base UtilModel GenModel LinSpec PeriodSpec ArrayModel ArrayWin MtdcProofs RmtModel RmtLin RmtProofs.
Set Implicit Arguments.
Unset Strict Implicit.
Unset Printing Implicit Defensive.
Import GRing.Theory.
Local Open Scope ring_scope.
Delimit Scope Z_scope with coqZ.

(** C45: bit j of the array is set exactly for j = i, for the lower 31 bits of
    each word. *)
Theorem C45_setOneBit_partial : forall p, rmtp_ok p -> forall g i, rmt_ok p g -> (i < r_size p * 64)%N -> (Nat.modulo i 64 < 31)%N ->
  exists g', [/\ rmt_setOneBit i g = Ret g', rmt_ok p g' & forall j, rmt_bit g' j = (j == i)].
Proof. exact setOneBit_ok. Qed.
(** Then the vector of the state is a unit vector. *)
Theorem C45_unit_vector_partial : forall p, rmtp_ok p -> forall g (i : 'I_(r_size p * 64)), rmt_ok p g -> (Nat.modulo i 64 < 31)%N ->
  exists g', [/\ rmt_setOneBit i g = Ret g', rmt_ok p g' & rmt_vec p g' = delta_mx 0 i].
Proof. exact setOneBit_vec. Qed.
(** For bit 31 of a word 33 bits are set; above that the shift is undefined. *)
Theorem C45_bit31 : forall p, rmtp_ok p -> forall g i, rmt_ok p g -> (i < r_size p * 64)%N -> Nat.modulo i 64 = 31%N ->
  exists g', rmt_setOneBit i g = Ret g' /\ forall j, rmt_bit g' j = (i <= j < i + 33)%N.
Proof. exact setOneBit_31. Qed.
Theorem C45_high_undefined : forall p g i, rmt_ok p g -> (i < r_size p * 64)%N -> (32 <= Nat.modulo i 64)%N ->
  rmt_setOneBit i g = Undef.
Proof. exact setOneBit_undef. Qed.

(** setParityValue: the value is read back by getParityValue and kept as the
    parameter; the other parameters, words and the index stay. *)
Theorem C45_setParityValue : forall p, rmtp_ok p -> forall g v, rmt_ok p g ->
  let g' := rmt_setParity v g in
  [/\ rmt_getParity g' = v, r_par g'.1 = v,
      (r_mexp g'.1, r_size g'.1, r_rev g'.1, r_pos g'.1, r_mata g'.1, r_maskb g'.1, r_maskc g'.1) =
        (r_mexp p, r_size p, r_rev p, r_pos p, r_mata p, r_maskb p, r_maskc p), rr_idx g'.2 = rr_idx g.2 &
      forall j, j <> rr_idx g.2 -> List.nth j (rr_arr g'.2) 0%num = List.nth j (rr_arr g.2) 0%num].
Proof.
move=> p Hp [p' s] v [/= <- [Hi [Hl _]]]. have Hm : Nat.modulo (rr_idx s) (r_size p') = rr_idx s by apply: Nat.mod_small; lia.
have Hlt : (rr_idx s < length (rr_arr s))%coq_nat by rewrite Hl; lia.
split=> //=.
- rewrite /rmt_getParity /rr_at /= Hm nth_put //. by rewrite Nat.eqb_refl.
- move=> j Hj. rewrite Hm nth_put //. by case: Nat.eqb_spec.
Qed.

Definition rmt_ex : rmt := rmt_new 521 4 0xd3938f49b3a0e7c1 0x5555 0x7777 1.
Example C45_case : rmtp_ok rmt_ex.1 /\ rmt_ok rmt_ex.1 rmt_ex /\ (64 + 30 < r_size rmt_ex.1 * 64)%N /\ (Nat.modulo (64 + 30) 64 < 31)%N /\
  Nat.modulo (64 + 31) 64 = 31%N /\ (32 <= Nat.modulo (64 + 63) 64)%N.
Proof.
have [H1 H2] : rmtp_ok rmt_ex.1 /\ rmt_ok rmt_ex.1 rmt_ex by apply: rmt_new_ok.
by do 2!split.
Qed.
(** So the claim is false. *)
Theorem C45_setOneBit_refuted : exists p g i, [/\ rmtp_ok p, rmt_ok p g, (i < r_size p * 64)%N &
  ~ exists g', rmt_setOneBit i g = Ret g' /\ forall j, rmt_bit g' j = (j == i)].
Proof.
have [H1 H2] : rmtp_ok rmt_ex.1 /\ rmt_ok rmt_ex.1 rmt_ex by apply: rmt_new_ok.
exists rmt_ex.1, rmt_ex, 32%N; split=> // -[g' []]. by rewrite (setOneBit_undef H2).
Qed.

(** C57: the class is a linear generator on all its bits, wherever the index
    stands; isZero is right. *)
Theorem C57_linear : forall p, rmtp_ok p -> linear_gen rmt_ops (rmt_ok p) (rmt_vec p) (rmt_A p) (rmt_C p).
Proof. exact rmt_lin. Qed.
Theorem C57_output : forall p, rmtp_ok p -> linear_out rmt_ops (rmt_ok p) (rmt_vec p) (rmt_D p).
Proof. exact rmt_linout. Qed.
Theorem C57_state : forall p, rmtp_ok p -> forall s t, rmt_ok p s -> rmt_ok p t ->
  let word (g : rmt) k := List.nth ((rr_idx g.2 + 1 + k) mod r_size p)%nat (rr_arr g.2) 0%num in
  rmt_vec p s = rmt_vec p t <-> forall k, (k < r_size p)%N -> word s k = word t k.
Proof. exact rmt_state. Qed.
Theorem C57_isZero : forall p, rmtp_ok p -> forall s, rmt_ok p s -> rmt_isZero s = true <-> rmt_vec p s = 0.
Proof. exact rmt_isZero_vec. Qed.
(** With a middle position that is not 0 the transition is invertible exactly if
    the top bit of mata is set; then every list of size numbers is produced by
    some state. *)
Theorem C57_invertible : forall p, rmtp_ok p -> (0 < r_pos p)%N -> rmt_A p \in unitmx <-> N.testbit (r_mata p) 63.
Proof. exact rmt_unit. Qed.
Theorem C57_any_outputs : forall p, rmtp_ok p -> forall ys : seq N, (0 < r_pos p)%N -> N.testbit (r_mata p) 63 ->
  length ys = r_size p -> List.Forall (fun y => (y < 2 ^ 64)%num) ys ->
  exists s, rmt_ok p s /\ outputs rmt_ops (r_size p) s = ys.
Proof. exact rmt_any_outputs. Qed.
(** The objects of the programs meet the hypotheses. *)
Theorem C57_new : forall mexp pos mata mb mc v, (pos < Nat.div mexp 64 + 1)%N ->
  (mata < 2 ^ 64)%num -> (mb < 2 ^ 64)%num -> (mc < 2 ^ 64)%num -> (v < 2 ^ 64)%num ->
  rmtp_ok (rmt_new mexp pos mata mb mc v).1 /\ rmt_ok (rmt_new mexp pos mata mb mc v).1 (rmt_new mexp pos mata mb mc v).
Proof. exact rmt_new_ok. Qed.
Theorem C57_setUpParam : forall p s u1 u2, rmtp_ok p -> rmt_ok p (p, s) -> (u1 < 2 ^ 64)%num -> (u2 < 2 ^ 64)%num ->
  let q := (rmt_setUpParam u1 u2 (p, s)).1 in rmtp_ok q /\ rmt_ok q (rmt_setUpParam u1 u2 (p, s)).
Proof. exact rmt_setUpParam_ok. Qed.
(** getParamString alters the masks of the object, but not what it generates. *)
Theorem C57_getParamString : forall g, rmt_generate g =
  (let g' := rmt_getParamString_effect g in let '(x, h) := rmt_generate g' in (x, (g.1, h.2))).
Proof. exact paramString_same. Qed.
Example C57_case : rmtp_ok rmt_ex.1 /\ rmt_ok rmt_ex.1 rmt_ex /\ r_size rmt_ex.1 = 9%N /\ (0 < r_pos rmt_ex.1)%N /\
  N.testbit (r_mata rmt_ex.1) 63 /\ (rmt_getParamString_effect rmt_ex).1 <> rmt_ex.1.
Proof.
have [H1 H2] : rmtp_ok rmt_ex.1 /\ rmt_ok rmt_ex.1 rmt_ex by apply: rmt_new_ok.
by do 4! [split=> //].
Qed.

Print Assumptions C45_setOneBit_partial.
Print Assumptions C45_unit_vector_partial.
Print Assumptions C45_bit31.
Print Assumptions C45_high_undefined.
Print Assumptions C45_setParityValue.
Print Assumptions C45_setOneBit_refuted.
Print Assumptions C57_linear.
Print Assumptions C57_output.
Print Assumptions C57_state.
Print Assumptions C57_isZero.
Print Assumptions C57_invertible.
Print Assumptions C57_any_outputs.
Print Assumptions C57_new.
Print Assumptions C57_setUpParam.
Print Assumptions C57_getParamString.
