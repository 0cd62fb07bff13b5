(** Property C70: calc_dSFMT_equidistribution on objects of class dSFMT. *)
From Coq Require Import NArith ZArith List Bool Lia.
From mathcomp Require Import all_ssreflect all_algebra.
From mathcomp Require Import zify.
From Verif Require Import Base GenModel LinSpec ArrayModel W128Model W128Spec SfmtModel SfmtParity SimdModel SimdSpec SimdProofs SimdProps
  DsfmtModel DsfmtLin DsfmtEquiModel DsfmtEquiSpec DsfmtEqui DsfmtEquiProofs DsfmtEquiThm DsfmtProps.
Set Implicit Arguments.
Unset Strict Implicit.
Unset Printing Implicit Defensive.
Local Open Scope nat_scope.
Delimit Scope Z_scope with coqZ.
Delimit Scope N_scope with num.

(** The call, as [dsfmt_call] says it: c has legal parameters and prefix 0, s is a
    legal object with the words W, mexp < 2^31 is the order of a linear recurrence
    of W, pos is calc_1pos, bit_len is at most 52. *)
(** Full statement: the call returns, and veq[v - 1] is the greatest k such
    that k consecutive 52-bit words, from every phase on, are equidistributed
    with v bits; sum is the sum of the defects.  What holds: the call returns,
    the value r is such a k, and the greatest one is r or r + 1, and r if it is
    even. *)
Theorem C70_dsfmt_equi_partial : forall c s W pos fuel mexp bit_len veq,
  dsfmt_call c s W pos fuel mexp bit_len -> bit_len <= length veq ->
  exists veq' sum,
    calc_DSFMT ds_ops pos (DI 128 2) ds_setStart ds_setWeight fuel (Z.of_nat mexp) s bit_len veq = Ret (veq', sum) /\
    sum = defect_sum mexp bit_len veq' /\
    length veq' = length veq /\ (forall u, bit_len <= u -> List.nth u veq' 0%coqZ = List.nth u veq 0%coqZ) /\
    forall v, 1 <= v <= bit_len -> exists r : nat,
      List.nth (v - 1) veq' 0%coqZ = Z.of_nat r /\
      (forall phi, equid52 W phi v r) /\
      forall k, (forall phi, equid52 W phi v k) -> k <= r + 1 /\ (Nat.modulo k 2 = 0 -> k <= r).
Proof. exact dsfmt_thm. Qed.

(** Full blocks only: the value is at most the greatest even number below
    mexp / v, so an odd optimal dimension is never reported and for an odd mexp the
    sum of the defects is never 0. *)
Theorem C70_limit : forall c s W pos fuel mexp bit_len veq veq' sum,
  dsfmt_call c s W pos fuel mexp bit_len -> bit_len <= length veq ->
  calc_DSFMT ds_ops pos (DI 128 2) ds_setStart ds_setWeight fuel (Z.of_nat mexp) s bit_len veq = Ret (veq', sum) ->
  (forall v, 1 <= v <= bit_len -> (List.nth (v - 1) veq' 0 <= Z.of_nat (2 * (mexp %/ (2 * v))))%coqZ) /\
  (1 <= bit_len -> (Z.of_nat (mexp %% 2) <= sum)%coqZ).
Proof. exact dlimit_thm. Qed.

(** The full statement is false: the leading bits of the 52-bit words of a
    constant sequence.  One word is equidistributed, 0 is reported. *)
Theorem C70_exact_refuted : exists c s W, forall pos fuel, pos_spec 128 pos -> (e_size c * 416 + 618) * 129 <= fuel ->
  dsfmt_call c s W pos fuel 521 1 /\
  exists veq' sum, calc_DSFMT ds_ops pos (DI 128 2) ds_setStart ds_setWeight fuel 521 s 1 [:: 0%coqZ] = Ret (veq', sum) /\
    List.nth 0 veq' 0%coqZ = 0%coqZ /\ forall phi, equid52 W phi 1 1.
Proof. exact drefuted_thm. Qed.

(** Every object has a recurrence of order 104 * size + 128. *)
Theorem C70_recurrent : forall c s W, dsc_ok c -> dsfmt_ok c s -> dsfmt_words s W -> recurrent W (e_size c * 104 + 128).
Proof. exact ds_words_recurrent. Qed.
Theorem C70_words : forall c s, dsc_ok c -> dsfmt_ok c s -> exists W, dsfmt_words s W.
Proof. exact ds_words_exist. Qed.

(** dSFMT521 with the seed 1234, all 52 bits. *)
Lemma fd_big : (4 * 416 + 618) * 129 <= N.to_nat 400000.
Proof. lia. Qed.
Example C70_case : exists W : nat -> N, forall fuel, N.to_nat 400000 <= fuel ->
  dsfmt_call (ds_exc 0 2) (ds_ex 0 2) W (fun x => Ret (w_calc_1pos_wrap (w_of x))) fuel 544 52.
Proof.
have [Hc Hs] := ds_ex_ok 0 2. have [W HW] := ds_words_exist Hc Hs. exists W => fuel Hf. have R := ds_words_recurrent Hc Hs HW.
have F := leq_trans fd_big Hf.
split; [split; [exact: Hc|exact: Hs|exact: HW]|split; [exact: R|by []|exact: pos_spec128|exact: F|by []]].
Qed.

Print Assumptions C70_dsfmt_equi_partial.
Print Assumptions C70_limit.
Print Assumptions C70_exact_refuted.
Print Assumptions C70_recurrent.
Print Assumptions C70_words.
