(** Property C64: calc_SIMD_equidistribution on objects of class sfmt. *)
From Coq Require Import NArith ZArith List Bool Lia.
From mathcomp Require Import all_ssreflect all_algebra.
From mathcomp Require Import zify.
From Verif Require Import Base GenModel LinSpec ArrayModel DelayLin W128Model SfmtModel SfmtLin SfmtProofs SfmtParity SimdModel SimdPack SimdSpec SimdSeq SimdBits SimdProofs SimdThm SfmtProps.
Set Implicit Arguments.
Unset Strict Implicit.
Unset Printing Implicit Defensive.
Local Open Scope nat_scope.
Delimit Scope Z_scope with coqZ.
Delimit Scope N_scope with num.

(** The call, as [simd_call] says it: info is one of the two word sizes, c has
    legal parameters, at least three words and pos1 no multiple of size, s is a
    legal object with the words W, mexp < 2^31 is the order of a linear
    recurrence of W, pos is calc_1pos, bit_len at most the word size. *)
(** Full statement: the call returns, and veq[v - 1] is the greatest k such
    that k consecutive short words, from every phase on, are equidistributed
    with v bits; sum is the sum of the defects.  What holds: the call returns,
    the value r is such a k, and the greatest one is less than r + L, where L is
    the number of short words in a 128-bit word, and is r if L divides it. *)
Theorem C64_simd_partial : forall info ew L lsb c s W pos fuel mexp bit_len veq,
  simd_call info ew L c s W pos fuel mexp bit_len -> bit_len <= length veq ->
  exists veq' sum,
    calc_SIMD sf_ops pos info lsb sf_setStart sf_setWeight fuel (Z.of_nat mexp) s bit_len veq = Ret (veq', sum) /\
    sum = defect_sum mexp bit_len veq' /\
    length veq' = length veq /\ (forall u, bit_len <= u -> List.nth u veq' 0%coqZ = List.nth u veq 0%coqZ) /\
    forall v, 1 <= v <= bit_len -> exists r : nat,
      List.nth (v - 1) veq' 0%coqZ = Z.of_nat r /\
      (forall phi, equid lsb ew L W phi v r) /\
      forall k, (forall phi, equid lsb ew L W phi v k) -> k < r + L /\ (Nat.modulo k L = 0 -> k <= r).
Proof. exact simd_thm. Qed.

(** Full blocks only: the value is at most the greatest multiple of L below
    mexp / v, so an optimal dimension mexp / v which is not a multiple of L is never
    reported and the sum of the defects never becomes 0. *)
Theorem C64_limit : forall info ew L lsb c s W pos fuel mexp bit_len veq veq' sum,
  simd_call info ew L c s W pos fuel mexp bit_len -> bit_len <= length veq ->
  calc_SIMD sf_ops pos info lsb sf_setStart sf_setWeight fuel (Z.of_nat mexp) s bit_len veq = Ret (veq', sum) ->
  (forall v, 1 <= v <= bit_len -> (List.nth (v - 1) veq' 0 <= Z.of_nat (L * (mexp %/ (L * v))))%coqZ) /\
  (1 <= bit_len -> (Z.of_nat (mexp %% L) <= sum)%coqZ).
Proof. exact limit_thm. Qed.

(** The full statement is false: parameters of SFMT1279, the lowest bits of the
    32-bit words of a constant sequence.  One word is equidistributed, 0 is
    reported. *)
Theorem C64_exact_refuted : exists c s W, forall pos fuel, pos_spec 128 pos -> (c_size c * 512 + 194) * 129 <= fuel ->
  simd_call (SI 128 32 4) 32 4 c s W pos fuel 1279 1 /\
  exists veq' sum, calc_SIMD sf_ops pos (SI 128 32 4) true sf_setStart sf_setWeight fuel 1279 s 1 [:: 0%coqZ] = Ret (veq', sum) /\
    List.nth 0 veq' 0%coqZ = 0%coqZ /\ forall phi, equid true 32 4 W phi 1 1.
Proof. exact refuted_thm. Qed.

(** Every object has a recurrence of order 128 * size. *)
Theorem C64_recurrent : forall c s W, sfc_ok c -> sfmt_ok c s -> sfmt_words s W -> recurrent W (c_size c * 128).
Proof. exact words_recurrent. Qed.
Theorem C64_words : forall c s, sfc_ok c -> sfmt_ok c s -> exists W, sfmt_words s W.
Proof. exact words_exist. Qed.

(** SFMT607 with the seed 1234: all 32-bit words, all 64-bit words. *)
Lemma f_big : (5 * 512 + 194) * 129 <= N.to_nat 400000.
Proof. lia. Qed.
Example C64_case : exists W : nat -> N, forall fuel, N.to_nat 400000 <= fuel ->
  let pos := fun x => Ret (w_calc_1pos_wrap (w_of x)) in
  simd_call (SI 128 32 4) 32 4 (sf_exc 0 4) (sf_ex 0 4) W pos fuel 640 32 /\
  simd_call (SI 128 64 2) 64 2 (sf_exc 0 4) (sf_ex 0 4) W pos fuel 640 64.
Proof.
have [Hc Hs] := sf_ex_ok 0 4. have [W HW] := words_exist Hc Hs. exists W => fuel Hf. cbv zeta. have R := words_recurrent Hc Hs HW.
have F := leq_trans f_big Hf.
split; (split; [split; [by [left|right]|exact: Hc|exact: Hs|exact: HW]|split; [split; [by []|by vm_compute|exact: R|by []]|split; [exact: pos_spec128|exact: F|by []]]]).
Qed.

Print Assumptions C64_simd_partial.
Print Assumptions C64_limit.
Print Assumptions C64_exact_refuted.
Print Assumptions C64_recurrent.
Print Assumptions C64_words.
