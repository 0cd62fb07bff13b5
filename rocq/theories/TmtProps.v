(** Property C85: the TinyMT32 and the class Tiny32 of test/. *)
From Coq Require Import NArith ZArith List Bool QArith Lia.
From mathcomp Require Import all_ssreflect all_algebra.
From mathcomp Require Import zify.
From Verif Require Import Base GenModel LinSpec PeriodSpec EquiModel TinyModel TinyLin TinySpec TinyPeriod TmtModel TmtSpec TmtProofs TmtProofs2.
Set Implicit Arguments.
Unset Strict Implicit.
Unset Printing Implicit Defensive.
Local Open Scope N_scope.
Delimit Scope Z_scope with coqZ.
Delimit Scope Q_scope with coqQ.

(** With LINEARITY_CHECK it is the generator of the parameter search: after n
    steps the same words and the same output. *)
Theorem C85_sequence : forall n t, let s := Nat.iter n tmt_next t in
  as_search s = Nat.iter n (fun g => (tiny_generate g).2) (as_search t) /\
  (tmt_uint32 true s).1 = (tiny_generate (as_search s)).1.
Proof. exact words_bridge. Qed.

(** Seeding leaves the parameters alone and never ends in the zero state. *)
Theorem C85_init : forall t seed, seed < 2 ^ 32 -> p_ok (par t) ->
  words_ok (tmt_init t seed) /\ state127 (tmt_init t seed) <> (0, 0, 0, 0) /\ par (tmt_init t seed) = par t.
Proof. exact init_spec. Qed.
Theorem C85_init_by_array_partial : forall t key, p_ok (par t) -> (Z.of_nat (length key) < 2 ^ 31 - 1)%coqZ ->
  exists t', tmt_init_by_array t key = Ret t' /\ words_ok t' /\ state127 t' <> (0, 0, 0, 0) /\ par t' = par t.
Proof. exact init_array_spec. Qed.
(** The full statement, for keys of any length an int can hold, is false:
    key_length + 1 overflows. *)
Theorem C85_init_by_array_refuted : forall t, exists key, tmt_init_by_array t key = Undef.
Proof. exact overflow_exists. Qed.

(** From every such state the period is 2^127 - 1 if the parameters are of
    maximal period. *)
Theorem C85_period : forall t, words_ok t -> state127 t <> (0, 0, 0, 0) -> tiny_maximal (par t) -> least_period (2 ^ 127 - 1) t.
Proof. exact period_of. Qed.
(** Different seeds give different states, with one exceptional tmat for which
    the zero state can turn up before the certification. *)
Theorem C85_seeds : forall t a b, a < 2 ^ 32 -> b < 2 ^ 32 -> p_ok (par t) -> t_tmat t <> 2284664934 ->
  state127 (tmt_init t a) = state127 (tmt_init t b) -> a = b.
Proof. exact seeds_distinct. Qed.
(** All of it for the parameters of the class Tiny32. *)
Theorem C85_published : forall a b, a < 2 ^ 32 -> b < 2 ^ 32 ->
  least_period (2 ^ 127 - 1) (tiny32_new a) /\ (state127 (tiny32_new a) = state127 (tiny32_new b) -> a = b).
Proof. exact published_thm. Qed.

(** The floating point functions in terms of the 32-bit output u, all exact. *)
Theorem C85_floats : forall lin t, words_ok t ->
  let u := (tmt_uint32 lin t).1 in let t1 := tmt_next t in
  [/\ u < 2 ^ 32,
      Qeq (tmt_float lin t).1 (inject_Z (Z.of_N (u / 2 ^ 8)) * (1 # 16777216))%coqQ /\ (tmt_float lin t).2 = t1,
      Qeq (tmt_float12 lin t).1 (1 + inject_Z (Z.of_N (u / 2 ^ 9)) * (1 # 8388608))%coqQ /\ (tmt_float12 lin t).2 = t1,
      Qeq (tmt_float01 lin t).1 (inject_Z (Z.of_N (u / 2 ^ 9)) * (1 # 8388608))%coqQ /\ (tmt_float01 lin t).2 = t1 &
      Qeq (tmt_floatOO lin t).1 (inject_Z (Z.of_N (2 * (u / 2 ^ 10) + 1)) * (1 # 8388608))%coqQ /\ (tmt_floatOO lin t).2 = t1 /\
      Qeq (tmt_32double lin t).1 (inject_Z (Z.of_N u) * (1 # 4294967296))%coqQ /\ (tmt_32double lin t).2 = t1].
Proof. exact floats_thm. Qed.
Theorem C85_ranges : forall lin t, words_ok t ->
  (Qle 0 (tmt_float lin t).1 /\ Qlt (tmt_float lin t).1 1) /\
  (Qle 1 (tmt_float12 lin t).1 /\ Qlt (tmt_float12 lin t).1 (2 # 1)) /\
  (Qle 0 (tmt_float01 lin t).1 /\ Qlt (tmt_float01 lin t).1 1) /\
  (Qlt 0 (tmt_floatOC lin t).1 /\ Qle (tmt_floatOC lin t).1 1) /\
  (Qlt 0 (tmt_floatOO lin t).1 /\ Qlt (tmt_floatOO lin t).1 1) /\
  (Qle 0 (tmt_32double lin t).1 /\ Qlt (tmt_32double lin t).1 1).
Proof. exact ranges_thm. Qed.
(** generate_floatOC takes two steps: it is not one minus generate_float of the
    same state. *)
Theorem C85_floatOC_refuted : exists t, words_ok t /\ state127 (tmt_floatOC false t).2 <> state127 (tmt_next t) /\
  ~ Qeq (tmt_floatOC false t).1 (1 - (tmt_float false t).1)%coqQ.
Proof. exact floatOC_two. Qed.

(** Tiny32 meets the contract of the toolbox, and the program test_equidist
    reports success whatever the seed. *)
Theorem C85_Tiny32_linear : forall p, linear_gen tiny32_ops (t32_ok p) t32_vec (tiny_A (p, false)) (tiny_C (p, false)).
Proof. exact tiny32_linear. Qed.
Theorem C85_Tiny32_isZero : forall p t, t32_ok p t -> tiny32_isZero t <-> t32_vec t = 0%R.
Proof. exact tiny32_zero. Qed.
Theorem C85_test_equidist : forall pos fuel veq0 seed, pos_spec 32 pos -> 17000 <= N.of_nat fuel -> (32 <= length veq0)%N ->
  seed < 2 ^ 32 -> test_equidist_main pos fuel veq0 seed = Ret 0%coqZ.
Proof. exact test_equidist_ok. Qed.

(** The seed 1 with the parameters of Tiny32: the first outputs (published in
    RFC 8682) without LINEARITY_CHECK, and a legal key. *)
Example C85_case : List.map (fun n => (tmt_uint32 false (Nat.iter n tmt_next (tiny32_new 1))).1) (0 :: 1 :: 2 :: 3 :: 4 :: nil)%list%nat =
  (2545341989 :: 981918433 :: 3715302833 :: 2387538352 :: 3591001365 :: nil)%list /\
  p_ok (par (tiny32_new 1)) /\ t_tmat (tiny32_new 1) <> 2284664934 /\ words_ok (tiny32_new 1) /\
  tmt_init_by_array (tiny32_new 1) (1 :: 2 :: nil)%list <> tmt_init_by_array (tiny32_new 1) (2 :: 1 :: nil)%list.
Proof. by split; [|split; [|split; [|split]]]; vm_compute. Qed.
Example C85_maximal : tiny_maximal (par (tiny32_new 1)).
Proof. have -> : par (tiny32_new 1) = tiny_pub by vm_compute. exact: tiny_pub_max. Qed.

Print Assumptions C85_sequence.
Print Assumptions C85_init.
Print Assumptions C85_init_by_array_partial.
Print Assumptions C85_init_by_array_refuted.
Print Assumptions C85_period.
Print Assumptions C85_seeds.
Print Assumptions C85_published.
Print Assumptions C85_floats.
Print Assumptions C85_ranges.
Print Assumptions C85_floatOC_refuted.
Print Assumptions C85_Tiny32_linear.
Print Assumptions C85_Tiny32_isZero.
Print Assumptions C85_test_equidist.
