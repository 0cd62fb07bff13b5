(** Property C86: the TinyMT64 and the class Tiny64 of test/. *)
From Coq Require Import NArith ZArith List Bool QArith.
From mathcomp Require Import all_ssreflect.
From Verif Require Import Base T64Model T64Spec T64Proofs.
Set Implicit Arguments.
Unset Strict Implicit.
Unset Printing Implicit Defensive.
Local Open Scope N_scope.
Delimit Scope Z_scope with coqZ.
Delimit Scope Q_scope with coqQ.

(** With LINEARITY_CHECK the next state and the output are linear in the
    state. *)
Theorem C86_linear : forall t u, same_par t u ->
  t64_next (xor64 t u) = xor64 (t64_next t) (t64_next u) /\
  (t64_uint64 true (xor64 t u)).1 = N.lxor (t64_uint64 true t).1 (t64_uint64 true u).1.
Proof. exact linear64. Qed.
(** The step loses none of the 127 bits, whatever the parameters. *)
Theorem C86_invertible : forall t u, words64_ok t -> words64_ok u -> same_par t u ->
  state64 (t64_next t) = state64 (t64_next u) -> state64 t = state64 u.
Proof. exact next_inj64. Qed.
(** The period for the published parameters, from every state but zero. *)
Theorem C86_period : forall t, words64_ok t -> published64 t -> state64 t <> (0, 0) -> least_period64 (2 ^ 127 - 1) t.
Proof. exact published_period. Qed.

(** Seeding leaves the parameters alone and never ends in the zero state. *)
Theorem C86_init : forall t seed, seed < 2 ^ 64 -> par64_ok t ->
  words64_ok (t64_init t seed) /\ state64 (t64_init t seed) <> (0, 0) /\ same_par (t64_init t seed) t.
Proof. exact init64. Qed.
Theorem C86_init_by_array_partial : forall t key, par64_ok t -> (Z.of_nat (length key) < 2 ^ 31 - 1)%coqZ ->
  exists t', t64_init_by_array t key = Ret t' /\ words64_ok t' /\ state64 t' <> (0, 0) /\ same_par t' t.
Proof. exact init64_array. Qed.
(** The full statement, for keys of any length an int can hold, is false:
    key_length + 1 overflows. *)
Theorem C86_init_by_array_refuted : forall t, exists key, t64_init_by_array t key = Undef.
Proof. exact overflow64. Qed.
(** Different seeds give different status words, the certified state apart.
    Missing: that they differ in the 127 bits that count and not only in the
    top bit of the first word, which the generator ignores. *)
Theorem C86_seeds_partial : forall t a b,
  s_status (t64_init t a) = s_status (t64_init t b) -> a = b \/ s_status (t64_init t a) = (84, 77).
Proof. exact seeds64. Qed.
(** The class Tiny64. *)
Theorem C86_Tiny64 : forall seed, seed < 2 ^ 64 -> least_period64 (2 ^ 127 - 1) (tiny64_new seed).
Proof. exact tiny64_period. Qed.

(** The floating point functions in terms of the 64-bit output u, all exact. *)
Theorem C86_doubles : forall lin t, words64_ok t ->
  let u := (t64_uint64 lin t).1 in let t1 := t64_next t in
  [/\ u < 2 ^ 64,
      Qeq (t64_double lin t).1 (inject_Z (Z.of_N (u / 2 ^ 11)) * (1 # 9007199254740992))%coqQ /\ (t64_double lin t).2 = t1,
      Qeq (t64_double12 lin t).1 (1 + inject_Z (Z.of_N (u / 2 ^ 12)) * (1 # 4503599627370496))%coqQ /\ (t64_double12 lin t).2 = t1,
      Qeq (t64_double01 lin t).1 (inject_Z (Z.of_N (u / 2 ^ 12)) * (1 # 4503599627370496))%coqQ /\ (t64_double01 lin t).2 = t1 &
      (Qeq (t64_doubleOC lin t).1 (1 - inject_Z (Z.of_N (u / 2 ^ 12)) * (1 # 4503599627370496))%coqQ /\ (t64_doubleOC lin t).2 = t1) /\
      (Qeq (t64_doubleOO lin t).1 (inject_Z (Z.of_N (2 * (u / 2 ^ 13) + 1)) * (1 # 4503599627370496))%coqQ /\ (t64_doubleOO lin t).2 = t1)].
Proof. exact doubles64. Qed.
Theorem C86_ranges : forall lin t, words64_ok t ->
  (Qle 0 (t64_double lin t).1 /\ Qlt (t64_double lin t).1 1) /\
  (Qle 1 (t64_double12 lin t).1 /\ Qlt (t64_double12 lin t).1 (2 # 1)) /\
  (Qle 0 (t64_double01 lin t).1 /\ Qlt (t64_double01 lin t).1 1) /\
  (Qlt 0 (t64_doubleOC lin t).1 /\ Qle (t64_doubleOC lin t).1 1) /\
  (Qlt 0 (t64_doubleOO lin t).1 /\ Qlt (t64_doubleOO lin t).1 1).
Proof. exact ranges64. Qed.

(** The seed 1 with the published parameters: the first outputs without
    LINEARITY_CHECK (those of the check program of TinyMT64), two keys, two
    states with the same parameters, and the certification at work. *)
Example C86_case : List.map (fun n => (t64_uint64 false (Nat.iter n t64_next (tiny64_new 1))).1) (0 :: 1 :: 2 :: 3 :: 4 :: nil)%list%nat =
  (15503804787016557143 :: 17280942441431881838 :: 2177846447079362065 :: 10087979609567186558 :: 8925138365609588954 :: nil)%list /\
  words64_ok (tiny64_new 1) /\ published64 (tiny64_new 1) /\ state64 (tiny64_new 1) <> (0, 0) /\ same_par (tiny64_new 1) (tiny64_new 2) /\
  t64_init_by_array (tiny64_new 1) (1 :: 2 :: nil)%list <> t64_init_by_array (tiny64_new 1) (2 :: 1 :: nil)%list /\
  t64_certify (T64 (2 ^ 63, 0) 0 0 0) = T64 (84, 77) 0 0 0.
Proof. by split; [|split; [|split; [|split; [|split; [|split]]]]]; vm_compute. Qed.

Print Assumptions C86_linear.
Print Assumptions C86_invertible.
Print Assumptions C86_period.
Print Assumptions C86_init.
Print Assumptions C86_init_by_array_partial.
Print Assumptions C86_init_by_array_refuted.
Print Assumptions C86_seeds_partial.
Print Assumptions C86_Tiny64.
Print Assumptions C86_doubles.
Print Assumptions C86_ranges.
