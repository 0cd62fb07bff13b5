(** Properties C42, C48, C50: the xorshift samples. *)
From Coq Require Import NArith ZArith Lia List Bool.
From mathcomp Require Import all_ssreflect all_algebra.
From Verif Require Import Base GenModel LinSpec XorshiftModel XorshiftSpec XorshiftProofs XorshiftProofs2 XorshiftLin EquiEx.
Set Implicit Arguments.
Unset Strict Implicit.
Unset Printing Implicit Defensive.
Import GRing.Theory.
Local Open Scope ring_scope.

(** Contract, for every parameter: xorshift-1/2/3, xorshift-4, xorshift-5. *)
Theorem C42_linear3 : forall a b c,
  linear_gen (xs_ops (xs3_generate a b c)) xs_okw xs_vec (xs_A (xs3_generate a b c)) (xs_C (xs3_generate a b c)).
Proof. exact xs3_lin. Qed.
Theorem C42_linear4 : forall pat a b c,
  linear_gen (xs_ops (xs4_generate pat a b c)) xs_okw xs_vec (xs_A (xs4_generate pat a b c)) (xs_C (xs4_generate pat a b c)).
Proof. exact (fun pat a b c => xs_shape_lin (xs4_g_lin pat a b) (xs4_h_lin pat b c)). Qed.
Theorem C42_linear5 : forall a b c,
  linear_gen (xs_ops (xs5_generate a b c)) xs_okw xs_vec (xs_A (xs5_generate a b c)) (xs_C (xs5_generate a b c)).
Proof. exact (fun a b c => xs_shape_lin (g5_lin a) (h3_lin b c)). Qed.
(** The vectors describe the states faithfully; isZero tests the zero vector. *)
Theorem C42_vector_faithful : forall s t, xs_okw s -> xs_okw t -> xs_vec s = xs_vec t -> s = t.
Proof. exact xs_vec_inj. Qed.
Theorem C42_isZero : forall gen s, xs_okw s -> g_isZero (xs_ops gen) s <-> xs_vec s = 0.
Proof. exact (fun gen s H => @xs_shape_isZero (fun x => x) (fun x => x) s H). Qed.
(** The parameters setUpParam can produce. *)
Theorem C42_parameters3 : forall r, (r < 2 ^ 32)%num -> let '(a, b, c) := xs3_setUpParam r in
  (a < 32 /\ b < 32 /\ c < 32 /\ r mod 2 ^ 15 = a + 32 * b + 1024 * c)%num.
Proof. exact xs3_params. Qed.
Theorem C42_parameters4 : forall r, (r < 2 ^ 32)%num -> let '(pat, a, b, c) := xs4_setUpParam r in
  (pat < 8 /\ a < 32 /\ b < 32 /\ c < 32 /\ r mod 2 ^ 18 = c + 32 * b + 1024 * a + 32768 * pat)%num.
Proof. exact xs4_params. Qed.

(** Full statement of the second half: for all parameters from setUpParam the
    transition is a bijection.  It is false: a zero shift count is possible. *)
Theorem C42_bijective_refuted : exists r, (r < 2 ^ 32)%num /\ let '(a, b, c) := xs3_setUpParam r in
  ~ bijective_on xs_okw (fun s => (xs3_generate a b c s).2).
Proof. exists 0%num; split=> //. change (~ bijective_on xs_okw (fun s => (xs3_generate 0 0 0 s).2)). by move/xs3_bij => []. Qed.
(** Exactly the vanishing shift counts of the oldest word are excluded. *)
Theorem C42_bijective3_partial : forall a b c,
  bijective_on xs_okw (fun s => (xs3_generate a b c s).2) <-> (a <> 0 /\ b <> 0)%num.
Proof. exact xs3_bij. Qed.
Theorem C42_bijective4_partial : forall pat a b c,
  bijective_on xs_okw (fun s => (xs4_generate pat a b c s).2) <-> (c <> 0 /\ (4 <= pat -> b <> 0))%num.
Proof. exact xs4_bij. Qed.
Theorem C42_bijective5 : bijective_on xs_okw (fun s => (xs5_generate 20 11 7 s).2).
Proof. by apply/xs5_bij. Qed.
Theorem C42_bijective1 : bijective_on xs_okw (fun s => (xs3_generate 5 14 1 s).2).
Proof. by apply/xs3_bij. Qed.
Example C42_ex : xs_okw (XS 1 2 3 4) /\ (xs3_generate 5 14 1 (XS 1 2 3 4)).1 = 39%num /\
  xs_vec (XS 1 2 3 4) != 0.
Proof.
split; [by []|split; [by vm_compute|]]. apply/eqP => H.
by have := proj2 (C42_isZero (xs3_generate 5 14 1) (s := XS 1 2 3 4) ltac:(by [])) H.
Qed.

(** C48.  Full statement: the state after init_by_array is the one computed
    from the key (the local array).  It is false: the key is ignored. *)
Theorem C48_key_ignored_refuted : exists k1 k2, iba_local k1 <> iba_local k2 /\
  forall s, xorshift128_init_by_array s k1 = xorshift128_init_by_array s k2 /\
    (xs_isZero s = false -> xorshift128_init_by_array s k1 = s).
Proof.
exists [:: 1%num], [:: 2%num]; split; first by vm_compute.
by move=> s; split; [exact: iba_ignores | exact: iba_unchanged].
Qed.

(** C50. *)
Theorem C50_init_injective : forall a b, (a < 2 ^ 32)%num -> (b < 2 ^ 32)%num ->
  xorshift128_init a = xorshift128_init b -> a = b.
Proof. exact init_inj. Qed.
Theorem C50_never_zero : forall seed k,
  xs_isZero (Nat.iter k (fun s => snd (xs5_generate 20 11 7 s)) (xorshift128_init seed)) = false.
Proof. exact xs128_never_zero. Qed.
Theorem C50_seed_nonzero : forall v s, (v < 2 ^ 32)%num -> xs_okw (xs_seed v s) /\ xs_isZero (xs_seed v s) = false.
Proof. exact seed_nonzero. Qed.
Example C50_ex : xorshift128_init 1 <> xorshift128_init 2 /\ xs_okw (xorshift128_init 1).
Proof. by vm_compute. Qed.

Print Assumptions C42_linear3.
Print Assumptions C42_linear4.
Print Assumptions C42_linear5.
Print Assumptions C42_vector_faithful.
Print Assumptions C42_isZero.
Print Assumptions C42_parameters3.
Print Assumptions C42_parameters4.
Print Assumptions C42_bijective_refuted.
Print Assumptions C42_bijective3_partial.
Print Assumptions C42_bijective4_partial.
Print Assumptions C42_bijective5.
Print Assumptions C42_bijective1.
Print Assumptions C48_key_ignored_refuted.
Print Assumptions C50_init_injective.
Print Assumptions C50_never_zero.
Print Assumptions C50_seed_nonzero.
