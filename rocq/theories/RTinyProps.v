(** Property C88: the class RTiny32 of the tests and the functions
    is_irreducible and is_prime2 of test_period. *)
From Coq Require Import NArith ZArith List Bool.
From mathcomp Require Import all_ssreflect all_algebra.
From Verif Require Import Base GenModel PolyF2 PeriodSpec PeriodModel PolyAct XorshiftModel XorshiftSpec TestPerModel RTinyModel
  RTinyProofs RTinyProofs2 PeriodProps.
Set Implicit Arguments.
Unset Strict Implicit.
Unset Printing Implicit Defensive.
Import GRing.Theory.
Local Open Scope ring_scope.
Delimit Scope N_scope with num.
Delimit Scope Z_scope with coqZ.

(** Whatever the parameters, seed gives four 32-bit words that are not all
    zero. *)
Theorem C88_seed : forall p, (r_mat1 p < 2 ^ 32)%num /\ (r_mat2 p < 2 ^ 32)%num -> forall v, (v < 2 ^ 32)%num ->
  xs_okw (rt_seed p v) /\ rt_seed p v <> XS 0 0 0 0.
Proof. by move=> p P v; exact: rt_seed_ok. Qed.
(** RTiny32(value) has the period 2^128-1 from every state but zero. *)
Theorem C88_period : forall s, xs_okw s -> s <> XS 0 0 0 0 -> forall m, m = (2 ^ 128 - 1)%N ->
  iter m (fun t => (rt_generate rt_default t).2) s = s /\
  forall i, (0 < i < m)%N -> iter i (fun t => (rt_generate rt_default t).2) s <> s.
Proof. exact default_period. Qed.
(** Its minimal polynomial is primitive for every seed, and isPrime says so
    (in spite of the wrong table). *)
Theorem C88_default : forall M, minpolyseq_spec M -> forall seed, (seed < 2 ^ 32)%num ->
  exists mu, [/\ rt_minpoly M rt_default seed = Ret mu, primitive mu 128 & test_isPrime mu = Ret true].
Proof. by move=> M HM seed /(default_prim HM)[mu [E Pm]]; exists mu; split; [exact: E|exact: Pm|exact: test_prim]. Qed.
(** The polynomial of the second object is not irreducible; the order of X
    modulo that of the third divides (2^128-1)/3. *)
Theorem C88_reducible : forall M, minpolyseq_spec M ->
  exists mu, rt_minpoly M rt_reducible 1234 = Ret mu /\ ~ irreducible_poly mu.
Proof.
move=> M HM; have [mu [E N]] := red_minpoly HM.
exists mu; split; [exact: E|by move/irredP => I; rewrite I in N].
Qed.
Theorem C88_nonprime : forall M, minpolyseq_spec M ->
  exists mu, [/\ rt_minpoly M rt_nonprime 1234 = Ret mu, mu %| 'X^(N.to_nat ((2 ^ 128 - 1) / 3)) - 1 & ~ primitive mu 128].
Proof. exact non_primitive. Qed.
(** The two tests succeed. *)
Theorem C88_is_irreducible : forall M, minpolyseq_spec M -> is_irreducible M 1234 = Ret true.
Proof. exact is_irreducible_ok. Qed.
Theorem C88_is_prime2 : forall M, minpolyseq_spec M -> is_prime2 M 1234 = Ret true.
Proof. exact is_prime2_ok. Qed.

(** Cases: the seeded states of the program, and a MinPolySeq that exists. *)
Example C88_states : rt_seed rt_default 1234 = XS 2699322802 2090690275 1354825615 4022510882 /\
  (rt_generate rt_default (rt_seed rt_default 1234)).1 = 2090690275%num.
Proof. by vm_compute. Qed.
Example C88_case : is_irreducible mps 1234 = Ret true /\ is_prime2 mps 1234 = Ret true.
Proof. by split; [apply: (C88_is_irreducible minpolyseq_exists)|apply: (C88_is_prime2 minpolyseq_exists)]. Qed.

Print Assumptions C88_seed.
Print Assumptions C88_period.
Print Assumptions C88_default.
Print Assumptions C88_reducible.
Print Assumptions C88_nonprime.
Print Assumptions C88_is_irreducible.
Print Assumptions C88_is_prime2.
