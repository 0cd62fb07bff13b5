(** Property C87: the program test_period, its parts about Tiny32 and Tiny64,
    and its table of prime factors. *)
From Coq Require Import NArith ZArith List Bool String.
From mathcomp Require Import all_ssreflect all_algebra.
From Verif Require Import Base GenModel UtilModel PolyF2 PeriodSpec PeriodModel PrimeTables TmtModel T64Model TestPerModel TestPerProofs PolyAct PeriodProps.
Set Implicit Arguments.
Unset Strict Implicit.
Unset Printing Implicit Defensive.
Delimit Scope N_scope with num.
Delimit Scope Z_scope with coqZ.

(** What minpoly computes for the two generators of the tests. *)
Theorem C87_minpoly_32 : forall M, minpolyseq_spec M -> forall seed, (seed < 2 ^ 32)%num ->
  exists mu s', minpoly tiny32_ops M (tiny32_new seed) 0%coqZ 0%coqZ = Ret (mu, s') /\ primitive mu 127.
Proof. exact min32. Qed.
Theorem C87_minpoly_64 : forall M, minpolyseq_spec M -> forall seed, (seed < 2 ^ 64)%num ->
  exists mu s', minpoly tiny64_ops M (tiny64_new seed) 0%coqZ 0%coqZ = Ret (mu, s') /\ primitive mu 127.
Proof. exact min64. Qed.
(** The tests succeed for every seed. *)
Theorem C87_period_u32 : forall M, minpolyseq_spec M -> forall seed, (seed < 2 ^ 32)%num -> period_u32 M seed = Ret true.
Proof. exact u32_ok. Qed.
Theorem C87_period_u64 : forall M, minpolyseq_spec M -> forall seed, (seed < 2 ^ 64)%num -> period_u64 M seed = Ret true.
Proof. exact u64_ok. Qed.
Theorem C87_is_irreducible : forall M, minpolyseq_spec M -> forall seed, (seed < 2 ^ 64)%num -> is_irreducible_64 M seed = Ret true.
Proof. exact irr64_ok. Qed.
Theorem C87_is_prime : forall M, minpolyseq_spec M -> forall seed, (seed < 2 ^ 64)%num -> is_prime_64 M seed = Ret true.
Proof. exact prime64_ok. Qed.

(** The table of the tests has a number that does not divide 2^128-1 and lacks a
    prime number that does. *)
Theorem C87_table_refuted : exists l, read_table (List.map chars test_table) = Ret l /\
  (exists q, List.In q l /\ ~ (q | 2 ^ 128 - 1)%num) /\
  (exists q, prime (N.to_nat q) /\ (q | 2 ^ 128 - 1)%num /\ ~ List.In q l).
Proof. exact table_wrong. Qed.
(** So isPrime with this table accepts an irreducible polynomial that is not
    primitive. *)
Theorem C87_isPrime_refuted : exists f : f2x, test_isPrime f = Ret true /\ irreducible_poly f /\ ~ primitive f 128.
Proof. exact wrong_table. Qed.

(** The seed of the program, with a minimal polynomial algorithm that exists. *)
Example C87_case : period_u32 mps 1234 = Ret true /\ period_u64 mps 1234 = Ret true /\
  is_irreducible_64 mps 1234 = Ret true /\ is_prime_64 mps 1234 = Ret true.
Proof.
by split; [apply: (C87_period_u32 minpolyseq_exists)|split; [apply: (C87_period_u64 minpolyseq_exists)|
  split; [apply: (C87_is_irreducible minpolyseq_exists)|apply: (C87_is_prime minpolyseq_exists)]]].
Qed.

Print Assumptions C87_minpoly_32.
Print Assumptions C87_minpoly_64.
Print Assumptions C87_period_u32.
Print Assumptions C87_period_u64.
Print Assumptions C87_is_irreducible.
Print Assumptions C87_is_prime.
Print Assumptions C87_table_refuted.
Print Assumptions C87_isPrime_refuted.
