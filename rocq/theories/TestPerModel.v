(** Model of parts of the program test_period (test/test_period.cpp). *)
From Coq Require Import NArith ZArith List Bool String.
From mathcomp Require Import all_ssreflect all_algebra.
From Verif Require Import Base GenModel PolyF2 PeriodModel PrimeTables TmtModel T64Model.
Set Implicit Arguments.
Unset Strict Implicit.
Unset Printing Implicit Defensive.
Delimit Scope Z_scope with coqZ.
Import ListNotations.

(** [M] is NTL's MinPolySeq; the seed is 1234 in the program. *)
Section Test.
Variable M : seq 'F_2 -> nat -> f2x.
(** test_period.cpp:44-56  period_u32 *)
Definition period_u32 (seed : N) : res bool :=
  do '(poly, tiny) <- minpoly tiny32_ops M (tiny32_new seed) 0%coqZ 0%coqZ;
  Ret (deg poly =? Z.of_nat (g_bitSize tiny32_ops tiny))%coqZ.
(** test_period.cpp:58-70  period_u64 *)
Definition period_u64 (seed : N) : res bool :=
  do '(poly, tiny) <- minpoly tiny64_ops M (tiny64_new seed) 0%coqZ 0%coqZ;
  Ret (deg poly =? Z.of_nat (g_bitSize tiny64_ops tiny))%coqZ.
(** test_period.cpp:75-81  is_irreducible, its part about Tiny64 *)
Definition is_irreducible_64 (seed : N) : res bool :=
  do '(poly, _) <- minpoly tiny64_ops M (tiny64_new seed) 0%coqZ 0%coqZ;
  Ret (isIrreducible poly).
(** test_period.cpp:93-105  is_prime *)
Definition is_prime_64 (seed : N) : res bool :=
  do '(poly, _) <- minpoly tiny64_ops M (tiny64_new seed) 0%coqZ 0%coqZ;
  isPrime poly.
End Test.

(** test_period.cpp:110-111 (is_prime2), test_rtiny.cpp:20-21: the table given
    to isPrime(poly, 128, table), copied literally. *)
Definition test_table : list string := [
  "3"; "5"; "17"; "257"; "641"; "65537"; "274177"; "6700417"; "672804213107211"]%string.
(** test_period.cpp:115, 123, test_rtiny.cpp:50 *)
Definition test_isPrime (poly : f2x) : res bool := isPrime_str poly 128%coqZ (List.map chars test_table).
