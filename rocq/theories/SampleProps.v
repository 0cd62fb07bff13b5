(** Properties C51, C52: the programs of samples/XORSHIFT. *)
From Coq Require Import NArith ZArith List Bool Lia.
From mathcomp Require Import all_ssreflect all_algebra.
From Verif Require Import Base UtilModel GenModel PolyF2 PeriodModel PeriodSpec LinSpec EquiModel EquiProofs2.
From Verif Require Import XorshiftModel XorshiftSpec XorshiftLin SampleModel SampleSpec SampleProofs XorshiftPeriod.
Set Implicit Arguments.
Unset Strict Implicit.
Unset Printing Implicit Defensive.
Import GRing.Theory.
Local Open Scope ring_scope.

(** xorshift-3.cpp and xorshift-4.cpp end normally, and print the parameter
    sets of maximal period, no others, with their total defects.  M stands for
    NTL's MinPolySeq and pos for calc_1pos; the search loop needs less than
    [loops] turns and the reductions less than [fuel]. *)
Theorem C51_xorshift3 : forall M pos, minpolyseq_spec M -> pos_spec 32 pos ->
  forall loops fuel veq0, (32768 < N.of_nat loops)%num -> (17000 <= N.of_nat fuel)%num -> (32 <= length veq0)%N ->
  exists out, xs3_main M pos loops fuel veq0 = Ret out /\
    lists_maximal xs3_setUpParam (fun p => xs_A (xs3_generate p.1.1 p.1.2 p.2))
      (fun p => xs_C (xs3_generate p.1.1 p.1.2 p.2)) 32 15 out.
Proof. exact xs3_program. Qed.
Theorem C51_xorshift4 : forall M pos, minpolyseq_spec M -> pos_spec 32 pos ->
  forall loops fuel pat0 veq0, (262144 < N.of_nat loops)%num -> (17000 <= N.of_nat fuel)%num -> (32 <= length veq0)%N ->
  exists out, xs4_main M pos loops fuel pat0 veq0 = Ret out /\
    lists_maximal xs4_setUpParam (fun p => xs_A (xs4_generate p.1.1.1 p.1.1.2 p.1.2 p.2))
      (fun p => xs_C (xs4_generate p.1.1.1 p.1.1.2 p.1.2 p.2)) 32 18 out.
Proof. exact xs4_program. Qed.

(** C52: from every non-zero state the published generators run through a
    cycle of 2^128-1 states. *)
Theorem C52_period_5_14_1 : forall s, xs_okw s -> s <> XS 0 0 0 0 ->
  iter (2 ^ 128 - 1) (fun t => (xs3_generate 5 14 1 t).2) s = s /\
  forall i, (0 < i < 2 ^ 128 - 1)%N -> iter i (fun t => (xs3_generate 5 14 1 t).2) s <> s.
Proof. exact period_5_14_1. Qed.
Theorem C52_period_20_11_7 : forall s, xs_okw s -> s <> XS 0 0 0 0 ->
  iter (2 ^ 128 - 1) (fun t => (xs5_generate 20 11 7 t).2) s = s /\
  forall i, (0 < i < 2 ^ 128 - 1)%N -> iter i (fun t => (xs5_generate 20 11 7 t).2) s <> s.
Proof. exact period_20_11_7. Qed.
(** In particular the C program seeded with any number. *)
Theorem C52_xorshift128_period : forall seed, (seed < 2 ^ 32)%num ->
  let s := xorshift128_init seed in
  iter (2 ^ 128 - 1) (fun t => (xs5_generate 20 11 7 t).2) s = s /\
  forall i, (0 < i < 2 ^ 128 - 1)%N -> iter i (fun t => (xs5_generate 20 11 7 t).2) s <> s.
Proof. exact xorshift128_period. Qed.
(** xorshift-1.cpp prints "degree = 128" and "period is 2^128 -1.". *)
Theorem C52_xorshift1 : forall M, minpolyseq_spec M -> xs1_main M = Ret (128%coqZ, true).
Proof. exact xs1_program. Qed.
(** xorshift-2.cpp prints the numbers k(v), d(v) and the sum 117; k(v) is the
    dimension of equidistribution with v-bit accuracy over the whole period. *)
Theorem C52_xorshift2 : forall pos fuel veq0, pos_spec 32 pos -> (17000 <= N.of_nat fuel)%num -> (32 <= length veq0)%N ->
  xs2_main pos fuel veq0 =
    Ret (List.map (fun v => let k := Z.of_nat (ks2 v) in (k, 128 / Z.of_nat v - k)%coqZ) (List.seq 1 32), 117%coqZ).
Proof. exact xs2_program. Qed.
Theorem C52_equidistribution : forall x v, x != 0 -> (1 <= v <= 32)%N ->
  classical_equidist (xs_A (xs3_generate 5 14 1)) (xs_C (xs3_generate 5 14 1)) x (ks2 v) v /\
  forall k, classical_equidist (xs_A (xs3_generate 5 14 1)) (xs_C (xs3_generate 5 14 1)) x k v -> (k <= ks2 v)%N.
Proof. exact xs_classical. Qed.
(** With the strict reading of the C++ standard the run of xorshift-2 is
    undefined: it negates INT_MIN in calc_1pos. *)
Theorem C52_xorshift2_strict_refuted : exists fuel veq0, (17000 <= N.of_nat fuel)%num /\ (32 <= length veq0)%N /\
  xs2_main calc_1pos32 fuel veq0 = Undef.
Proof.
exists (N.to_nat 17000), (List.repeat 0%coqZ 32); split; first by rewrite N2Nat.id.
split; [by []|exact xs2_strict].
Qed.
Example C52_ks2 : List.map ks2 (List.seq 1 8) = [:: 128; 64; 42; 24; 24; 4; 4; 4]%N /\ XS 1 1 1 (2 ^ 32 - 2) <> XS 0 0 0 0.
Proof. by []. Qed.

Print Assumptions C51_xorshift3.
Print Assumptions C51_xorshift4.
Print Assumptions C52_period_5_14_1.
Print Assumptions C52_period_20_11_7.
Print Assumptions C52_xorshift128_period.
Print Assumptions C52_xorshift1.
Print Assumptions C52_xorshift2.
Print Assumptions C52_equidistribution.
Print Assumptions C52_xorshift2_strict_refuted.
