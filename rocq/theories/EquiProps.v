(** Properties C32-C36: the equidistribution algorithm. *)
From Coq Require Import NArith ZArith Lia List.
From mathcomp Require Import all_ssreflect all_algebra.
From mathcomp Require Import zify.
From Verif Require Import Base GenModel UtilModel EquiModel LinSpec LinLemmas.
From Verif Require Import EquiProofs3 EquiProofs4 EquiProofs5 EquiProofs6 EquiEx.
From Verif Require Import XorshiftModel XorshiftSpec XorshiftProofs XorshiftLin.
Set Implicit Arguments.
Unset Strict Implicit.
Unset Printing Implicit Defensive.
Import GRing.Theory.
Local Open Scope ring_scope.
Delimit Scope Z_scope with coqZ.

(** What a caller needs: G is a linear generator on n-dimensional vectors, its
    bitSize is the constant nb, s0 is a legal state, and sbs (bitSize, or the
    argument mexp when that is not zero) is at least the dimension of the span
    of the orbit of s0 -- automatic when n <= sbs. *)
Section C.
Variables (S : Type) (G : gen_ops S) (n : nat) (ok : S -> Prop) (abs : S -> 'rV['F_2]_n)
  (A : 'M['F_2]_n) (C : nat -> 'cV['F_2]_n) (nb : nat) (pos : N -> res Z).
Definition setting : Prop :=
  [/\ linear_gen G ok abs A C, forall s, ok s -> g_bitSize G s = nb, (n <= 2 * nb + 1)%N &
      pos_spec (g_width G) pos].
Definition sbs_fits (s0 : S) (mexp : Z) (sbs : nat) : Prop :=
  (\rank (krylov A (abs s0)) <= sbs)%N /\
  (if (mexp =? 0)%coqZ then Z.of_nat nb else mexp) = Z.of_nat sbs.
(** Number of loop iterations that is certainly enough for one reduction. *)
Definition enough (fuel : nat) : Prop :=
  ((2 * n + 2 * nb + 2) * (N.to_nat (g_width G)).+1 <= fuel)%N.

Theorem C32_dimension : setting -> forall s0 mexp sbs L veq fuel,
  ok s0 -> sbs_fits s0 mexp sbs -> enough fuel ->
  (1 <= L)%N -> (N.of_nat L <= g_width G)%num -> (L <= length veq)%N ->
  exists a' veq' sum, get_all_equidist G pos fuel (ae_new G s0 L mexp) veq = Ret (a', veq', sum) /\
    forall v, (1 <= v <= L)%N ->
      exists k : nat, nth_error veq' (v - 1) = Some (Z.of_nat k) /\ equidist_dim A C (abs s0) v k.
Proof. exact (@dimension_thm S G n ok abs A C nb pos). Qed.

Theorem C33_no_exception_partial : setting -> forall s0 mexp sbs L veq fuel,
  ok s0 -> sbs_fits s0 mexp sbs -> enough fuel ->
  (1 <= L)%N -> (N.of_nat L <= g_width G)%num -> (L <= length veq)%N ->
  (exists r, get_all_equidist G pos fuel (ae_new G s0 L mexp) veq = Ret r) /\
  (exists r, get_equidist G pos fuel (ae_new G s0 L mexp) = Ret r).
Proof. exact (@no_exception_thm S G n ok abs A C nb pos). Qed.

Theorem C34_sums : setting -> forall s0 mexp sbs L veq fuel,
  ok s0 -> sbs_fits s0 mexp sbs -> enough fuel ->
  (1 <= L)%N -> (N.of_nat L <= g_width G)%num -> (L <= length veq)%N ->
  exists a' veq' sum a'' sum' k,
    get_all_equidist G pos fuel (ae_new G s0 L mexp) veq = Ret (a', veq', sum) /\
    get_equidist G pos fuel (ae_new G s0 L mexp) = Ret (a'', sum', k) /\
    sum = defect_sum sbs L veq' /\
    sum' = defect_sum sbs (L - 1) veq' /\
    nth_error veq' (L - 1) = Some k /\
    (forall i, (i < L)%N -> exists e, nth_error veq' i = Some e /\ (0 <= e <= Z.of_nat (sbs %/ i.+1))%coqZ) /\
    length veq' = length veq /\
    (forall i, (L <= i)%N -> nth_error veq' i = nth_error veq i).
Proof. exact (@sums_thm S G n ok abs A C nb pos). Qed.

Theorem C35_maximal_period : setting -> forall s0 mexp sbs L veq fuel,
  ok s0 -> sbs_fits s0 mexp sbs -> enough fuel ->
  (1 <= L)%N -> (N.of_nat L <= g_width G)%num -> (L <= length veq)%N ->
  full_period A (abs s0) ->
  exists a' veq' sum, get_all_equidist G pos fuel (ae_new G s0 L mexp) veq = Ret (a', veq', sum) /\
    forall v, (1 <= v <= L)%N ->
      exists k : nat, nth_error veq' (v - 1) = Some (Z.of_nat k) /\
        classical_equidist A C (abs s0) k v /\
        (forall k', classical_equidist A C (abs s0) k' v -> (k' <= k)%N) /\
        (forall y, #|[set x | out_tuple A C k v x == y]| = (2 ^ (n - k * v))%N).
Proof. exact (@maximal_period_thm S G n ok abs A C nb pos). Qed.

(** Two states s0 and s1 are compared; in the first theorem s1 lies m steps
    after s0, in the second both are arbitrary non-zero states. *)
Theorem C36_later_state : setting -> A \in unitmx -> forall s0 s1 m mexp sbs L veq fuel,
  ok s0 -> ok s1 -> abs s1 = st A m (abs s0) ->
  sbs_fits s0 mexp sbs -> sbs_fits s1 mexp sbs -> enough fuel ->
  (1 <= L)%N -> (N.of_nat L <= g_width G)%num -> (L <= length veq)%N ->
  exists a0 a1 veq' sum,
    get_all_equidist G pos fuel (ae_new G s0 L mexp) veq = Ret (a0, veq', sum) /\
    get_all_equidist G pos fuel (ae_new G s1 L mexp) veq = Ret (a1, veq', sum).
Proof. exact (@later_state_thm S G n ok abs A C nb pos). Qed.
Theorem C36_any_nonzero_state : setting -> forall s0 s1 mexp sbs L veq fuel,
  ok s0 -> ok s1 -> full_period A (abs s0) -> abs s1 != 0 ->
  sbs_fits s0 mexp sbs -> sbs_fits s1 mexp sbs -> enough fuel ->
  (1 <= L)%N -> (N.of_nat L <= g_width G)%num -> (L <= length veq)%N ->
  exists a0 a1 veq' sum,
    get_all_equidist G pos fuel (ae_new G s0 L mexp) veq = Ret (a0, veq', sum) /\
    get_all_equidist G pos fuel (ae_new G s1 L mexp) veq = Ret (a1, veq', sum).
Proof. exact (@any_state_thm S G n ok abs A C nb pos). Qed.

(** An AlgorithmEquidistribution object can be used once only. *)
Theorem C49_single_use : setting -> forall s0 mexp sbs L veq fuel a' veq' sum,
  ok s0 -> sbs_fits s0 mexp sbs -> enough fuel ->
  (1 <= L)%N -> (N.of_nat L <= g_width G)%num -> (L <= length veq)%N ->
  get_all_equidist G pos fuel (ae_new G s0 L mexp) veq = Ret (a', veq', sum) ->
  forall fuel2 veq2 r,
    get_all_equidist G pos fuel2 a' veq2 <> Ret r /\ 
    (forall r2, get_equidist G pos fuel2 a' <> Ret r2).
Proof. exact (@single_use_thm S G n ok abs A C nb pos). Qed.
End C.

(** calc_1pos meets [pos_spec]: the 16-bit version as it is, the 32- and
    64-bit versions where signed negation wraps. *)
Theorem C32_calc_1pos16 : pos_spec 16 calc_1pos16.
Proof. exact pos_spec16. Qed.
Theorem C32_calc_1pos32 : pos_spec 32 (fun x => Ret (calc_1pos32_wrap x)).
Proof. exact pos_spec32. Qed.
Theorem C32_calc_1pos64 : pos_spec 64 (fun x => Ret (calc_1pos64_wrap x)).
Proof. exact pos_spec64. Qed.

(** Full statement of C33: as [C33_no_exception_partial] with the calc_1pos of
    the C++ standard.  It is false for 32- and 64-bit outputs, for every
    linear generator whose leading output bit is not constantly zero on the
    orbit: -INT_MIN is evaluated in calc_1pos. *)
Theorem C33_strict32_refuted : forall (S : Type) (G : gen_ops S) n ok (abs : S -> 'rV['F_2]_n) A C nb,
  g_width G = 32%num -> linear_gen G ok abs A C -> (forall s, ok s -> g_bitSize G s = nb) -> (n <= 2 * nb + 1)%N ->
  forall s0 mexp sbs L veq fuel,
  ok s0 -> sbs_fits abs A nb s0 mexp sbs -> enough G n nb fuel ->
  (1 <= L)%N -> (N.of_nat L <= 32)%num -> (L <= length veq)%N ->
  equidistributed A C (abs s0) 1 1 ->
  get_all_equidist G calc_1pos32 fuel (ae_new G s0 L mexp) veq = Undef.
Proof. exact strict32_thm. Qed.
Theorem C33_strict64_refuted : forall (S : Type) (G : gen_ops S) n ok (abs : S -> 'rV['F_2]_n) A C nb,
  g_width G = 64%num -> linear_gen G ok abs A C -> (forall s, ok s -> g_bitSize G s = nb) -> (n <= 2 * nb + 1)%N ->
  forall s0 mexp sbs L veq fuel,
  ok s0 -> sbs_fits abs A nb s0 mexp sbs -> enough G n nb fuel ->
  (1 <= L)%N -> (N.of_nat L <= 64)%num -> (L <= length veq)%N ->
  equidistributed A C (abs s0) 1 1 ->
  get_all_equidist G calc_1pos64 fuel (ae_new G s0 L mexp) veq = Undef.
Proof. exact strict64_thm. Qed.

(** The witness: the generator of xorshift-2.cpp. *)
Theorem C33_xorshift_refuted :
  get_all_equidist xs2 calc_1pos32 (N.to_nat 17000) (ae_new xs2 (xs_seed 1 xs_zero) 32 0) (repeat 0%coqZ 32) = Undef.
Proof. exact xs2_strict. Qed.

(** The output of xorshift-2.cpp, with its meaning. *)
Theorem C32_xorshift2 : forall v, (1 <= v <= 32)%N ->
  equidist_dim (xs_A (xs3_generate 5 14 1)) (xs_C (xs3_generate 5 14 1)) (xs_vec (xs_seed 1 xs_zero)) v
    (List.nth (v - 1) [:: 128; 64; 42; 24; 24]%N 4%N).
Proof. exact xs2_dims. Qed.

(** Examples: the hypotheses are met by the xorshift class ... *)
Example setting_xorshift : forall a b c,
  setting (xs_ops (xs3_generate a b c)) xs_okw xs_vec (xs_A (xs3_generate a b c)) (xs_C (xs3_generate a b c)) 128
    (fun x => Ret (calc_1pos32_wrap x)).
Proof. exact xs3_setting. Qed.
Example sbs_xorshift : forall a b c s,
  sbs_fits xs_vec (xs_A (xs3_generate a b c)) 128 s 0 128.
Proof. exact xs3_sbs. Qed.
Example xs2_run : 
  (do '(a, veq, sum) <- get_all_equidist xs2 (fun x => Ret (calc_1pos32_wrap x)) (N.to_nat 17000)
     (ae_new xs2 (xs_seed 1 xs_zero) 32 0) (repeat 0%coqZ 32); Ret (veq, sum))
  = Ret ([:: 128; 64; 42; 24; 24]%coqZ ++ repeat 4%coqZ 27, 117%coqZ).
Proof. exact xs2_all. Qed.
(** ... whose transition is invertible ... *)
Example xs2_unit : xs_A (xs3_generate 5 14 1) \in unitmx.
Proof. exact xs2_unitmx. Qed.
(** ... and the two-bit generator (a, b) -> (b, a + b) has maximal period. *)
Example toy_full_period : full_period toyA toy0.
Proof. exact toy_period. Qed.

Print Assumptions C32_dimension.
Print Assumptions C33_no_exception_partial.
Print Assumptions C34_sums.
Print Assumptions C35_maximal_period.
Print Assumptions C36_later_state.
Print Assumptions C36_any_nonzero_state.
Print Assumptions C49_single_use.
Print Assumptions C32_calc_1pos16.
Print Assumptions C32_calc_1pos32.
Print Assumptions C32_calc_1pos64.
Print Assumptions C33_strict32_refuted.
Print Assumptions C33_strict64_refuted.
Print Assumptions C33_xorshift_refuted.
Print Assumptions C32_xorshift2.
