(** The final form of the equidistribution theorems, and concrete cases. *)
From Coq Require Import NArith ZArith Lia List.
From mathcomp Require Import all_ssreflect all_algebra.
From mathcomp Require Import zify.
From Verif Require Import Base GenModel UtilModel EquiModel LinSpec LinLemmas.
From Verif Require Import EquiProofs3 EquiProofs4 EquiProofs5 EquiProofs6.
From Verif Require Import XorshiftModel XorshiftSpec XorshiftProofs XorshiftLin.
Set Implicit Arguments.
Unset Strict Implicit.
Unset Printing Implicit Defensive.
Import GRing.Theory.
Local Open Scope ring_scope.
Delimit Scope Z_scope with coqZ.

Section C.
Variables (S : Type) (G : gen_ops S) (n : nat) (ok : S -> Prop) (abs : S -> 'rV['F_2]_n)
  (A : 'M['F_2]_n) (C : nat -> 'cV['F_2]_n) (nb : nat) (pos : N -> res Z).
Hypothesis Set_ : [/\ linear_gen G ok abs A C, forall s, ok s -> g_bitSize G s = nb, (n <= 2 * nb + 1)%N &
      pos_spec (g_width G) pos].

Lemma fits_of s0 mexp sbs : ok s0 ->
  (if (mexp =? 0)%coqZ then Z.of_nat nb else mexp) = Z.of_nat sbs -> sbs_of G s0 mexp = Z.of_nat sbs.
Proof. by move=> H; rewrite /sbs_of; have [_ -> //] := Set_. Qed.

Section Run.
Variables (s0 : S) (mexp : Z) (sbs L : nat) (veq : list Z) (fuel : nat).
Hypothesis Hok : ok s0.
Hypothesis Hf : (\rank (krylov A (abs s0)) <= sbs)%N /\
  (if (mexp =? 0)%coqZ then Z.of_nat nb else mexp) = Z.of_nat sbs.
Hypothesis He : ((2 * n + 2 * nb + 2) * (N.to_nat (g_width G)).+1 <= fuel)%N.
Hypothesis HL1 : (1 <= L)%N.
Hypothesis HLw : (N.of_nat L <= g_width G)%num.
Hypothesis Hveq : (L <= length veq)%N.
Lemma run_ok : exists a' veq', [/\ get_all_equidist G pos fuel (ae_new G s0 L mexp) veq = Ret (a', veq', defect_sum sbs L veq'),
     veq_ok abs A C s0 sbs L veq', length veq' = length veq,
     forall i, (L <= i)%N -> nth_error veq' i = nth_error veq i & ae_bit_len a' = 0%coqZ] /\
  exists k : nat, equidist_dim A C (abs s0) L k /\
     get_equidist G pos fuel (ae_new G s0 L mexp) = Ret (a', defect_sum sbs (L - 1) veq', Z.of_nat k) /\
     nth_error veq' (L - 1) = Some (Z.of_nat k).
Proof.
have [LG Hnb Hn Hpos] := Set_. have [Hr Hs] := Hf.
exact: (all_equidist_ok LG Hnb Hn Hpos Hok Hr He HL1 HLw Hveq (fits_of Hok Hs)).
Qed.
End Run.

Lemma dimension_thm s0 mexp sbs L veq fuel : ok s0 -> 
  (\rank (krylov A (abs s0)) <= sbs)%N /\ (if (mexp =? 0)%coqZ then Z.of_nat nb else mexp) = Z.of_nat sbs ->
  ((2 * n + 2 * nb + 2) * (N.to_nat (g_width G)).+1 <= fuel)%N ->
  (1 <= L)%N -> (N.of_nat L <= g_width G)%num -> (L <= length veq)%N ->
  exists a' veq' sum, get_all_equidist G pos fuel (ae_new G s0 L mexp) veq = Ret (a', veq', sum) /\
    forall v, (1 <= v <= L)%N ->
      exists k : nat, nth_error veq' (v - 1) = Some (Z.of_nat k) /\ equidist_dim A C (abs s0) v k.
Proof.
move=> H1 H2 H3 H4 H5 H6. have [a' [veq' [[E V _ _ _] _]]] := run_ok H1 H2 H3 H4 H5 H6.
exists a', veq', (defect_sum sbs L veq'); split=> // -[|v] //= Hv.
have [k [E1 [D _]]] := V v Hv. by exists k; rewrite subn1.
Qed.
Lemma no_exception_thm s0 mexp sbs L veq fuel : ok s0 -> 
  (\rank (krylov A (abs s0)) <= sbs)%N /\ (if (mexp =? 0)%coqZ then Z.of_nat nb else mexp) = Z.of_nat sbs ->
  ((2 * n + 2 * nb + 2) * (N.to_nat (g_width G)).+1 <= fuel)%N ->
  (1 <= L)%N -> (N.of_nat L <= g_width G)%num -> (L <= length veq)%N ->
  (exists r, get_all_equidist G pos fuel (ae_new G s0 L mexp) veq = Ret r) /\
  (exists r, get_equidist G pos fuel (ae_new G s0 L mexp) = Ret r).
Proof.
move=> H1 H2 H3 H4 H5 H6. have [a' [veq' [[E V _ _ _] [k [_ [E2 _]]]]]] := run_ok H1 H2 H3 H4 H5 H6.
by split; [eexists; exact: E | eexists; exact: E2].
Qed.
Lemma sums_thm s0 mexp sbs L veq fuel : ok s0 -> 
  (\rank (krylov A (abs s0)) <= sbs)%N /\ (if (mexp =? 0)%coqZ then Z.of_nat nb else mexp) = Z.of_nat sbs ->
  ((2 * n + 2 * nb + 2) * (N.to_nat (g_width G)).+1 <= fuel)%N ->
  (1 <= L)%N -> (N.of_nat L <= g_width G)%num -> (L <= length veq)%N ->
  exists a' veq' sum a'' sum' k,
    get_all_equidist G pos fuel (ae_new G s0 L mexp) veq = Ret (a', veq', sum) /\
    get_equidist G pos fuel (ae_new G s0 L mexp) = Ret (a'', sum', k) /\
    sum = defect_sum sbs L veq' /\
    sum' = defect_sum sbs (L - 1) veq' /\
    nth_error veq' (L - 1) = Some k /\
    (forall i, (i < L)%N -> exists e, nth_error veq' i = Some e /\ (0 <= e <= Z.of_nat (sbs %/ i.+1))%coqZ) /\
    length veq' = length veq /\
    (forall i, (L <= i)%N -> nth_error veq' i = nth_error veq i).
Proof.
move=> H1 H2 H3 H4 H5 H6. have [a' [veq' [[E V Hl Hu _] [k [_ [E2 E3]]]]]] := run_ok H1 H2 H3 H4 H5 H6.
exists a', veq', (defect_sum sbs L veq'), a', (defect_sum sbs (L - 1) veq'), (Z.of_nat k).
split=> //. split=> //. split=> //. split=> //. split=> //. split=> // i Hi.
have [j [Ej [_ Hj]]] := V i Hi. exists (Z.of_nat j); split=> //. move: (sbs %/ _)%N Hj => q Hj. lia.
Qed.
Lemma maximal_period_thm s0 mexp sbs L veq fuel : ok s0 -> 
  (\rank (krylov A (abs s0)) <= sbs)%N /\ (if (mexp =? 0)%coqZ then Z.of_nat nb else mexp) = Z.of_nat sbs ->
  ((2 * n + 2 * nb + 2) * (N.to_nat (g_width G)).+1 <= fuel)%N ->
  (1 <= L)%N -> (N.of_nat L <= g_width G)%num -> (L <= length veq)%N ->
  full_period A (abs s0) ->
  exists a' veq' sum, get_all_equidist G pos fuel (ae_new G s0 L mexp) veq = Ret (a', veq', sum) /\
    forall v, (1 <= v <= L)%N ->
      exists k : nat, nth_error veq' (v - 1) = Some (Z.of_nat k) /\
        classical_equidist A C (abs s0) k v /\
        (forall k', classical_equidist A C (abs s0) k' v -> (k' <= k)%N) /\
        (forall y, #|[set x | out_tuple A C k v x == y]| = (2 ^ (n - k * v))%N).
Proof.
move=> H1 H2 H3 H4 H5 H6 FP.
have [a' [veq' [sum [E V]]]] := dimension_thm H1 H2 H3 H4 H5 H6.
exists a', veq', sum; split=> // v Hv. have [k [Ek D]] := V v Hv. exists k; split=> //.
exact: dim_classical.
Qed.

Lemma nth_error_ext (T : Type) (l1 l2 : list T) : (forall i, nth_error l1 i = nth_error l2 i) -> l1 = l2.
Proof.
elim: l1 l2 => [|x l1 IH] [|y l2] H //; try by have := H 0%N.
have := H 0%N => -[->]. congr (_ :: _). apply: IH => i. exact: (H i.+1).
Qed.
Lemma same_thm s0 s1 mexp sbs L veq fuel : ok s0 -> ok s1 ->
  (\rank (krylov A (abs s0)) <= sbs)%N /\ (if (mexp =? 0)%coqZ then Z.of_nat nb else mexp) = Z.of_nat sbs ->
  (\rank (krylov A (abs s1)) <= sbs)%N /\ (if (mexp =? 0)%coqZ then Z.of_nat nb else mexp) = Z.of_nat sbs ->
  ((2 * n + 2 * nb + 2) * (N.to_nat (g_width G)).+1 <= fuel)%N ->
  (1 <= L)%N -> (N.of_nat L <= g_width G)%num -> (L <= length veq)%N ->
  (forall v k, equidist_dim A C (abs s0) v k <-> equidist_dim A C (abs s1) v k) ->
  exists a0 a1 veq' sum,
    get_all_equidist G pos fuel (ae_new G s0 L mexp) veq = Ret (a0, veq', sum) /\
    get_all_equidist G pos fuel (ae_new G s1 L mexp) veq = Ret (a1, veq', sum).
Proof.
move=> H1 H1' H2 H2' H3 H4 H5 H6 Heq.
have [a0 [q0 [[E0 V0 _ U0 _] _]]] := run_ok H1 H2 H3 H4 H5 H6.
have [a1 [q1 [[E1 V1 _ U1 _] _]]] := run_ok H1' H2' H3 H4 H5 H6.
have Eq : q0 = q1.
  apply: nth_error_ext => i. case: (ltnP i L) => Hi; last by rewrite U0 // U1.
  have [k0 [-> [D0 _]]] := V0 i Hi. have [k1 [-> [D1 _]]] := V1 i Hi.
  by rewrite (equidist_dim_unique (proj1 (Heq _ _) D0) D1).
subst q1. by exists a0, a1, q0, (defect_sum sbs L q0).
Qed.
Lemma later_state_thm : A \in unitmx -> forall s0 s1 m mexp sbs L veq fuel,
  ok s0 -> ok s1 -> abs s1 = st A m (abs s0) ->
  (\rank (krylov A (abs s0)) <= sbs)%N /\ (if (mexp =? 0)%coqZ then Z.of_nat nb else mexp) = Z.of_nat sbs ->
  (\rank (krylov A (abs s1)) <= sbs)%N /\ (if (mexp =? 0)%coqZ then Z.of_nat nb else mexp) = Z.of_nat sbs ->
  ((2 * n + 2 * nb + 2) * (N.to_nat (g_width G)).+1 <= fuel)%N ->
  (1 <= L)%N -> (N.of_nat L <= g_width G)%num -> (L <= length veq)%N ->
  exists a0 a1 veq' sum,
    get_all_equidist G pos fuel (ae_new G s0 L mexp) veq = Ret (a0, veq', sum) /\
    get_all_equidist G pos fuel (ae_new G s1 L mexp) veq = Ret (a1, veq', sum).
Proof.
move=> HA s0 s1 m mexp sbs L veq fuel H1 H1' E H2 H2' H3 H4 H5 H6.
apply: same_thm H2 H2' H3 H4 H5 H6 _ => // v k. rewrite E. exact: start_independent.
Qed.
Lemma any_state_thm s0 s1 mexp sbs L veq fuel :
  ok s0 -> ok s1 -> full_period A (abs s0) -> abs s1 != 0 ->
  (\rank (krylov A (abs s0)) <= sbs)%N /\ (if (mexp =? 0)%coqZ then Z.of_nat nb else mexp) = Z.of_nat sbs ->
  (\rank (krylov A (abs s1)) <= sbs)%N /\ (if (mexp =? 0)%coqZ then Z.of_nat nb else mexp) = Z.of_nat sbs ->
  ((2 * n + 2 * nb + 2) * (N.to_nat (g_width G)).+1 <= fuel)%N ->
  (1 <= L)%N -> (N.of_nat L <= g_width G)%num -> (L <= length veq)%N ->
  exists a0 a1 veq' sum,
    get_all_equidist G pos fuel (ae_new G s0 L mexp) veq = Ret (a0, veq', sum) /\
    get_all_equidist G pos fuel (ae_new G s1 L mexp) veq = Ret (a1, veq', sum).
Proof.
move=> H1 H1' FP Hn0 H2 H2' H3 H4 H5 H6.
apply: same_thm H2 H2' H3 H4 H5 H6 _ => // v k. exact: start_maximal.
Qed.
Lemma single_use_thm s0 mexp sbs L veq fuel a' veq' sum : ok s0 ->
  (\rank (krylov A (abs s0)) <= sbs)%N /\ (if (mexp =? 0)%coqZ then Z.of_nat nb else mexp) = Z.of_nat sbs ->
  ((2 * n + 2 * nb + 2) * (N.to_nat (g_width G)).+1 <= fuel)%N ->
  (1 <= L)%N -> (N.of_nat L <= g_width G)%num -> (L <= length veq)%N ->
  get_all_equidist G pos fuel (ae_new G s0 L mexp) veq = Ret (a', veq', sum) ->
  forall fuel2 veq2 r,
    get_all_equidist G pos fuel2 a' veq2 <> Ret r /\
    (forall r2, get_equidist G pos fuel2 a' <> Ret r2).
Proof.
move=> H1 H2 H3 H4 H5 H6 E fuel2 veq2 r.
have [a0 [q0 [[E0 _ _ _ Hb] _]]] := run_ok H1 H2 H3 H4 H5 H6.
move: E; rewrite E0 => -[<- _ _]. split; first exact: second_call. by move=> r2; exact: second_call_k.
Qed.
End C.

Lemma strict32_thm (S : Type) (G : gen_ops S) n ok (abs : S -> 'rV['F_2]_n) A C nb :
  g_width G = 32%num -> linear_gen G ok abs A C -> (forall s, ok s -> g_bitSize G s = nb) -> (n <= 2 * nb + 1)%N ->
  forall s0 mexp sbs L veq fuel, ok s0 ->
  (\rank (krylov A (abs s0)) <= sbs)%N /\ (if (mexp =? 0)%coqZ then Z.of_nat nb else mexp) = Z.of_nat sbs ->
  ((2 * n + 2 * nb + 2) * (N.to_nat (g_width G)).+1 <= fuel)%N ->
  (1 <= L)%N -> (N.of_nat L <= 32)%num -> (L <= length veq)%N ->
  equidistributed A C (abs s0) 1 1 ->
  get_all_equidist G calc_1pos32 fuel (ae_new G s0 L mexp) veq = Undef.
Proof.
move=> Hw LG Hnb Hn s0 mexp sbs L veq fuel Hok [Hr Hs] He HL1 HLw Hveq Hq.
have Hp : pos_spec (g_width G) (total_of calc_1pos32 calc_1pos32_wrap) by rewrite Hw; exact: total32.
have H0 : forall x, (x < 2 ^ g_width G)%num -> calc_1pos32 x <> Ret 0%coqZ by rewrite Hw; exact: strict32_n0.
rewrite -Hw in HLw.
apply: (strict_undef LG Hnb Hn Hp (total_less _ _) H0 Hok Hr He HL1 HLw Hveq _ Hq).
by rewrite /sbs_of Hnb.
Qed.
Lemma strict64_thm (S : Type) (G : gen_ops S) n ok (abs : S -> 'rV['F_2]_n) A C nb :
  g_width G = 64%num -> linear_gen G ok abs A C -> (forall s, ok s -> g_bitSize G s = nb) -> (n <= 2 * nb + 1)%N ->
  forall s0 mexp sbs L veq fuel, ok s0 ->
  (\rank (krylov A (abs s0)) <= sbs)%N /\ (if (mexp =? 0)%coqZ then Z.of_nat nb else mexp) = Z.of_nat sbs ->
  ((2 * n + 2 * nb + 2) * (N.to_nat (g_width G)).+1 <= fuel)%N ->
  (1 <= L)%N -> (N.of_nat L <= 64)%num -> (L <= length veq)%N ->
  equidistributed A C (abs s0) 1 1 ->
  get_all_equidist G calc_1pos64 fuel (ae_new G s0 L mexp) veq = Undef.
Proof.
move=> Hw LG Hnb Hn s0 mexp sbs L veq fuel Hok [Hr Hs] He HL1 HLw Hveq Hq.
have Hp : pos_spec (g_width G) (total_of calc_1pos64 calc_1pos64_wrap) by rewrite Hw; exact: total64.
have H0 : forall x, (x < 2 ^ g_width G)%num -> calc_1pos64 x <> Ret 0%coqZ by rewrite Hw; exact: strict64_n0.
rewrite -Hw in HLw.
apply: (strict_undef LG Hnb Hn Hp (total_less _ _) H0 Hok Hr He HL1 HLw Hveq _ Hq).
by rewrite /sbs_of Hnb.
Qed.

(** * xorshift-2.cpp *)
Definition xs2 : gen_ops xs := xs_ops (xs3_generate 5 14 1).
Lemma xs3_lin a b c : linear_gen (xs_ops (xs3_generate a b c)) xs_okw xs_vec (xs_A (xs3_generate a b c)) (xs_C (xs3_generate a b c)).
Proof. exact: (xs_shape_lin (g3_lin c) (h3_lin a b)). Qed.
Lemma xs3_setting a b c : [/\ linear_gen (xs_ops (xs3_generate a b c)) xs_okw xs_vec (xs_A (xs3_generate a b c)) (xs_C (xs3_generate a b c)),
  forall s, xs_okw s -> g_bitSize (xs_ops (xs3_generate a b c)) s = 128%N, (128 <= 2 * 128 + 1)%N &
  pos_spec (g_width (xs_ops (xs3_generate a b c))) (fun x => Ret (calc_1pos32_wrap x))].
Proof. split=> //; [exact: xs3_lin | exact: pos_spec32]. Qed.
Lemma xs3_sbs a b c s : (\rank (krylov (xs_A (xs3_generate a b c)) (xs_vec s)) <= 128)%N /\
  (if (0 =? 0)%coqZ then Z.of_nat 128 else 0%coqZ) = Z.of_nat 128.
Proof. split=> //. exact: rank_leq_row. Qed.
Lemma xs2_all : (do '(a, veq, sum) <- get_all_equidist xs2 (fun x => Ret (calc_1pos32_wrap x)) (N.to_nat 17000)
     (ae_new xs2 (xs_seed 1 xs_zero) 32 0) (repeat 0%coqZ 32); Ret (veq, sum))
  = Ret ([:: 128; 64; 42; 24; 24]%coqZ ++ repeat 4%coqZ 27, 117%coqZ).
Proof. by vm_compute. Qed.
Lemma xs2_strict : get_all_equidist xs2 calc_1pos32 (N.to_nat 17000) (ae_new xs2 (xs_seed 1 xs_zero) 32 0) (repeat 0%coqZ 32) = Undef.
Proof. by vm_compute. Qed.
Lemma xs2_dims v : (1 <= v <= 32)%N ->
  equidist_dim (xs_A (xs3_generate 5 14 1)) (xs_C (xs3_generate 5 14 1)) (xs_vec (xs_seed 1 xs_zero)) v
    (List.nth (v - 1) [:: 128; 64; 42; 24; 24]%N 4%N).
Proof.
move=> Hv.
have Hok : xs_okw (xs_seed 1 xs_zero) by [].
have HL : (N.of_nat 32 <= g_width xs2)%num by [].
have Hfuel : ((2 * 128 + 2 * 128 + 2) * (N.to_nat (g_width xs2)).+1 <= N.to_nat 17000)%N by vm_compute.
have := @dimension_thm _ _ _ _ _ _ _ _ _ (xs3_setting 5 14 1) (xs_seed 1 xs_zero) 0%coqZ 128 32 (repeat 0%coqZ 32) (N.to_nat 17000) Hok (xs3_sbs 5 14 1 _) Hfuel isT HL isT.
case=> [a' [veq' [sum [E V]]]]. have := xs2_all. rewrite E => -[Ev _].
have [k [Ek D]] := V v Hv. subst veq'.
suff -> : List.nth (v - 1) [:: 128; 64; 42; 24; 24]%N 4%N = k by [].
have : (v - 1 < 32)%N by lia. move: Ek. move: (v - 1)%N => u {D V E Hv}.
do 32 (case: u => [|u]; first by move=> /= -[Ek] _; lia). by move=> _; lia.
Qed.
Lemma xs2_unitmx : xs_A (xs3_generate 5 14 1) \in unitmx.
Proof. apply: (xs_shape_unit (g3_lin 1) (h3_lin 5 14)). by apply/xs3_bij. Qed.

(** * A two-bit generator of maximal period *)
Definition toyA : 'M['F_2]_2 := \matrix_(i, j) ((i != 0%N :> nat) || (j != 0%N :> nat))%:R.
Definition toy0 : 'rV['F_2]_2 := \row_j (j == 0%N :> nat)%:R.
Lemma toy_step (x : 'rV['F_2]_2) : x *m toyA = \row_j (if j == 0%N :> nat then x 0 1 else x 0 0 + x 0 1).
Proof.
apply/rowP => j; rewrite !mxE big_ord_recr big_ord1 /= !mxE /=.
have -> : widen_ord (leqnSn 1) ord0 = 0 :> 'I_2 by apply/val_inj.
have -> : ord_max = 1 :> 'I_2 by apply/val_inj.
case: j => [[|[|j]] Hj] //=; rewrite ?mulr0 ?mulr1 ?add0r //.
Qed.
Lemma toy_period : full_period toyA toy0.
Proof.
have E1 : st toyA 1 toy0 = \row_j (j == 1%N :> nat)%:R.
  rewrite /st /= toy_step. by apply/rowP => -[[|[|j]] Hj]; rewrite !mxE /=; apply/val_inj.
have E2 : st toyA 2 toy0 = \row_j 1.
  have -> : st toyA 2 toy0 = st toyA 1 toy0 *m toyA by [].
  rewrite E1 toy_step. by apply/rowP => -[[|[|j]] Hj]; rewrite !mxE /=; apply/val_inj.
have E3 : st toyA 3 toy0 = toy0.
  have -> : st toyA 3 toy0 = st toyA 2 toy0 *m toyA by [].
  rewrite E2 toy_step. by apply/rowP => -[[|[|j]] Hj]; rewrite !mxE /=; apply/val_inj.
split=> //.
  by apply/eqP => /rowP/(_ 0); rewrite !mxE.
move=> [|[|[|i]]] // _; apply/eqP.
  by rewrite E1 => /rowP/(_ 0); rewrite !mxE.
by rewrite E2 => /rowP/(_ 1); rewrite !mxE.
Qed.
