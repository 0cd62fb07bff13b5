(** Counting: maximal-period generators; independence of the starting point. *)
From Coq Require Import NArith ZArith Lia.
From mathcomp Require Import all_ssreflect all_algebra.
From mathcomp Require Import zify.
From Verif Require Import Base GenModel LinSpec LinLemmas.
Set Implicit Arguments.
Unset Strict Implicit.
Unset Printing Implicit Defensive.
Import GRing.Theory.
Local Open Scope ring_scope.

Lemma card_rV2 n : #|{: 'rV['F_2]_n}| = (2 ^ n)%N.
Proof. by rewrite card_mx card_Fp // mul1n. Qed.
Lemma card_M2 k v : #|{: 'M['F_2]_(k, v)}| = (2 ^ (k * v))%N.
Proof. by rewrite card_mx card_Fp. Qed.

Section Period.
Variables (n : nat) (A : 'M['F_2]_n) (C : nat -> 'cV['F_2]_n) (x0 : 'rV['F_2]_n).
Hypothesis FP : full_period A x0.
Notation P := (2 ^ n - 1)%N.
Notation st := (st A).

Lemma st_period i : st (i + P) x0 = st i x0.
Proof. by have [_ E _] := FP; rewrite st_add E. Qed.
Lemma P_gt0 : (0 < P)%N.
Proof.
have [H _ _] := FP. rewrite subn_gt0 -{1}[1%N](expn0 2) ltn_exp2l //.
case: (posnP n) => // n0. exfalso. move: x0 H. rewrite n0 => y. by rewrite [y]thinmx0 eqxx.
Qed.
Lemma st_neq0 i : st i x0 != 0.
Proof.
have [H E _] := FP. apply: contra_neq H => H.
have [q Hq] : exists q, (i <= q * P)%N by exists i; rewrite leq_pmulr // P_gt0.
have E2 : st (q * P) x0 = x0 by elim: q {Hq} => // q IH; rewrite mulSn addnC st_period.
by rewrite -E2 -(subnK Hq) st_add H st0.
Qed.
Lemma st_inj (i j : 'I_P) : st i x0 = st j x0 -> i = j.
Proof.
wlog: i j / (i <= j)%N => [W E|Hij E].
  by case: (leqP i j) => H; [exact: W | apply/esym/W => //; exact: ltnW].
apply/val_inj/eqP; rewrite eqn_leq Hij /=. rewrite leqNgt. apply/negP => Hlt.
have [_ Ep Hp] := FP. have Hj := ltn_ord j.
have := Hp (P - j + i)%N. rewrite st_add E -st_add subnK; last exact: ltnW.
rewrite Ep eqxx => /(_ _)/negP H. have H2 : ~ (0 < P - j + i < P)%N by move=> H3; exact: (H H3).
apply: H2. lia.
Qed.
Lemma st_onto y : y != 0 -> exists i : 'I_P, y = st i x0.
Proof.
move=> Hy.
pose I := [set st (nat_of_ord i) x0 | i : 'I_P].
have HI : #|I| = P.
  by rewrite card_imset ?card_ord // => i j; exact: st_inj.
have Hsub : I \subset [set y | y != 0].
  by apply/subsetP => z /imsetP [i _ ->]; rewrite inE st_neq0.
have : I == [set y | y != 0].
  rewrite eqEcard Hsub HI /=. have -> : [set y : 'rV['F_2]_n | y != 0] = ~: [set 0].
    by apply/setP => z; rewrite !inE.
  by rewrite cardsC1 card_rV2 subn1.
move/eqP/setP/(_ y). rewrite inE Hy => /imsetP [i _ E]. by exists i.
Qed.
(** The span of the orbit is the whole space. *)
Lemma full_orbit x : in_orbit_span A x0 x.
Proof.
case: (eqVneq x 0) => [->|Hx]; first exact: orb0.
have [i ->] := st_onto Hx. apply: orb_st. exact: orb_self.
Qed.
Lemma full_rank : \rank (krylov A x0) = n.
Proof.
have : (1%:M <= krylov A x0)%MS.
  apply/row_subP => i. apply/orb_krylov. exact: full_orbit.
by rewrite sub1mx => /eqP.
Qed.

Lemma count_orbit (Q : pred 'rV['F_2]_n) :
  #|[set i : 'I_P | Q (st i x0)]| = #|[set x | (x != 0) && Q x]|.
Proof.
have -> : [set x | (x != 0) && Q x] = [set st (nat_of_ord i) x0 | i in [set i : 'I_P | Q (st i x0)]].
  apply/setP => x; rewrite inE. apply/andP/imsetP => [[Hx HQ]|[i]].
    have [i E] := st_onto Hx. by exists i => //; rewrite inE -E.
  by rewrite inE => HQ ->; rewrite st_neq0.
by rewrite card_in_imset // => i j _ _; exact: st_inj.
Qed.
End Period.

Section Fiber.
Variables (n : nat) (A : 'M['F_2]_n) (C : nat -> 'cV['F_2]_n) (k v : nat).
Notation out := (out_tuple A C k v).
Lemma outD x y : out (x + y) = out x + out y.
Proof. by apply/matrixP => a b; rewrite !mxE stD obitD. Qed.
Lemma out0 : out 0 = 0.
Proof. by apply/matrixP => a b; rewrite !mxE st0 obit0. Qed.
Lemma fiber_card (x : 'rV['F_2]_n) : #|[set z | out z == out x]| = #|[set z | out z == 0]|.
Proof.
have -> : [set z | out z == out x] = [set z + x | z in [set z | out z == 0]].
  apply/setP => z; rewrite inE. apply/eqP/imsetP => [E|[t]].
    exists (z + x); first by rewrite inE outD E mx2_addxx.
    by rewrite -addrA mx2_addxx addr0.
  by rewrite inE => /eqP E ->; rewrite outD E add0r.
by rewrite card_imset //; exact: addIr.
Qed.
Hypothesis Surj : forall y, exists x, out x = y.
Lemma surj_card y : #|[set z | out z == y]| = (2 ^ (n - k * v))%N /\ (k * v <= n)%N.
Proof.
have E : (2 ^ n = 2 ^ (k * v) * #|[set z | out z == 0%R]|)%N.
  rewrite -card_rV2 -card_M2 -sum_nat_const.
  rewrite -[LHS]sum1_card (partition_big out predT) //=.
  apply: eq_bigr => y' _. have [x <-] := Surj y'. rewrite -(fiber_card x) -sum1_card.
  by apply: eq_bigl => z; rewrite inE.
have Hle : (k * v <= n)%N.
  have : (0 < 2 ^ n)%N by rewrite expn_gt0.
  rewrite E muln_gt0 => /andP [_ H0]. rewrite -(leq_exp2l (m := 2)) // E leq_pmulr //.
split=> //. have [x <-] := Surj y. rewrite fiber_card.
apply/eqP. rewrite -(eqn_pmul2l (m := 2 ^ (k * v))) ?expn_gt0 // -E -expnD subnKC //.
Qed.
End Fiber.

Section Classical.
Variables (n : nat) (A : 'M['F_2]_n) (C : nat -> 'cV['F_2]_n) (x0 : 'rV['F_2]_n).
Hypothesis FP : full_period A x0.

Lemma equi_surj k v : equidistributed A C x0 v k <-> forall y, exists x, out_tuple A C k v x = y.
Proof.
split=> [H y|H y].
  have [x [_ Hx]] := H (fun i j => match @idP (i < k)%N, @idP (j < v)%N with
     | ReflectT Hi, ReflectT Hj => y (Ordinal Hi) (Ordinal Hj) | _, _ => 0 end).
  exists x. apply/matrixP => a b. rewrite mxE Hx //.
  case: {-}_ / idP => [Ha|/(_ (ltn_ord a))//]. case: {-}_ / idP => [Hb|/(_ (ltn_ord b))//].
  by congr (y _ _); exact: val_inj.
have [x Hx] := H (\matrix_(a, b) y a b). exists x; split; first exact: full_orbit.
move=> i j Hi Hj. have /matrixP/(_ (Ordinal Hi) (Ordinal Hj)) := Hx. by rewrite !mxE.
Qed.

Lemma classical_of_surj k v : (forall y, exists x, out_tuple A C k v x = y) -> classical_equidist A C x0 k v.
Proof.
move=> Surj y. rewrite (count_orbit FP (fun x => out_tuple A C k v x == y)).
have [E _] := surj_card Surj y. rewrite -E.
have -> : [set x | (x != 0) && (out_tuple A C k v x == y)] = [set z | out_tuple A C k v z == y] :\ 0.
  by apply/setP => z; rewrite !inE.
rewrite [in RHS](cardsD1 0) inE out0 [0 == y]eq_sym. by rewrite addKn.
Qed.
Lemma surj_of_classical k v : classical_equidist A C x0 k v -> forall y, exists x, out_tuple A C k v x = y.
Proof.
move=> H y. case: (eqVneq y 0) => [->|Hy]; first by exists 0; rewrite out0.
have : (0 < #|[set i : 'I_(2 ^ n - 1) | out_tuple A C k v (st A i x0) == y]|)%N.
  by rewrite H (negbTE Hy) subn0 expn_gt0.
by move/card_gt0P => [i]; rewrite inE => /eqP E; exists (st A i x0).
Qed.
Lemma classical_iff k v : equidistributed A C x0 v k <-> classical_equidist A C x0 k v.
Proof.
split; first by move/equi_surj/classical_of_surj.
by move/surj_of_classical/equi_surj.
Qed.
Lemma dim_classical v k : equidist_dim A C x0 v k ->
  classical_equidist A C x0 k v /\ (forall k', classical_equidist A C x0 k' v -> (k' <= k)%N) /\
  (forall y, #|[set x | out_tuple A C k v x == y]| = (2 ^ (n - k * v))%N).
Proof.
move=> [H1 H2]; split; first exact/classical_iff.
split; first by move=> k' /classical_iff/H2.
by move=> y; have [] := surj_card (proj1 (equi_surj k v) H1) y.
Qed.
End Classical.

(** * Starting point *)
Section Start.
Variables (n : nat) (A : 'M['F_2]_n) (C : nat -> 'cV['F_2]_n).
Lemma orbit_ext x0 x1 v k : (forall x, in_orbit_span A x0 x <-> in_orbit_span A x1 x) ->
  equidist_dim A C x0 v k -> equidist_dim A C x1 v k.
Proof.
move=> H [H1 H2]. split.
  by move=> y; have [x [Hx E]] := H1 y; exists x; split=> //; apply/H.
move=> k' Hk'; apply: H2 => y. by have [x [Hx E]] := Hk' y; exists x; split=> //; apply/H.
Qed.
Lemma equidist_dim_unique x0 v k k' : equidist_dim A C x0 v k -> equidist_dim A C x0 v k' -> k = k'.
Proof. by move=> [H1 H2] [H3 H4]; apply/eqP; rewrite eqn_leq H4 // H2. Qed.
(** Going back along the orbit of an invertible transition. *)
Lemma orbit_back m x : A \in unitmx -> in_orbit_span A (st A m x) x.
Proof.
move=> HA. elim: m x => [|m IH] x; first exact: orb_self.
have H1 := IH (x *m A). rewrite -stSr in H1. apply: orb_trans H1 _.
(* x is a combination of x A, x A^2, ... because the spans have equal dimension *)
have Hs : (krylov A (x *m A) <= krylov A x)%MS.
  apply/row_subP => i. rewrite rowK. apply/orb_krylov/orb_st. rewrite -[x *m A]/(st A 1 x).
  exact/orb_st/orb_self.
have EK : krylov A (x *m A) = krylov A x *m A.
  apply/row_matrixP => i. by rewrite row_mul !rowK -stSr stS.
have Hr : \rank (krylov A (x *m A)) = \rank (krylov A x) by rewrite EK mxrankMfree // row_free_unit.
apply/orb_krylov. have := mxrank_leqif_sup Hs. rewrite Hr => /leqifP.
case: ifP => [Hs2 _|_]; last by rewrite ltnn.
exact: submx_trans (krylov_st A x 0) Hs2.
Qed.
Lemma start_independent m x0 v k : A \in unitmx ->
  equidist_dim A C x0 v k <-> equidist_dim A C (st A m x0) v k.
Proof.
move=> HA.
have H x : in_orbit_span A x0 x <-> in_orbit_span A (st A m x0) x.
  split=> Hx; first by apply: orb_trans Hx; exact: orbit_back.
  by apply: orb_trans Hx; apply: orb_st; exact: orb_self.
by split; apply: orbit_ext => x; split; apply H.
Qed.
Lemma start_maximal x0 x1 v k : full_period A x0 -> x1 != 0 ->
  equidist_dim A C x0 v k <-> equidist_dim A C x1 v k.
Proof.
move=> FP Hx1. have [i E] := st_onto FP Hx1.
have H x : in_orbit_span A x0 x <-> in_orbit_span A x1 x.
  split=> Hx; last exact: full_orbit.
  apply: (@orb_trans _ _ _ x0) Hx.
  have -> : x0 = st A (2 ^ n - 1 - i) x1.
    rewrite E -st_add subnK; last exact: ltnW. by have [_ ->] := FP.
  exact/orb_st/orb_self.
by split; apply: orbit_ext => x; split; apply H.
Qed.
End Start.
