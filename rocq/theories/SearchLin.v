(** The component of an irreducible factor of degree greater than half of the
    dimension. *)
From Coq Require Import NArith ZArith Lia.
From mathcomp Require Import all_ssreflect all_algebra.
From mathcomp Require Import zify.
From Verif Require Import Base UtilModel GenModel PolyF2 LinSpec LinLemmas PeriodModel PeriodSpec PolyAct PeriodProofs PeriodProofs2
  PeriodProofs4 PeriodProofs5 PeriodProofs6 PeriodProofs7 EquiModel EquiProofs5 EquiEx ParityProofs.
Set Implicit Arguments.
Unset Strict Implicit.
Unset Printing Implicit Defensive.
Import GRing.Theory.
Local Open Scope ring_scope.
Delimit Scope Z_scope with coqZ.

Section Comp.
Variables (n : nat) (A : 'M['F_2]_n) (f : f2x) (d : nat).
Hypothesis I : irreducible_poly f.
Hypothesis sf : size f = d.+1.
Hypothesis n2 : (n < 2 * d)%N.
Notation P := (poly_mx A f).

Lemma span_ker y z : pact A f y = 0 -> in_orbit_span A y z -> pact A f z = 0.
Proof.
by move=> fy [K [a ->]]; rewrite -pact_sum big1 // => i _; rewrite pact_vZ pact_st fy st0 scaler0.
Qed.
Lemma kry_ker y : pact A f y = 0 -> (krylov A y <= kermx P)%MS.
Proof.
by move=> fy; apply/row_subP=> i; apply/sub_kermxP; rewrite -pact_mx; apply: (span_ker fy); apply/orb_krylov; apply: row_sub.
Qed.
Lemma span_pact y z : in_orbit_span A y z <-> exists p : f2x, z = pact A p y.
Proof.
split=> [[K [a ->]]|[p ->]].
  exists (\poly_(i < K) a i); rewrite (pactE A (K := K)) ?size_poly //.
  by apply: eq_bigr => i _; rewrite coef_poly ltn_ord.
by exists (size p), (fun i => p`_i).
Qed.
(** The component has the dimension d. *)
Lemma comp_rank : (\rank (kermx P) <= d)%N.
Proof.
have r1 y : y != 0 -> pact A f y = 0 -> (d <= \rank (krylov A y))%N.
  by move=> y0 fy; have := rank_krylov_irred I y0 fy; rewrite sf.
have [->|] := eqVneq (kermx P) 0; first by rewrite mxrank0.
case/rowV0Pn => y /sub_kermxP; rewrite -pact_mx => fy y0.
suff E : (kermx P <= krylov A y)%MS.
  apply: leq_trans (mxrankS E) _.
  pose Y : 'M['F_2]_(d, n) := \matrix_(i < d) st A i y.
  suff : (krylov A y <= Y)%MS by move/mxrankS => le; apply: leq_trans le (rank_leq_row _).
  apply/row_subP => i; rewrite rowK.
  have pY (p : f2x) : (size p <= d)%N -> (pact A p y <= Y)%MS.
    move=> sp; rewrite (pactE A (K := d)) //; apply: summx_sub => j _; apply: scalemx_sub.
    by have := row_sub j Y; rewrite rowK.
  rewrite -pactX; have f0 : f != 0 by rewrite -size_poly_gt0 sf.
  rewrite (divp_eq 'X^i f) pactD pactM fy pact_v0 add0r; apply: pY.
  by have := ltn_modp 'X^i f; rewrite f0 sf ltnS.
apply: contraT => /row_subPn[i]; set z := row i _ => nz.
have fz : pact A f z = 0 by rewrite pact_mx; apply/sub_kermxP; apply: row_sub.
have z0 : z != 0 by apply: contraNneq nz => ->; exact: sub0mx.
have cap : (krylov A y :&: krylov A z)%MS == 0.
  apply: contraT => /rowV0Pn[w wc w0].
  have [wy wz] : (w <= krylov A y)%MS /\ (w <= krylov A z)%MS.
    by split; apply: submx_trans wc _; [exact: capmxSl|exact: capmxSr].
  have [p wE] : exists p : f2x, w = pact A p y by apply/span_pact/orb_krylov.
  have [q wE'] : exists q : f2x, w = pact A q z by apply/span_pact/orb_krylov.
  have nq : ~~ (f %| q) by apply: contra w0 => /(pact_dvd)/(_ fz); rewrite wE' => ->.
  case/Bezout_eq1_coprimepP: (irred_coprime I nq) => -[u v] /= E.
  case/negP: nz; apply/orb_krylov/span_pact; exists (v * p).
  by rewrite pactM -wE wE' -pactM -[z in LHS](pact1 A) -E pactD [pact A (u * f) z]pactM fz pact_v0 add0r.
have : (\rank (krylov A y + krylov A z) <= n)%N by exact: rank_leq_col.
have := mxrank_sum_cap (krylov A y) (krylov A z); rewrite (eqP cap) mxrank0 addn0.
by have := r1 _ y0 fy; have := r1 _ z0 fz; move: n2; clear; lia.
Qed.
Variable y : 'rV['F_2]_n.
Hypothesis y0 : y != 0.
Hypothesis fy : pact A f y = 0.
Lemma comp_krank : \rank (krylov A y) = d.
Proof.
apply/eqP; rewrite eqn_leq (leq_trans (mxrankS (kry_ker fy)) comp_rank).
by have := rank_krylov_irred I y0 fy; rewrite sf.
Qed.
Lemma comp_all x : in_orbit_span A y x <-> x *m poly_mx A f = 0.
Proof.
rewrite -pact_mx; split; first exact: span_ker.
rewrite pact_mx => /sub_kermxP xin; apply/orb_krylov; apply: submx_trans xin _.
by rewrite -(geq_leqif (mxrank_leqif_sup (kry_ker fy))) comp_krank comp_rank.
Qed.
(** Such a factor is unique. *)
Lemma comp_dvd : f %| char_poly A.
Proof. by rewrite -(ann_irred _ I fy y0) cayley. Qed.
End Comp.

Lemma large_unique n (A : 'M['F_2]_n) (f g : f2x) d : irreducible_poly f -> irreducible_poly g -> size f = d.+1 -> size g = d.+1 ->
  (n < 2 * d)%N -> f %| char_poly A -> g %| char_poly A -> f = g.
Proof.
move=> If Ig sf sg n2 df dg; apply: contraTeq isT => ne.
have nd : ~~ (f %| g).
  apply: contra ne => D; have [_ /(_ f)] := Ig; rewrite sf => H.
  have : f %= g by apply: H D; move: (irred_size If); rewrite sf; lia.
  by move/f2x_eqp => ->.
have := Gauss_dvdp (char_poly A) (irred_coprime If nd); rewrite df dg.
have f0 : f != 0 by rewrite -size_poly_gt0 sf.
have g0 : g != 0 by rewrite -size_poly_gt0 sg.
by move/(dvd_size (char_neq0 A)); rewrite size_char_poly size_mul // sf sg; move: n2; clear; lia.
Qed.
Lemma large_simple n (A : 'M['F_2]_n) (f : f2x) d : irreducible_poly f -> size f = d.+1 -> (n < 2 * d)%N -> ~~ (f ^+ 2 %| char_poly A).
Proof.
move=> If sf n2; have f0 : f != 0 by rewrite -size_poly_gt0 sf.
by apply/negP => /(dvd_size (char_neq0 A)); rewrite size_char_poly expr2 size_mul // sf; move: n2; clear; lia.
Qed.

(** AlgorithmEquidistribution on a state of the component. *)
Section Dims.
Variables (S : Type) (G : gen_ops S) (n : nat) (ok : S -> Prop)
  (abs : S -> 'rV['F_2]_n) (A : 'M['F_2]_n) (C : nat -> 'cV['F_2]_n) (nb : nat) (pos : N -> res Z).
Hypothesis LG : linear_gen G ok abs A C.
Hypothesis Hsz : forall s, ok s -> g_bitSize G s = nb.
Hypothesis Hnb : (n <= nb)%N.
Hypothesis Hpos : pos_spec (g_width G) pos.
Lemma comp_dims s f d L veq fuel : ok s -> irreducible_poly f -> size f = d.+1 -> (n < 2 * d)%N -> abs s != 0 ->
  abs s *m poly_mx A f = 0 ->
  ((2 * n + 2 * nb + 2) * (N.to_nat (g_width G)).+1 <= fuel)%N ->
  (1 <= L)%N -> (N.of_nat L <= g_width G)%num -> (L <= length veq)%N ->
  exists a' veq', get_all_equidist G pos fuel (ae_new G s L (Z.of_nat d)) veq = Ret (a', veq', defect_sum d L veq') /\
    forall v, (1 <= v <= L)%N -> exists k : nat, List.nth (v - 1) veq' 0%coqZ = Z.of_nat k /\ comp_dim A C f v k.
Proof.
move=> oks I sf n2 s0; rewrite -pact_mx => fs Hf HL1 HL2 HL3.
have Hsp := comp_all I sf n2 s0 fs; have Hr := comp_krank I sf n2 s0 fs.
have d0 : (0 < d)%N by have := irred_size I; rewrite sf ltnS.
have Hs : [/\ linear_gen G ok abs A C, forall s, ok s -> g_bitSize G s = nb, (n <= 2 * nb + 1)%N &
      pos_spec (g_width G) pos] by split=> //; lia.
have Hfit : (\rank (krylov A (abs s)) <= d)%N /\ (if (Z.of_nat d =? 0)%coqZ then Z.of_nat nb else Z.of_nat d) = Z.of_nat d.
  by rewrite Hr leqnn; split=> //; case: Z.eqb_spec => //; lia.
have [a' [veq' [sum [a2 [sum2 [k2 [E [_ [sE _]]]]]]]]] := sums_thm Hs oks Hfit Hf HL1 HL2 HL3.
have [a3 [veq3 [sum3 [E' V]]]] := dimension_thm Hs oks Hfit Hf HL1 HL2 HL3.
subst sum; exists a', veq'; split=> // v Hv; move: E'; rewrite E => -[_ Ev _]; subst veq3.
have [k [Ek [D3 D4]]] := V v Hv; exists k; split; first by rewrite (List.nth_error_nth _ _ _ Ek).
split; first by apply/(comp_span _ _ _ Hsp).
by move=> k' /(comp_span _ _ _ Hsp)/D4.
Qed.
End Dims.
