(** The component of a reducible generator that belongs to an irreducible
    factor, and its equidistribution. *)
From Coq Require Import NArith ZArith List Bool Lia.
From mathcomp Require Import all_ssreflect all_algebra.
From mathcomp Require Import zify.
From Verif Require Import Base UtilModel GenModel PolyF2 LinSpec LinLemmas PeriodModel PeriodSpec PolyAct.
From Verif Require Import PeriodProofs PeriodProofs2 PeriodProofs3 PeriodProofs4 PeriodProofs5 EquiModel EquiProofs5 EquiEx.
Set Implicit Arguments.
Unset Strict Implicit.
Unset Printing Implicit Defensive.
Import GRing.Theory.
Local Open Scope ring_scope.
Delimit Scope Z_scope with coqZ.

Section Comp.
Variables (n : nat) (A : 'M['F_2]_n) (f phi psi : f2x).
Hypothesis sf : size f = n.+1.
Hypothesis fE : f = phi * psi.
Hypothesis I : irreducible_poly phi.
Hypothesis cop : ~~ (phi %| psi).
Hypothesis fmin : forall c : f2x, (forall x, pact A c x = 0) -> f %| c.
Hypothesis f_ann : forall x, pact A f x = 0.
Notation e := (size phi).-1.
Notation P := (poly_mx A phi).
Notation Q := (poly_mx A psi).

Lemma psi0 : psi != 0.
Proof. by apply: contraNneq cop => ->; rewrite dvdp0. Qed.
Lemma phi0 : phi != 0.
Proof. by rewrite -size_poly_gt0 (ltn_trans _ (irred_size I)). Qed.

(** A polynomial of degree dim U that kills the invariant subspace U = ker psi. *)
Lemma kill_psi : exists2 g : f2x, size g = (\rank (kermx Q)).+1 &
  forall x, pact A psi x = 0 -> pact A g x = 0.
Proof.
set U := row_base (kermx Q).
have inv : (U *m A <= U)%MS.
  have H : (kermx Q *m A <= kermx Q)%MS.
    apply/row_subP=> i; rewrite row_mul; apply/sub_kermxP.
    rewrite -pact_mx -[_ *m A]/(st A 1 _) pact_st pact_mx -row_mul.
    by rewrite (sub_kermxP (submx_refl _)) row0 st0.
  apply: submx_trans (_ : (kermx Q *m A <= _)%MS); last by rewrite (submx_trans H) // eq_row_base.
  by apply: submxMr; rewrite eq_row_base.
have [Bm BE] := submxP inv.
exists (char_poly Bm); first by rewrite size_char_poly.
move=> x; rewrite pact_mx => /sub_kermxP; rewrite -(eq_row_base (kermx Q)) => /submxP[z ->].
have stU i : st A i (z *m U) = st Bm i z *m U.
  by elim: i => //= i IH; rewrite -/(st A i _) IH -mulmxA -/U BE mulmxA.
have -> : pact A (char_poly Bm) (z *m U) = pact Bm (char_poly Bm) z *m U.
  by rewrite /pact mulmx_suml; apply: eq_bigr => i _; rewrite stU scalemxAl.
by rewrite cayley mul0mx.
Qed.

Lemma bezout_phi : exists u v : f2x, u * phi + v * psi = 1.
Proof.
have := irred_coprime I cop; case/Bezout_eq1_coprimepP=> [[u v]] /= E; by exists u, v.
Qed.

Lemma dim_phi : (\rank (kermx P) <= e)%N.
Proof.
have [g sg Hg] := kill_psi; have [u [v uv]] := bezout_phi.
have g0 : g != 0 by rewrite -size_poly_gt0 sg.
have kill x : pact A (phi * g) x = 0.
  rewrite -[x](pact1 A) -uv pactD pact_vD.
  have -> : pact A (phi * g) (pact A (u * phi) x) = pact A (phi * u) (pact A g (pact A phi x)).
    by rewrite -!pactM mulrACA mulrA.
  have -> : pact A (phi * g) (pact A (v * psi) x) = pact A (g * v) (pact A f x).
    by rewrite -!pactM [phi * g]mulrC mulrACA fE.
  by rewrite Hg ?f_ann ?pact_v0 ?addr0 // -pactM mulrC -fE f_ann.
have := dvd_size (mulf_neq0 phi0 g0) (fmin kill).
rewrite sf size_mul ?phi0 // sg addnS /= => le.
have cap : (kermx P :&: kermx Q = 0)%MS.
  apply/eqP; rewrite -submx0; apply/row_subP => i.
  set x := row i _; have xin : (x <= kermx P :&: kermx Q)%MS by apply: row_sub.
  have [xP xQ] : x *m P = 0 /\ x *m Q = 0.
    by move: xin; rewrite sub_capmx => /andP[/sub_kermxP ? /sub_kermxP ?].
  have -> : x = 0; last exact: sub0mx.
  by rewrite -[x](pact1 A) -uv pactD !pactM [pact A phi x]pact_mx [pact A psi x]pact_mx xP xQ !pact_v0 addr0.
have := mxrank_sum_cap (kermx P) (kermx Q); rewrite cap mxrank0 addn0.
have := rank_leq_col (kermx P + kermx Q)%MS.
have := irred_size I; move: le; case: (size phi) => //= s; rewrite ltnS.
by move: (\rank (kermx P)) (\rank (kermx Q)) (\rank _) => a b c; lia.
Qed.

Variable y : 'rV['F_2]_n.
Hypothesis y0 : y != 0.
Hypothesis yphi : pact A phi y = 0.

Lemma rank_low : (e <= \rank (krylov A y))%N.
Proof.
pose Y : 'M['F_2]_(e, n) := \matrix_(i < e) st A i y.
have fr : row_free Y.
  rewrite -kermx_eq0; apply/eqP/row_matrixP => i; rewrite row0.
  set v := row i _; have vY : v *m Y = 0 by apply/sub_kermxP; apply: row_sub.
  have : pact A (rVpoly v) y = 0.
    rewrite -[RHS]vY (pactE A (K := e)) ?size_poly //; apply/rowP=> j.
    by rewrite mxE summxE; apply: eq_bigr => k _; rewrite coef_rVpoly_ord !mxE.
  move/eqP; rewrite (ann_irred _ I yphi y0) => D.
  apply: (can_inj (@rVpolyK _ _)); rewrite linear0.
  apply/eqP; apply: contraTT D => v0; apply/negP=> /(dvd_size v0).
  rewrite leqNgt => /negP; apply.
  have := irred_size I; have : (size (rVpoly v) <= e)%N by exact: size_poly.
  by move: (size (rVpoly v)) => q; lia.
have : (Y <= krylov A y)%MS by apply/row_subP => i; rewrite rowK; exact: krylov_st.
by move/mxrankS; rewrite (eqP fr).
Qed.

(** The span of the orbit of y is the kernel of phi, of dimension deg phi. *)
Lemma span_phi x : in_orbit_span A y x <-> pact A phi x = 0.
Proof.
have sub z : in_orbit_span A y z -> pact A phi z = 0.
  case=> K [a ->]; rewrite -pact_sum big1 // => i _.
  by rewrite pact_vZ pact_st yphi st0 scaler0.
split; first exact: sub.
rewrite pact_mx => /sub_kermxP xin; apply/orb_krylov; apply: submx_trans xin _.
have Ks : (krylov A y <= kermx P)%MS.
  by apply/row_subP=> i; apply/sub_kermxP; rewrite -pact_mx; apply: sub; apply/orb_krylov; apply: row_sub.
by rewrite -(geq_leqif (mxrank_leqif_sup Ks)) (leq_trans dim_phi rank_low).
Qed.
Lemma rank_phi : \rank (krylov A y) = e.
Proof.
apply/eqP; rewrite eqn_leq rank_low andbT; apply: leq_trans (mxrankS _) dim_phi.
apply/row_subP=> i; apply/sub_kermxP; rewrite -pact_mx; apply/span_phi; apply/orb_krylov; exact: row_sub.
Qed.
End Comp.

(** * AlgorithmReducibleEquidistribution *)
Section Red.
Variables (S : Type) (G : gen_ops S) (M : seq 'F_2 -> nat -> f2x) (n : nat) (ok : S -> Prop)
  (abs : S -> 'rV['F_2]_n) (A : 'M['F_2]_n) (C D : nat -> 'cV['F_2]_n).
Hypothesis LG : linear_gen G ok abs A C.
Hypothesis LO : linear_out G ok abs D.
Hypothesis HM : minpolyseq_spec M.
Variable nb : nat.
Hypothesis Hsz : forall s, ok s -> g_bitSize G s = nb.
Hypothesis Hnb : (n <= nb)%N.

Lemma div_ret (a b : f2x) : b != 0 -> gf2x_div a b = Ret (a %/ b).
Proof. by rewrite /gf2x_div => /negbTE ->. Qed.

Lemma reducible_spec s (phi : f2x) : ok s -> phi != 0 ->
  exists L k s1, [/\ calcCharacteristicPolynomial G M s 1 = Ret (L, run G k s),
    reducible_state G M s phi = Ret s1, ok s1,
    abs s1 = pact A (L %/ phi) (st A k (abs s)) &
    phi %| L -> forall p, (N.of_nat p < g_width G)%num -> generates phi (out_seq A D (abs s1) p)].
Proof.
move=> oks phi0; have [L [k [E _ L0 Hc [Hg _]]]] := ccp_spec LG LO HM Hsz Hnb oks (oner_neq0 _).
have okk : ok (run G k s) by apply: (PeriodProofs4.run_ok LG).
have [ok1 abs1] := annihilate_spec LG (L %/ phi) okk.
exists L, k, (annihilate G (run G k s) (L %/ phi)); split=> //.
- by rewrite /reducible_state E [bind _ _]/= div_ret.
- by rewrite abs1 (run_abs LG).
move=> /divpK EL p Hp; apply/out_generates => i.
rewrite abs1 -pactM mulrC EL.
by have /out_generates := Hg (dvd1p _) p Hp; apply.
Qed.

(** The output has full linear complexity: only multiples of the characteristic
    polynomial annihilate it. *)
Variable s : S.
Hypothesis oks : ok s.
Hypothesis full : forall c, (forall p, (N.of_nat p < g_width G)%num -> generates c (out_seq A D (abs s) p)) ->
  char_poly A %| c.
Hypothesis Au : A \in unitmx.

Lemma full_ccp : exists k, calcCharacteristicPolynomial G M s 1 = Ret (char_poly A, run G k s).
Proof.
have [L [k [E _ L0 Hc [Hg _]]]] := ccp_spec LG LO HM Hsz Hnb oks (oner_neq0 _).
exists k; rewrite E; congr (Ret (_, _)); apply: f2x_dvd_anti; first exact: Hc (dvd1p _).
apply: full => p Hp; apply: (out_back (k := k) Au); rewrite -(run_abs LG) //; exact: Hg (dvd1p _) _ Hp.
Qed.

Variables (phi : f2x) (d : nat).
Hypothesis I : irreducible_poly phi.
Hypothesis sphi : size phi = d.+1.
Hypothesis phiD : phi %| char_poly A.
Hypothesis phi2 : ~~ (phi ^+ 2 %| char_poly A).

Lemma component : exists s1, [/\ reducible_state G M s phi = Ret s1, ok s1, abs s1 != 0,
  forall x, in_orbit_span A (abs s1) x <-> x *m poly_mx A phi = 0 & \rank (krylov A (abs s1)) = d].
Proof.
have phi0 := phi0 I.
have [L [k' [s1 [E' E1 ok1 abs1 _]]]] := reducible_spec oks phi0.
have [k E] := full_ccp; move: E'; rewrite E => -[LE _]; subst L.
have D1 := phiD; have D2 := phi2.
set f := char_poly A in D1 D2 E abs1; set psi := f %/ phi in abs1.
have fE : f = phi * psi by rewrite mulrC divpK.
have f0 : f != 0 by apply: char_neq0.
have psi0 : psi != 0 by apply: contraNneq f0 => z; rewrite fE z mulr0.
have y0 : abs s1 != 0.
  apply/eqP=> z; have : f %| psi.
    by apply: full => p Hp; apply: (out_back (k := k') Au); apply: out_zero; rewrite -abs1.
  move/(dvd_size psi0); rewrite fE size_mul //.
  by have := irred_size I; rewrite -size_poly_gt0 in psi0; move: (size phi) (size psi) psi0 => a b; lia.
have yphi : pact A phi (abs s1) = 0 by rewrite abs1 -pactM -fE cayley.
have cop : ~~ (phi %| psi).
  by apply: contraNN D2; rewrite fE expr2 dvdp_mul2l.
have fmin c : (forall x, pact A c x = 0) -> f %| c.
  by move=> Hc; apply: full => p Hp; apply: out_zero; apply: Hc.
have sf : size f = n.+1 by rewrite size_char_poly.
have Hs := span_phi sf fE I cop fmin (@cayley n A) y0 yphi.
have Hr := rank_phi sf fE I cop fmin (@cayley n A) y0 yphi.
exists s1; split=> //; last by rewrite Hr sphi.
by move=> x; rewrite -pact_mx; apply: Hs.
Qed.
End Red.
