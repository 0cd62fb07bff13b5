(** hasFactorOfDegree terminates and is exact. *)
From Coq Require Import NArith ZArith List Bool Lia.
From mathcomp Require Import all_ssreflect all_algebra.
From mathcomp Require Import zify.
From Verif Require Import Base UtilModel GenModel PolyF2 LinSpec PeriodModel PeriodSpec.
Set Implicit Arguments.
Unset Strict Implicit.
Unset Printing Implicit Defensive.
Import GRing.Theory.
Local Open Scope ring_scope.
Delimit Scope Z_scope with coqZ.

(** Every irreducible factor has degree at least m / less than m. *)
Definition lowfree (m : nat) (p : f2x) : Prop :=
  forall h, irreducible_poly h -> h %| p -> (m < size h)%N.
Definition below (m : nat) (p : f2x) : Prop :=
  forall h, irreducible_poly h -> h %| p -> (size h <= m)%N.
Definition frob (m : nat) : f2x := 'X^(2 ^ m) - 'X.

Lemma below_mul m p q : below m p -> below m q -> below m (p * q).
Proof. by move=> Hp Hq h I /(irred_prime I)/orP[]; [apply: Hp|apply: Hq]. Qed.
Lemma below_le m m' p : (m <= m')%N -> below m p -> below m' p.
Proof. by move=> le H h I D; apply: leq_trans (H h I D) le. Qed.
Lemma below1 m : below m 1.
Proof.
move=> h I; rewrite dvdp1 => /eqP E; by have := irred_size I; rewrite E.
Qed.
Lemma lowfree_dvd m p q : q %| p -> lowfree m p -> lowfree m q.
Proof. by move=> D H h I Dh; apply: H => //; apply: dvdp_trans D. Qed.
Lemma dvd_size (p q : f2x) : q != 0 -> p %| q -> (size p <= size q)%N.
Proof. by move=> q0 D; apply: dvdp_leq. Qed.
Lemma size_eq_dvd (p q : f2x) : p %| q -> size p = size q -> p = q.
Proof. by move=> D E; apply: f2x_eqp; rewrite -dvdp_size_eqp // E. Qed.

Lemma below_gcd m (p t : f2x) : (0 < m)%N -> lowfree m p -> p %| t - frob m ->
  below m.+1 (gcdp p t).
Proof.
move=> m0 lf pt h I D.
have hp : h %| p by apply: dvdp_trans D (dvdp_gcdl _ _).
have ht : h %| t by apply: dvdp_trans D (dvdp_gcdr _ _).
have hf : h %| frob m.
  by rewrite -(dvdp_subr _ ht); apply: dvdp_trans hp pt.
rewrite leqNgt; apply/negP=> lt.
have mr : (0 < m < (size h).-1)%N by rewrite m0; case: (size h) lt.
by apply: (negP (irred_no_frob I mr)).
Qed.

Lemma lowfree_next m (p t : f2x) : lowfree m p -> p %| t - frob m -> gcdp p t = 1 -> lowfree m.+1 p.
Proof.
move=> lf pt g1 h I D; have := lf h I D; rewrite leq_eqVlt => /orP[/eqP E|//].
have hf : h %| frob m by have := irred_frob I; rewrite -E.
have ht : h %| t by rewrite -(dvdp_subl _ hf); apply: dvdp_trans D pt.
have : h %| gcdp p t by rewrite dvdp_gcd D.
by rewrite g1 => /(@below1 0 h I); rewrite leqNgt (ltn_trans _ (irred_size I)).
Qed.

Lemma degZ_lt (p : f2x) (d : nat) : (deg p <? Z.of_nat d)%coqZ = (size p <= d)%N.
Proof. by rewrite /deg; lia. Qed.
Lemma degZ_gt (p : f2x) (d : nat) : (Z.of_nat d <? deg p)%coqZ = (d.+1 < size p)%N.
Proof. by rewrite /deg; lia. Qed.
Lemma degZ_eq (p : f2x) (d : nat) : (deg p =? Z.of_nat d)%coqZ = (size p == d.+1).
Proof. by rewrite /deg; lia. Qed.

Lemma hf_inner_spec m (t : f2x) d : (0 < m)%N -> forall fuel (poly : f2x),
  poly != 0 -> (d < size poly)%N -> lowfree m poly -> poly %| t - frob m -> (size poly <= fuel)%N ->
  exists poly' go r, [/\ hf_inner fuel poly t (Z.of_nat d) = Ret (poly', go),
    poly = poly' * r, below m.+1 r & if go then lowfree m.+1 poly' /\ (d < size poly')%N else (size poly' <= d)%N].
Proof.
move=> m0; elim=> [|fuel IH] poly p0 dp lf pt sf.
  by move: sf p0; rewrite leqn0 size_poly_eq0 => ->.
rewrite /=; case: eqP => [g1|/eqP g1].
  exists poly, true, 1; rewrite mulr1; split=> //; first exact: below1.
  by split=> //; apply: lowfree_next g1.
have g0 : gcdp poly t != 0 by rewrite gcdp_eq0 (negPf p0).
rewrite /gf2x_div (negPf g0) /=; set a := gcdp poly t in g0 g1 *.
have aD : a %| poly := dvdp_gcdl _ _.
have pE : poly = poly %/ a * a by rewrite divpK.
have ba : below m.+1 a by apply: below_gcd.
rewrite degZ_lt; case: leqP => [le|gt].
  by exists (poly %/ a), false, a.
have p'0 : poly %/ a != 0 by rewrite -size_poly_gt0; apply: leq_ltn_trans gt.
have D' : poly %/ a %| poly by rewrite [X in _ %| X]pE dvdp_mulr.
have s' : (size (poly %/ a)%R < size poly)%N.
  rewrite size_divp // ltn_subrL size_poly_gt0 p0 andbT.
  move: g1; rewrite -f2x_size1 -size_poly_gt0 in g0 *; by case: (size a) g0 => [|[]].
have [poly' [go [r [E1 E2 E3 E4]]]] := IH _ p'0 gt (lowfree_dvd D' lf) (dvdp_trans D' pt) (leq_trans s' sf).
exists poly', go, (r * a); split=> //; last exact: below_mul.
by rewrite mulrA -E2.
Qed.

Section Main.
Variables (p : f2x) (d : nat).
Hypothesis p0 : p != 0.

Lemma hf_final (poly R : f2x) m : p = poly * R -> (0 < m)%N -> lowfree m poly -> below m R -> size poly = d.+1 ->
  (irredb poly -> large_factor p poly d) /\
  (~~ irredb poly -> forall f, ~ large_factor p f d).
Proof.
move=> pE m0 lf bR sp; split=> [/irredP I|nI f [If sf [g gE bg]]].
  split=> //; exists R => // h Ih D; apply: leq_trans (bR h Ih D) _.
  by rewrite -ltnS -sp lf.
have poly0 : poly != 0 by rewrite -size_poly_gt0 sp.
have : f %| poly * R by rewrite -pE gE dvdp_mulr.
case/(irred_prime If)/orP => D.
  have E := size_eq_dvd D; move/negP: nI; apply; apply/irredP; rewrite -E //.
  by rewrite sf sp.
have le := bR _ If D; rewrite sf in le.
have p1 : poly != 1.
  apply/eqP=> E; move: (irred_size If); rewrite sf -sp E size_poly1 //.
have [h Ih Dh] := irred_exists poly0 p1.
have := lf h Ih Dh; have := dvd_size poly0 Dh; rewrite sp => l1 l2.
by have := leq_trans l2 l1; rewrite ltnNge le.
Qed.

Lemma hf_stop (poly poly' R : f2x) m (r : f2x) : p = poly * R -> lowfree m poly -> below m R ->
  (d.+1 < size poly)%N -> poly = poly' * r -> below m.+1 r -> (size poly' <= d)%N ->
  forall f, ~ large_factor p f d.
Proof.
move=> pE lf bR sp polyE br sp' f [If sf [g gE bg]].
have poly0 : poly != 0 by rewrite -size_poly_gt0; apply: leq_ltn_trans sp.
have poly'0 : poly' != 0 by apply: contraNneq poly0 => E; rewrite polyE E mul0r.
have fp : f %| poly * R by rewrite -pE gE dvdp_mulr.
have fn0 : f != 0 by rewrite -size_poly_gt0 sf.
have key : (d < m)%N -> False.
  move=> dm.
  have p1 : poly != 1 by apply/eqP=> E; move: sp; rewrite E size_poly1.
  have [h Ih Dh] := irred_exists poly0 p1.
  have lh := lf h Ih Dh.
  have : h %| f * g by rewrite -gE pE dvdp_mulr.
  case/(irred_prime Ih)/orP => D.
    have := dvd_size fn0 D; rewrite sf => l; by have := leq_trans lh l; rewrite ltnS leqNgt dm.
  by have := leq_trans lh (bg h Ih D); rewrite ltnNge (ltnW dm).
case/(irred_prime If)/orP: fp => [D|/(bR _ If)]; last by rewrite sf => /key.
have [g1 g1E] := dvdpP _ _ D; rewrite mulrC in g1E.
have g10 : g1 != 0 by apply: contraNneq poly0 => E; rewrite g1E E mulr0.
have g11 : g1 != 1.
  by apply/eqP=> E; move: sp; rewrite g1E E mulr1 sf ltnn.
have gg : g = g1 * R.
  by apply: (mulfI fn0); rewrite -gE pE g1E mulrA.
have [h Ih Dh] := irred_exists g10 g11.
have lh : (m < size h)%N by apply: lf => //; rewrite g1E dvdp_mull.
have hd : (size h <= d)%N by apply: bg => //; rewrite gg dvdp_mulr.
have md : (m < d)%N by apply: leq_trans lh hd.
have : f %| poly' * r by rewrite -polyE.
case/(irred_prime If)/orP => [/(dvd_size poly'0)|/(br _ If)]; rewrite sf.
  by move=> l; have := leq_trans l sp'; rewrite ltnn.
by rewrite ltnS leqNgt md.
Qed.

Lemma hf_outer_spec fuel0 : (size p <= fuel0)%N -> forall fuel m (poly R t2m t : f2x),
  p = poly * R -> (0 < m)%N -> lowfree m poly -> below m R -> (d < size poly)%N ->
  poly %| t2m - 'X^(2 ^ m) -> t = t2m + 'X -> (size p <= fuel + m)%N ->
  exists poly' b, [/\ hf_outer fuel0 fuel poly t2m t (Z.of_nat d) = Ret (poly', b),
    b -> large_factor p poly' d & ~~ b -> forall f, ~ large_factor p f d].
Proof.
move=> f0; elim=> [|fuel IH] m poly R t2m t pE m0 lf bR sp Dt tE sf.
all: have poly0 : poly != 0 by rewrite -size_poly_gt0; apply: leq_ltn_trans sp.
all: have Dp : poly %| p by rewrite pE dvdp_mulr.
all: rewrite /= degZ_gt; case: ltnP => [gt|le].
all: try (have se : size poly = d.+1 by apply/eqP; rewrite eqn_leq le sp).
all: try by rewrite degZ_eq se eqxx; exists poly, (irredb poly); case: (hf_final pE m0 lf bR se).
  have p1 : poly != 1 by apply/eqP=> E; move: gt; rewrite E size_poly1.
  have [h Ih Dh] := irred_exists poly0 p1; have := lf h Ih Dh; rewrite ltnNge => /negP[].
  by apply: leq_trans sf; apply: leq_trans (dvd_size p0 Dp); apply: dvd_size Dh.
have pt : poly %| t - frob m.
  by rewrite tE /frob opprB addrA -(addrA t2m) f2x_addxx addr0.
have fs : (size poly <= fuel0)%N by apply: leq_trans f0; apply: dvd_size Dp.
have [poly' [go [r [-> polyE br]]]] := hf_inner_spec m0 poly0 sp lf pt fs.
rewrite [bind _ _]/=; case: go => [[lf' sp']|sp']; last first.
  exists poly', false; split=> // _; exact: (hf_stop pE lf bR gt polyE br sp').
have poly'0 : poly' != 0 by apply: contraNneq poly0 => E; rewrite polyE E mul0r.
rewrite /gf2x_mod (negPf poly'0) [bind _ _]/=.
apply: (IH m.+1 poly' (r * R)) => //.
- by rewrite mulrA -polyE.
- by apply: below_mul => //; apply: below_le bR.
- have D' : poly' %| t2m - 'X^(2 ^ m) by apply: dvdp_trans Dt; rewrite polyE dvdp_mulr.
  have -> : 'X^(2 ^ m.+1) = 'X^(2 ^ m) * 'X^(2 ^ m) :> f2x by rewrite -exprD addnn expnS mul2n.
  set q := 'X^(2 ^ m) in D' *.
  have E2 : t2m * t2m = (t2m * t2m) %/ poly' * poly' + (t2m * t2m) %% poly' := divp_eq _ _.
  have -> : (t2m * t2m) %% poly' - q * q = (t2m - q) * (t2m + q) - (t2m * t2m) %/ poly' * poly'.
    by rewrite -subr_sqr !expr2 {2}E2 addrAC [_ * poly' + _]addrC addrK.
  by apply: dvdp_sub; [apply: dvdp_mulr | apply: dvdp_mull].
- by rewrite addnS -addSn.
Qed.
End Main.

Lemma hasFactor_spec (p : f2x) (d : nat) fuel : p != 0 -> (size p <= fuel)%N ->
  exists poly' b, [/\ hasFactorOfDegree fuel p (Z.of_nat d) = Ret (poly', b),
    b -> large_factor p poly' d & ~~ b -> forall f, ~ large_factor p f d].
Proof.
move=> p0 sf; rewrite /hasFactorOfDegree degZ_lt; case: leqP => [le|gt].
  exists p, false; split=> // _ f [If sF [g gE _]].
  have fD : f %| p by rewrite gE dvdp_mulr.
  have l := dvd_size p0 fD; rewrite sF in l.
  by have := leq_trans l le; rewrite ltnn.
apply: (hf_outer_spec p0 sf (m := 1) (R := 1)) => //; rewrite ?mulr1 ?addn1 //.
- by move=> h I _; exact: irred_size.
- exact: below1.
- by rewrite subrr dvdp0.
- exact: addrC.
exact: leq_trans sf _.
Qed.

(** With a negative degree the loop does not end. *)
Lemma hf_inner_one fuel t d : (d < 0)%coqZ -> hf_inner fuel.+1 1 t d = Ret (1, true).
Proof. by move=> d0; rewrite /= (f2x_eqp (gcd1p t)) eqxx. Qed.

Lemma hf_negative fuel0 : forall fuel (poly t2m t : f2x) d, (d < 0)%coqZ -> poly != 0 ->
  hf_outer fuel0 fuel poly t2m t d = NoFuel.
Proof.
have inner (t : f2x) d : (d < 0)%coqZ -> forall f (poly : f2x), poly != 0 ->
  hf_inner f poly t d = NoFuel \/ exists2 poly', poly' != 0 & hf_inner f poly t d = Ret (poly', true).
  move=> d0; elim=> [|f IH] poly p0; first by left.
  rewrite /=; case: eqP => [_|/eqP g1]; first by right; exists poly.
  have g0 : gcdp poly t != 0 by rewrite gcdp_eq0 (negPf p0).
  have D : gcdp poly t %| poly := dvdp_gcdl _ _.
  rewrite /gf2x_div (negPf g0) /=.
  have q0 : poly %/ gcdp poly t != 0 by rewrite divp_eq0 negb_or p0 negb_or g0 /= -leqNgt dvd_size.
  have -> : (deg (poly %/ gcdp poly t) <? d)%coqZ = false.
    by move: q0; rewrite -size_poly_gt0 /deg; lia.
  exact: IH.
elim=> [|fuel IH] poly t2m t d d0 p0 /=.
all: have -> : (d <? deg poly)%coqZ by move: p0; rewrite -size_poly_gt0 /deg; lia.
  by [].
case: (inner t d d0 fuel0 poly p0) => [->//|[poly' q0 ->]] /=.
by rewrite /gf2x_mod (negPf q0) /=; apply: IH.
Qed.

Lemma hasFactor_negative fuel p d : (d < 0)%coqZ -> p != 0 -> hasFactorOfDegree fuel p d = NoFuel.
Proof.
move=> d0 p0; rewrite /hasFactorOfDegree.
have -> : (deg p <? d)%coqZ = false by move: p0; rewrite -size_poly_gt0 /deg; lia.
exact: hf_negative.
Qed.

Lemma hasFactor_zero fuel d : hasFactorOfDegree fuel 0 (Z.of_nat d) = Ret (0, false).
Proof. by rewrite /hasFactorOfDegree degZ_lt size_poly0. Qed.
