(** Polynomials over GF(2): facts used for the period and factor functions. *)
From mathcomp Require Import all_ssreflect all_algebra all_field.
Set Implicit Arguments.
Unset Strict Implicit.
Unset Printing Implicit Defensive.
Import GRing.Theory.
Local Open Scope ring_scope.

Notation f2x := {poly 'F_2}.

Lemma f2_neq0 (a : 'F_2) : a != 0 -> a = 1.
Proof. by case: a => [[|[|m]] Hm] // _; apply/val_inj. Qed.
Lemma f2_addxx (a : 'F_2) : a + a = 0.
Proof. by case: a => [[|[|m]] Hm] //; apply/val_inj. Qed.
Lemma f2_opp (a : 'F_2) : - a = a.
Proof. by apply/eqP; rewrite -subr_eq0 -opprD f2_addxx oppr0. Qed.
Lemma f2x_addxx (p : f2x) : p + p = 0.
Proof. by apply/polyP=> i; rewrite coefD coef0 f2_addxx. Qed.
Lemma f2x_opp (p : f2x) : - p = p.
Proof. by apply/eqP; rewrite -subr_eq0 -opprD f2x_addxx oppr0. Qed.

Lemma f2x_monic (p : f2x) : p != 0 -> p \is monic.
Proof. by move=> p0; rewrite monicE; apply/eqP/f2_neq0; rewrite lead_coef_eq0. Qed.

Lemma f2x_eqp (p q : f2x) : p %= q -> p = q.
Proof.
have [->|p0] := eqVneq p 0; first by rewrite eqp_sym eqp0 => /eqP->.
move=> E; have q0 : q != 0 by apply: contraNneq p0 => Z; rewrite -eqp0 -Z.
by apply/eqP; rewrite -eqp_monic // f2x_monic.
Qed.

Lemma f2x_dvd_anti (p q : f2x) : p %| q -> q %| p -> p = q.
Proof. by move=> H1 H2; apply: f2x_eqp; rewrite /eqp H1 H2. Qed.

Lemma f2x_size1 (p : f2x) : (size p == 1)%N = (p == 1).
Proof.
apply/idP/eqP=> [/size_poly1P[c c0 ->]|->]; last by rewrite size_poly1.
by rewrite (f2_neq0 c0).
Qed.

(** Decidable irreducibility, by searching all smaller polynomials. *)
Definition irredb (p : f2x) : bool :=
  (1 < size p)%N &&
  [forall v : 'rV['F_2]_(size p), (rVpoly v %| p) ==> (rVpoly v == 1) || (rVpoly v == p)].

Lemma irredP (p : f2x) : reflect (irreducible_poly p) (irredb p).
Proof.
apply: (iffP andP) => [[p1 /forallP H]|[p1 H]].
  split=> // q q1 qp.
  have sq : (size q <= size p)%N by apply: dvdp_leq => //; rewrite -size_poly_gt0 (ltn_trans _ p1).
  move: (H (poly_rV q)); rewrite poly_rV_K // qp /= => /orP[|/eqP->]; last by rewrite eqpxx.
  by rewrite -f2x_size1 (negPf q1).
split=> //; apply/forallP=> v; apply/implyP=> D.
rewrite -f2x_size1; case: eqP => //= /eqP s1.
by apply/eqP/f2x_eqp/H.
Qed.

Lemma irred_size (p : f2x) : irreducible_poly p -> (1 < size p)%N.
Proof. by case. Qed.

Lemma irred_dvd (p q : f2x) : irreducible_poly p -> q %| p -> q = 1 \/ q = p.
Proof.
move=> [_ H] D; case E: (size q == 1)%N; first by left; apply/eqP; rewrite -f2x_size1.
by right; apply/f2x_eqp/H; rewrite ?E.
Qed.

Lemma irred_coprime (p q : f2x) : irreducible_poly p -> ~~ (p %| q) -> coprimep p q.
Proof.
move=> I nd; rewrite /coprimep f2x_size1.
case: (irred_dvd I (dvdp_gcdl p q)) => [->//|E]; case/negP: nd.
by rewrite -E dvdp_gcdr.
Qed.

Lemma irred_prime (p a b : f2x) : irreducible_poly p -> p %| a * b -> (p %| a) || (p %| b).
Proof.
move=> I D; case E: (p %| a) => //=.
by move: D; rewrite Gauss_dvdpr // irred_coprime ?E.
Qed.

(** Every non-constant polynomial has an irreducible divisor. *)
Lemma irred_exists (p : f2x) : p != 0 -> p != 1 -> exists2 q, irreducible_poly q & q %| p.
Proof.
have [n] := ubnP (size p); elim: n p => // n IH p sp p0 p1.
case E: (irredb p); first by exists p => //; apply/irredP.
have s1 : (1 < size p)%N.
  by rewrite ltn_neqAle size_poly_gt0 p0 andbT eq_sym f2x_size1.
move: E; rewrite /irredb s1 /= => /negbT; rewrite negb_forall => /existsP[v].
rewrite negb_imply negb_or => /and3P[D q1 qp].
have q0 : rVpoly v != 0 by apply: contraNneq p0 => Z; move: D; rewrite Z dvd0p.
have lt : (size (rVpoly v) < size p)%N.
  rewrite ltn_neqAle dvdp_leq // andbT; apply: contraNneq qp => E.
  by apply/eqP/f2x_eqp; rewrite -dvdp_size_eqp // E.
have [q Iq Dq] := IH (rVpoly v) (leq_trans lt sp) q0 q1.
by exists q => //; apply: dvdp_trans Dq D.
Qed.

(** The residue field of an irreducible polynomial. *)
Lemma irred_field (f : f2x) : irreducible_poly f ->
  exists (L : finFieldType) (phi : {rmorphism f2x -> L}),
    [/\ #|L| = (2 ^ (size f).-1)%N,
        forall g, (phi g == 0) = (f %| g) &
        forall y, exists g, phi g = y].
Proof.
move=> I; have [L dL [z rz full]] := irredp_FAdjoin I.
pose FL := FinFieldExtType L.
pose phi : f2x -> FL := fun g => (map_poly (in_alg L) g).[z].
have phi_rm : rmorphism phi.
  split; first by move=> x y; rewrite /phi rmorphB hornerD hornerN.
  by split=> [x y|]; rewrite /phi ?rmorphM ?hornerM // rmorph1 hornerC.
exists FL, (RMorphism phi_rm); split => /=.
- have E := @card_vspacef [finFieldType of 'F_2] (FinVector.fieldExt_finType L) (Vector.class L).
  have E2 := @card_vspace [finFieldType of 'F_2] (FinVector.fieldExt_finType L) (Vector.class L) fullv.
  transitivity #|FinVector.fieldExt_finType L|; first exact: eq_card.
  by rewrite -E E2 card_Fp // -dL.
- move=> g; apply/idP/idP => [/eqP H|/dvdpP[q ->]]; last first.
    by rewrite /phi rmorphM hornerM (eqP rz) mulr0.
  case D: (f %| g) => //; have := irred_coprime I (negbT D).
  case/Bezout_eq1_coprimepP=> [[u v]] /= E.
  have : phi (u * f + v * g) = phi 1 by rewrite E.
  rewrite /phi rmorphD !rmorphM hornerD !hornerM (eqP rz) -/(phi g) H !mulr0 addr0 rmorph1 hornerC.
  by move/eqP; rewrite eq_sym oner_eq0.
- move=> y; have : y \in <<1; z>>%VS by rewrite full memvf.
  case/Fadjoin_polyP => q /polyOver1P[g ->] ->; by exists g.
Qed.

Lemma phi_X_exp (f : f2x) (L : finFieldType) (phi : {rmorphism f2x -> L}) k :
  (forall g, (phi g == 0) = (f %| g)) -> (f %| 'X^k - 1) = (phi 'X ^+ k == 1).
Proof. by move=> <-; rewrite rmorphB rmorph1 rmorphX subr_eq0. Qed.

(** X is invertible modulo an irreducible polynomial other than X. *)
Lemma irred_polyX : irreducible_poly ('X : f2x).
Proof. by have := irredp_XsubC (0 : 'F_2); rewrite subr0. Qed.
Lemma irred_X (f : f2x) : irreducible_poly f -> (f %| 'X) = (f == 'X).
Proof.
move=> I; apply/idP/eqP=> [D|->//].
case: (irred_dvd irred_polyX D) => // E.
by move: (irred_size I); rewrite E size_poly1.
Qed.

Lemma irred_period (f : f2x) : irreducible_poly f -> f != 'X ->
  f %| 'X^(2 ^ (size f).-1 - 1) - 1.
Proof.
move=> I nX; have [L [phi [cL H _]]] := irred_field I.
rewrite (phi_X_exp _ H); set z := phi 'X.
have z0 : z != 0 by rewrite H irred_X.
apply/eqP/(mulfI z0); rewrite mulr1 -exprS subn1 prednK ?expn_gt0 // -cL.
exact: expf_card.
Qed.

Lemma irred_frob (f : f2x) : irreducible_poly f -> f %| 'X^(2 ^ (size f).-1) - 'X.
Proof.
move=> I; have [L [phi [cL H _]]] := irred_field I.
by rewrite -H rmorphB rmorphX /= -cL expf_card subrr.
Qed.

Lemma irred_no_frob (f : f2x) m : irreducible_poly f -> (0 < m < (size f).-1)%N ->
  ~~ (f %| 'X^(2 ^ m) - 'X).
Proof.
move=> I /andP[m0 lm]; have [L [phi [cL H onto]]] := irred_field I.
rewrite -H rmorphB rmorphX /= subr_eq0; set z := phi 'X; apply/negP=> /eqP zE.
have two : (2%:R : L) = 0.
  have -> : (2%:R : L) = phi 2%:R by rewrite rmorph_nat.
  by rewrite (_ : (2%:R : f2x) = 0) ?rmorph0 // -[LHS]/(1 + 1) f2x_addxx.
have ch : 2%N \in [char L] by rewrite inE /= two.
have cn : [char L].-nat (2 ^ m)%N by rewrite (eq_pnat _ (charf_eq ch)) pnatX ?pnat_id ?orbT.
have ally (y : L) : y ^+ (2 ^ m) = y.
  have [g <-] := onto y; elim/poly_ind: g => [|g c IH].
    by rewrite rmorph0 expr0n expn_eq0.
  rewrite rmorphD rmorphM /= -/z exprDn_char // exprMn IH zE; congr (_ + _).
  have [->|/f2_neq0->] := eqVneq c 0; first by rewrite rmorph0 expr0n expn_eq0.
  by rewrite rmorph1 expr1n.
pose P : {poly L} := 'X^(2 ^ m) - 'X.
have m2 : (1 < 2 ^ m)%N by rewrite -{1}(expn0 2) ltn_exp2l.
have sP : size P = (2 ^ m).+1.
  by rewrite size_addl size_polyXn // size_opp size_polyX ltnS.
have P0 : P != 0 by rewrite -size_poly_gt0 sP.
have rP : all (root P) (enum L).
  by apply/allP=> y _; rewrite /root hornerD hornerN hornerXn hornerX ally subrr.
have := max_poly_roots P0 rP (enum_uniq L).
by rewrite -cardE cL sP ltnS leqNgt ltn_exp2l // lm.
Qed.

(** The order of X modulo an irreducible polynomial is 2^d - 1 as soon as no
    quotient (2^d-1)/q by a prime q is an exponent. *)
Lemma irred_order (f : f2x) (N := (2 ^ (size f).-1 - 1)%N) : irreducible_poly f -> f != 'X ->
  (forall q, prime q -> (q %| N)%N -> ~~ (f %| 'X^(N %/ q) - 1)) ->
  forall k, (0 < k < N)%N -> ~~ (f %| 'X^k - 1).
Proof.
move=> I nX Hq k /andP[k0 kN]; have [L [phi [cL H _]]] := irred_field I.
have E j := phi_X_exp j H; rewrite E; set z := phi 'X in E *.
have zN : z ^+ N = 1 by apply/eqP; rewrite -E irred_period.
have N0 : (0 < N)%N by apply: ltn_trans kN.
have [o po oN] := prim_order_exists N0 zN.
rewrite -(prim_order_dvd po); apply/negP=> ok.
have lo : (o < N)%N by apply: leq_ltn_trans kN; apply: dvdn_leq.
have [t tE] := dvdnP oN.
have t1 : (1 < t)%N.
  by case: t tE => [|[|t]] // tE; [move: N0; rewrite tE | move: lo; rewrite tE mul1n ltnn].
have pr := pdiv_prime t1.
have dN : (pdiv t %| N)%N by rewrite tE dvdn_mulr // pdiv_dvd.
apply: (negP (Hq _ pr dN)); rewrite E -(prim_order_dvd po) tE.
by rewrite -divn_mulAC ?pdiv_dvd // dvdn_mull.
Qed.
