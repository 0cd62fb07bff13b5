(** The Lucas-Lehmer criterion (sufficiency) and Fermat's criterion for
    Mersenne numbers.  Part of the proofs. *)
From mathcomp Require Import all_ssreflect all_fingroup cyclic all_algebra zify.
Set Implicit Arguments.
Unset Strict Implicit.
Unset Printing Implicit Defensive.
Import GRing.Theory.
Local Open Scope ring_scope.

Section Field.
Variable q : nat.
Hypothesis Pq : prime q.
Hypothesis q2 : (2 < q)%N.
Notation F := 'F_q.

(** a + b sqrt 3 as the matrix of the multiplication with it. *)
Definition mx3 (a b : F) : 'M[F]_2 :=
  \matrix_(i, j) (if i == j then a else if i == 0 then 3%:R * b else b).
Lemma mx3_inj a b c d : mx3 a b = mx3 c d -> a = c /\ b = d.
Proof.
move=> E; split.
  by have := congr1 (fun m : 'M[F]_2 => m 0 0) E; rewrite !mxE.
by have := congr1 (fun m : 'M[F]_2 => m 1 0) E; rewrite !mxE.
Qed.
Lemma mx3M a b c d : mx3 a b *m mx3 c d = mx3 (a * c + 3%:R * (b * d)) (a * d + b * c).
Proof.
apply/matrixP => i j; rewrite !mxE /= big_ord_recl big_ord1 !mxE /=.
case: i => [[|[|//]] Hi]; case: j => [[|[|//]] Hj]; rewrite /= ?mulrA; first by [].
- by rewrite mulrDr !mulrA [a * _]mulrC; congr (_ + _); rewrite -!mulrA.
- by rewrite addrC.
- by rewrite addrC -mulrA [b * _]mulrC -!mulrA [d * b]mulrC.
Qed.
Lemma mx3D a b c d : mx3 a b + mx3 c d = mx3 (a + c) (b + d).
Proof. by apply/matrixP => i j; rewrite !mxE; do 2 case: ifP => // _; rewrite mulrDr. Qed.
Lemma mx3_1 : mx3 1 0 = 1%:M.
Proof. by apply/matrixP => i j; rewrite !mxE mulr0; case: (i == j) => //; case: ifP. Qed.
Definition om : 'M[F]_2 := mx3 2%:R 1.
Definition ob : 'M[F]_2 := mx3 2%:R (-1).
Lemma mx3_mul a b c d : mx3 a b * mx3 c d = mx3 (a * c + 3%:R * (b * d)) (a * d + b * c).
Proof. exact: mx3M. Qed.
Lemma mx3_one : mx3 1 0 = 1.
Proof. exact: mx3_1. Qed.
Lemma mx3_0 : mx3 0 0 = 0.
Proof. by apply/matrixP => i j; rewrite !mxE mulr0; case: (i == j); [|case: (i == 0)]. Qed.
Lemma om_ob : om * ob = 1.
Proof.
rewrite mx3_mul -mx3_one; congr mx3.
  by rewrite mul1r mulrN1 -natrM -natrB.
by rewrite mulrN1 mul1r addrC subrr.
Qed.
Lemma ob_om : ob * om = 1.
Proof.
rewrite mx3_mul -mx3_one; congr mx3.
  by rewrite mulr1 mulrN1 -natrM -natrB.
by rewrite mulr1 mulN1r subrr.
Qed.
Lemma om_pow k : exists a b, om ^+ k = mx3 a b.
Proof.
elim: k => [|k [a [b IH]]]; first by exists 1, 0; rewrite expr0 mx3_one.
by rewrite exprS IH mx3_mul; do 2 eexists.
Qed.
Lemma om_ob_pow k : om ^+ k * ob ^+ k = 1.
Proof.
rewrite -exprMn_comm; last by rewrite /GRing.comm om_ob ob_om.
by rewrite om_ob expr1n.
Qed.
Lemma ob_om_pow k : ob ^+ k * om ^+ k = 1.
Proof.
rewrite -exprMn_comm; last by rewrite /GRing.comm om_ob ob_om.
by rewrite ob_om expr1n.
Qed.
Lemma two_neq0 : 2%:R != 0 :> F.
Proof.
apply/eqP => /(congr1 (@nat_of_ord _)).
by rewrite val_Fp_nat // modn_small.
Qed.

(** If s is the Lucas-Lehmer sequence modulo q and vanishes at n, then
    2^(n+2) < q^2. *)
Lemma order_bound (s : nat -> F) n : s 0%N = 4%:R -> (forall i, s i.+1 = s i ^+ 2 - 2%:R) ->
  s n = 0 -> (2 ^ n.+2 < q ^ 2)%N.
Proof.
move=> s0 sS sn.
have tr i : mx3 (s i) 0 = om ^+ (2 ^ i) + ob ^+ (2 ^ i).
  elim: i => [|i IH].
    by rewrite !expr1 mx3D subrr -natrD s0.
  rewrite sS expnS mulnC !exprM.
  have -> : mx3 (s i ^+ 2 - 2%:R) 0 = mx3 (s i) 0 * mx3 (s i) 0 - (1 + 1).
    rewrite mx3_mul -mx3_one mx3D; apply/eqP; rewrite eq_sym subr_eq mx3D; apply/eqP; congr mx3.
      by rewrite !mul0r !mulr0 addr0 -expr2 -[1 + 1]/(2%:R) subrK.
    by rewrite mul0r mulr0 !addr0.
  rewrite IH mulrDl !mulrDr om_ob_pow ob_om_pow !expr2.
  by move: (om ^+ _ * _) (ob ^+ _ * _) => x y; rewrite (addrC 1 y) addrACA addrK.
have m1 : om ^+ (2 ^ n.+1) = - 1.
  have := tr n; rewrite sn.
  rewrite mx3_0.
  move=> E; have : om ^+ (2 ^ n) * (om ^+ (2 ^ n) + ob ^+ (2 ^ n)) = 0 by rewrite -E mulr0.
  rewrite mulrDr om_ob_pow -exprD addnn -mul2n -expnS => /eqP.
  by rewrite addr_eq0 => /eqP.
have n1 : (- 1 : 'M[F]_2) != 1.
  apply/eqP => /eqP; rewrite eq_sym -addr_eq0 => /eqP E.
  have := congr1 (fun m : 'M[F]_2 => m 0 0) E; rewrite !mxE /= -[1 + 1]/(2%:R) => /eqP.
  by rewrite (negPf two_neq0).
pose f (k : 'I_(2 ^ n.+2)) : F * F := ((om ^+ k) 0 0, (om ^+ k) 1 0).
have fE (k : 'I_(2 ^ n.+2)) a b : om ^+ k = mx3 a b -> f k = (a, b).
  by rewrite /f => ->; rewrite !mxE.
have finj : injective f.
  move=> i j; have [a [b Ei]] := om_pow i; have [c [d Ej]] := om_pow j.
  rewrite (fE _ _ _ Ei) (fE _ _ _ Ej) => -[? ?]; subst c d.
  have {}E : om ^+ i = om ^+ j by rewrite Ei Ej.
  apply/val_inj/eqP; move: E; wlog le : i j {Ei Ej} / (i <= j)%N.
    move=> W; case: (leqP i j) => [/W//|/ltnW /W V] E; by rewrite eq_sym V.
  move=> E; have {}E : om ^+ (j - i) = 1.
    have: ob ^+ i * om ^+ j = 1 by rewrite -E ob_om_pow.
    by rewrite -{1}(subnKC le) exprD mulrA ob_om_pow mul1r.
  rewrite eqn_leq le /= -subn_eq0; apply/negPn/negP => nz.
  set d := (j - i)%N in E nz.
  have d0 : (0 < d)%N by rewrite lt0n.
  have dl : (d < 2 ^ n.+2)%N by apply: leq_ltn_trans (ltn_ord j); exact: leq_subr.
  have e2 : om ^+ (2 ^ n.+2) = 1 by rewrite expnS mulnC exprM m1 sqrrN expr1n.
  (* the order divides gcd (d, 2^(n+2)), a proper divisor, hence divides 2^(n+1) *)
  have eg : om ^+ gcdn d (2 ^ n.+2) = 1.
    case: (egcdnP (2 ^ n.+2) d0) => u v Euv _.
    have : om ^+ (u * d) = 1 by rewrite mulnC exprM E expr1n.
    by rewrite Euv exprD mulnC exprM e2 expr1n mul1r.
  have /(dvdn_pfactor _ _ (isT : prime 2)) [k kn Ek] := dvdn_gcdr d (2 ^ n.+2).
  have kl : (k <= n.+1)%N.
    rewrite leqNgt; apply/negP => gt; have k2 : k = n.+2 by apply/eqP; rewrite eqn_leq kn.
    have := dvdn_gcdl d (2 ^ n.+2); rewrite Ek k2 => /(dvdn_leq d0); by rewrite leqNgt dl.
  case/negP: n1; rewrite -m1 -(subnKC kl) expnD exprM -Ek eg expr1n; exact/eqP.
have f0 k : f k != (0, 0).
  have [a [b E]] := om_pow k; rewrite (fE _ _ _ E); apply/eqP => -[? ?]; subst a b.
  have := om_ob_pow k; rewrite E.
  rewrite mx3_0.
  by rewrite mul0r => /eqP; rewrite eq_sym oner_eq0.
have : (#|codom f| < #|{: F * F}|)%N.
  apply: proper_card; apply/properP; split; first by apply/subsetP.
  exists (0, 0) => //; apply/negP => /codomP[k Ek]; by case/eqP: (f0 k); rewrite -Ek.
by rewrite card_codom // card_ord card_prod card_Fp // -mulnn.
Qed.
End Field.

(** Lucas-Lehmer: [s] need only satisfy the recursion modulo 2^p - 1. *)
Lemma lucas_lehmer p (s : nat -> nat) : (2 < p)%N ->
  let M := (2 ^ p - 1)%N in
  s 0%N = 4 %[mod M] -> (forall i, s i.+1 + 2 = s i ^ 2 %[mod M])%N -> (M %| s (p - 2))%N -> prime M.
Proof.
move=> p2 M s0 sS sp.
have M1 : (1 < M)%N.
  rewrite /M; have : (2 ^ 3 <= 2 ^ p)%N by rewrite leq_exp2l.
  by move: (2 ^ p)%N => x; lia.
apply/negPn/negP => nP.
have [q Pq [Dq qq]] : exists2 q, prime q & (q %| M)%N /\ (q ^ 2 <= M)%N.
  exists (pdiv M); first exact: pdiv_prime.
  split; first exact: pdiv_dvd.
  rewrite leqNgt; apply/negP => /(ltn_pdiv2_prime (ltnW M1)) P; by rewrite P in nP.
have q2 : (2 < q)%N.
  rewrite ltn_neqAle prime_gt1 // andbT; apply/eqP => e2; move: Dq; rewrite -e2 /M.
  have : ~~ odd (2 ^ p) by rewrite oddX; case: (p) p2.
  rewrite dvdn2 oddB ?expn_gt0 //; by case: (odd _).
have FD a b : a = b %[mod M] -> (a%:R : 'F_q) = b%:R.
  move=> E; apply: ord_inj; rewrite !val_Fp_nat //.
  by have := congr1 (fun x => x %% q)%N E; rewrite !modn_dvdm.
have := @order_bound q Pq q2 (fun i => (s i)%:R) (p - 2)%N.
have -> : ((p - 2).+2 = p)%N by lia.
move=> /(_ (FD _ _ s0)) H.
have /H{}H : forall i, (s i.+1)%:R = (s i)%:R ^+ 2 - 2%:R :> 'F_q.
  move=> i; apply/eqP; rewrite eq_sym subr_eq -natrX -natrD eq_sym; apply/eqP; exact: FD (sS i).
have : (2 ^ p < q ^ 2)%N.
  apply: H; apply: ord_inj; rewrite val_Fp_nat //; apply/eqP; exact: dvdn_trans Dq sp.
by move: qq; rewrite /M; move: (q ^ 2)%N (2 ^ p)%N => x y; lia.
Qed.

(** Fermat: a prime Mersenne number M divides a^(2^p) - a^2. *)
Lemma mersenne_fermat p a : prime (2 ^ p - 1) -> (a ^ (2 ^ p) = a ^ 2 %[mod 2 ^ p - 1])%N.
Proof.
move=> P; have M0 := prime_gt0 P; set M := (2 ^ p - 1)%N in P M0 *.
have -> : (2 ^ p = M.+1)%N by rewrite /M; move: M0; rewrite /M; move: (2 ^ p)%N => x; lia.
by rewrite expnS -modnMmr fermat_little // modnMmr mulnn.
Qed.

(** The exponent of a Mersenne prime is prime. *)
Lemma mersenne_exp_prime p : prime (2 ^ p - 1) -> prime p.
Proof.
move=> P; case: (leqP p 1) => [|p1].
  by case: p P => [|[|//]].
apply/primeP; split=> // d /dvdnP[k E]; apply/orP.
have D : (2 ^ d - 1 %| 2 ^ p - 1)%N.
  by rewrite E mulnC expnM !subn1 dvdn_pred_predX.
have [_ /(_ _ D)] := primeP P; case/orP=> /eqP H; [left|right].
  apply/eqP; move: H; case: d E D => [|[|d]] E D //.
  have : (2 ^ 2 <= 2 ^ d.+2)%N by rewrite leq_exp2l.
  by move: (2 ^ d.+2)%N => x; lia.
have : (2 ^ d == 2 ^ p)%N by apply/eqP; move: H (expn_gt0 2 d) (expn_gt0 2 p); move: (2 ^ d)%N (2 ^ p)%N => x y; lia.
by rewrite eqn_exp2l.
Qed.
