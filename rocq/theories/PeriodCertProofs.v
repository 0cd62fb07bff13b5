(** The period certificate is sound. *)
From Coq Require Import NArith ZArith List Bool.
From mathcomp Require Import all_ssreflect all_algebra.
From mathcomp Require Import zify.
From Verif Require Import Base GenModel PolyF2 LinSpec LinLemmas PeriodSpec PolyAct PeriodProofs3 PeriodCert.
Set Implicit Arguments.
Unset Strict Implicit.
Unset Printing Implicit Defensive.
Import GRing.Theory.
Local Open Scope ring_scope.

Fixpoint P2p (p : positive) : f2x :=
  match p with
  | xH => 1
  | xO q => P2p q * 'X
  | xI q => 1 + P2p q * 'X
  end.
Definition P2 (x : N) : f2x := match x with N0 => 0 | Npos p => P2p p end.

Lemma f2x_addxx (p : f2x) : p + p = 0.
Proof. by apply/polyP => i; rewrite coefD coef0 F2_addxx. Qed.
Lemma P2_double x : P2 (N.double x) = P2 x * 'X.
Proof. by case: x => [|p] //=; rewrite mul0r. Qed.
Lemma P2_sdouble x : P2 (N.succ_double x) = 1 + P2 x * 'X.
Proof. by case: x => [|p] //=; rewrite mul0r addr0. Qed.
Lemma P2_xorp p q : P2 (Pos.lxor p q) = P2p p + P2p q.
Proof.
elim: p q => [p IH|p IH|] [q|q|] /=.
- by rewrite -/(Pos.Ndouble _) P2_double IH addrACA f2x_addxx add0r mulrDl.
- by rewrite P2_sdouble IH mulrDl addrA.
- by rewrite [1 + _]addrC -addrA f2x_addxx addr0.
- by rewrite P2_sdouble IH mulrDl addrCA.
- by rewrite P2_double IH mulrDl.
- by rewrite addrC.
- by rewrite addrA f2x_addxx add0r.
- by [].
- by rewrite f2x_addxx.
Qed.
Lemma P2_xor x y : P2 (N.lxor x y) = P2 x + P2 y.
Proof. by case: x y => [|p] [|q] /=; rewrite ?add0r ?addr0 ?P2_xorp. Qed.

Section Mod.
Variables (n f : N).
Notation F := (P2 f).
(** Congruence modulo F. *)
Definition cong (p q : f2x) : Prop := F %| p - q.
Lemma cong_refl p : cong p p. Proof. by rewrite /cong subrr dvdp0. Qed.
Lemma cong_trans q p r : cong p q -> cong q r -> cong p r.
Proof. by move=> H1 H2; rewrite /cong -[p](subrK q) -addrA dvdp_add. Qed.
Lemma cong_add p q p' q' : cong p p' -> cong q q' -> cong (p + q) (p' + q').
Proof. by move=> H1 H2; rewrite /cong opprD addrACA dvdp_add. Qed.
Lemma cong_mul p q p' q' : cong p p' -> cong q q' -> cong (p * q) (p' * q').
Proof.
move=> H1 H2; apply: (@cong_trans (p' * q)).
- by rewrite /cong -mulrBl dvdp_mulr.
- by rewrite /cong -mulrBr dvdp_mull.
Qed.
Lemma red_cong x : cong (P2 (pc_red n f x)) (P2 x).
Proof.
rewrite /pc_red; case: N.testbit; last exact: cong_refl.
by rewrite /cong P2_xor addrC addKr.
Qed.
Lemma mul_cong a b : cong (P2 (pc_mul n f a b)) (P2 a * P2p b).
Proof.
elim: b => [b IH|b IH|] /=; last by rewrite mulr1; exact: cong_refl.
- rewrite P2_xor mulrDr mulr1; apply: cong_add; first exact: cong_refl.
  apply: cong_trans (red_cong _) _; rewrite P2_double mulrA.
  by apply: cong_mul => //; exact: cong_refl.
- apply: cong_trans (red_cong _) _; rewrite P2_double mulrA.
  by apply: cong_mul => //; exact: cong_refl.
Qed.
Lemma sqr_cong a : cong (P2 (pc_sqr n f a)) (P2 a * P2 a).
Proof. by case: a => [|p]; [rewrite mul0r; exact: cong_refl|exact: mul_cong]. Qed.
Lemma pow_cong k : cong (P2 (pc_pow n f k)) 'X^(Pos.to_nat k).
Proof.
elim: k => [k IH|k IH|] /=; last by rewrite mul1r; exact: cong_refl.
- have -> : Pos.to_nat k~1 = (Pos.to_nat k + Pos.to_nat k + 1)%N by lia.
  rewrite !exprD expr1; apply: cong_trans (red_cong _) _; rewrite P2_double.
  apply: cong_mul; last exact: cong_refl.
  by apply: cong_trans (sqr_cong _) _; apply: cong_mul.
- have -> : Pos.to_nat k~0 = (Pos.to_nat k + Pos.to_nat k)%N by lia.
  by rewrite exprD; apply: cong_trans (sqr_cong _) _; apply: cong_mul.
Qed.
End Mod.

Section Gen.
Variables (S : Type) (G : gen_ops S) (n : nat) (ok : S -> Prop) (abs : S -> 'rV['F_2]_n).
Variables (A : 'M['F_2]_n) (C : nat -> 'cV['F_2]_n).
Hypothesis HG : linear_gen G ok abs A C.

Lemma act_ok a s : ok s -> ok (pc_act G a s) /\ abs (pc_act G a s) = pact A (P2p a) (abs s).
Proof.
move=> Hs; elim: a => [a [IH1 IH2]|a [IH1 IH2]|] /=; last by rewrite pact1.
- have H1 := lin_generate_ok HG IH1; have H2 := lin_generate_abs HG IH1.
  split; first exact: (lin_add_ok HG).
  by rewrite (lin_add_abs HG) // H2 IH2 pactD pact1 pactMX.
- by split; [exact: (lin_generate_ok HG)|rewrite (lin_generate_abs HG) // IH2 pactMX].
Qed.
Lemma actN_ok a s : ok s -> ok (pc_actN G a s) /\ abs (pc_actN G a s) = pact A (P2 a) (abs s).
Proof.
case: a => [|a] Hs; last exact: act_ok.
by split; [exact: (lin_zero_ok HG)|rewrite (lin_zero_abs HG) // pact0].
Qed.

Variables (w f : N) (s0 : S).
Hypothesis Hs0 : ok s0.
Hypothesis Hf : abs (pc_actN G f s0) = 0.
Lemma jump_ok k : abs (pc_jump G w f k s0) = st A (Pos.to_nat k) (abs s0).
Proof.
rewrite /pc_jump (actN_ok _ Hs0).2 -pactX.
apply/eqP; rewrite -subr_eq0 -pactB; apply/eqP.
apply: (@pact_dvd _ A (P2 f)); first exact: pow_cong.
by rewrite -(actN_ok _ Hs0).2.
Qed.

(** The set of the return times. *)
Section Return.
Variable x : 'rV['F_2]_n.
Variable m : nat.
Hypothesis m0 : (0 < m)%N.
Hypothesis Hm : st A m x = x.
Lemma ret_mul k j : st A k x = x -> st A (j * k) x = x.
Proof. by move=> H; elim: j => [|j IH]; rewrite ?mul0n // mulSn st_add IH. Qed.
Lemma ret_gcd k : (0 < k)%N -> st A k x = x -> st A (gcdn k m) x = x.
Proof.
move=> k0 Hk; case: (egcdnP m k0) => u v E _.
have : st A (u * k) x = x by exact: ret_mul.
by rewrite E addnC st_add (ret_mul _ Hm).
Qed.
Lemma ret_min : (forall q, prime q -> (q %| m)%N -> st A (m %/ q) x != x) ->
  forall k, (0 < k < m)%N -> st A k x != x.
Proof.
move=> Hq k /andP[k0 km]; apply/eqP => Hk.
have Hg := ret_gcd k0 Hk; set g := gcdn k m in Hg.
have gm : (g %| m)%N by exact: dvdn_gcdr.
have gk : (g <= k)%N by apply: dvdn_leq => //; exact: dvdn_gcdl.
have g0 : (0 < g)%N by rewrite gcdn_gt0 k0.
have [d Ed] := dvdnP gm.
have d1 : (1 < d)%N.
  case: d Ed => [|[|d]] // Ed; first by move: m0; rewrite Ed.
  by move: km; rewrite Ed mul1n ltnNge gk.
have Pq := pdiv_prime d1; have [e Ee] := dvdnP (pdiv_dvd d).
have Em : m = (e * g * pdiv d)%N by rewrite Ed {1}Ee mulnAC.
have := Hq _ Pq; rewrite Em dvdn_mull // mulnK ?prime_gt0 // ret_mul // => /(_ isT).
by rewrite eqxx.
Qed.
End Return.

(** The certificate. *)
Lemma period_cert l (m : positive) : (0 < n)%N -> abs s0 != 0 -> all_primes_of (2 ^ n - 1) l ->
  N.pos m = (2 ^ N.of_nat n - 1)%num ->
  abs (pc_jump G w f m s0) = abs s0 ->
  (forall q, List.In q l -> exists k, (Npos m / q)%num = Npos k /\ abs (pc_jump G w f k s0) <> abs s0) ->
  full_period A (abs s0).
Proof.
move=> n0 x0 Hl Em' H1 H2.
have m0 : (0 < 2 ^ n - 1)%N by rewrite subn_gt0 -{1}(expn0 2) ltn_exp2l.
have Em : Pos.to_nat m = (2 ^ n - 1)%N.
  by rewrite -N_pow2 -Em'.
have Hm : st A (2 ^ n - 1) (abs s0) = abs s0 by rewrite -Em -jump_ok.
split=> //; apply: ret_min => // q Pq Dq.
have [k [Ek Hk]] := H2 _ (Hl _ Pq Dq).
apply/eqP => E; apply: Hk; rewrite jump_ok -[RHS]E; congr (st A _ _).
have : N.to_nat (N.pos m / N.of_nat q) = Pos.to_nat k by rewrite Ek.
move=> <-; rewrite -Em.
have q0 : (0 < q)%N by exact: prime_gt0.
have := N.div_mod (N.pos m) (N.of_nat q); have := N.mod_lt (N.pos m) (N.of_nat q).
move: (N.pos m / _)%num (N.pos m mod _)%num => a b B1 B2.
have -> : Pos.to_nat m = (q * N.to_nat a + N.to_nat b)%N by lia.
by rewrite mulnC divnMDl // divn_small ?addn0 //; lia.
Qed.
End Gen.
