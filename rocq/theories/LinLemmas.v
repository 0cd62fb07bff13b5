(** Linear algebra over GF(2) used by the generator proofs. *)
From Coq Require Import NArith ZArith Lia.
From mathcomp Require Import all_ssreflect all_algebra.
From mathcomp Require Import zify.
From Verif Require Import Base GenModel LinSpec.
Set Implicit Arguments.
Unset Strict Implicit.
Unset Printing Implicit Defensive.
Import GRing.Theory.
Local Open Scope ring_scope.

Lemma F2_cases (a : 'F_2) : a = 0 \/ a = 1.
Proof. case: a => [[|[|//]] p]; [left|right]; exact/val_inj. Qed.
Lemma F2_neq0 (a : 'F_2) : a != 0 -> a = 1.
Proof. by case: (F2_cases a) => ->; rewrite ?eqxx. Qed.
Lemma F2_addxx (a : 'F_2) : a + a = 0.
Proof. by case: (F2_cases a) => ->; apply/val_inj. Qed.
Lemma F2_opp (a : 'F_2) : - a = a.
Proof. by case: (F2_cases a) => ->; apply/val_inj. Qed.
Lemma F2_addK (a b : 'F_2) : a + b + b = a.
Proof. by rewrite -addrA F2_addxx addr0. Qed.
Lemma F2_1neq0 : (1 : 'F_2) <> 0.
Proof. by []. Qed.
Lemma F2_b2f (b : bool) : ((b%:R : 'F_2) == 0) = ~~ b.
Proof. by case: b. Qed.
Lemma F2_xorb (a b : bool) : (xorb a b)%:R = a%:R + b%:R :> 'F_2.
Proof. by case: a; case: b; apply/val_inj. Qed.
Lemma mx2_addxx (m n : nat) (M : 'M['F_2]_(m, n)) : M + M = 0.
Proof. by apply/matrixP => i j; rewrite !mxE F2_addxx. Qed.

Lemma msb_xor w a b j : msb w (N.lxor a b) j = msb w a j + msb w b j.
Proof. by rewrite /msb N.lxor_spec F2_xorb. Qed.
Lemma msb0 w j : msb w 0 j = 0.
Proof. by rewrite /msb N.bits_0. Qed.
Lemma msb_testbit w x j : (msb w x j == 0) = ~~ N.testbit x (w - 1 - N.of_nat j).
Proof. exact: F2_b2f. Qed.
Lemma msb_inj0 w x : (x < 2 ^ w)%num -> (forall j, (N.of_nat j < w)%num -> msb w x j = 0) -> x = 0%num.
Proof.
move=> Hx H. apply: N.bits_inj => i. rewrite N.bits_0.
case: (N.lt_ge_cases i w) => Hi; last first.
  case: (N.eq_dec x 0) => [->|Hx0]; first exact: N.bits_0.
  rewrite N.bits_above_log2 //. have := proj1 (N.log2_lt_pow2 x w ltac:(lia)) Hx. lia.
have := H (N.to_nat (w - 1 - i)) ltac:(lia). rewrite /msb => /eqP. rewrite F2_b2f => /negbTE.
by replace (w - 1 - N.of_nat (N.to_nat (w - 1 - i)))%num with i by lia.
Qed.

Section Lin.
Variable n : nat.
Variable A : 'M['F_2]_n.
Variable C : nat -> 'cV['F_2]_n.
Notation st := (st A).
Notation obit := (obit C).

Lemma st_add i j x : st (i + j) x = st i (st j x).
Proof. exact: iterD. Qed.
Lemma stS i x : st i.+1 x = st i x *m A.
Proof. by []. Qed.
Lemma stSr i x : st i.+1 x = st i (x *m A).
Proof. exact: iterSr. Qed.
Lemma stD i x y : st i (x + y) = st i x + st i y.
Proof. by elim: i => //= i IH; rewrite IH mulmxDl. Qed.
Lemma st0 i : st i 0 = 0.
Proof. by elim: i => //= i ->; rewrite mul0mx. Qed.
Lemma stZ i a x : st i (a *: x) = a *: st i x.
Proof. by elim: i => //= i ->; rewrite scalemxAl. Qed.
Lemma st_sum i (I : Type) (r : seq I) (P : pred I) (F : I -> 'rV_n) :
  st i (\sum_(k <- r | P k) F k) = \sum_(k <- r | P k) st i (F k).
Proof. by apply: big_morph; [exact: stD | exact: st0]. Qed.
Lemma obitD x y j : obit (x + y) j = obit x j + obit y j.
Proof. by rewrite /obit mulmxDl mxE. Qed.
Lemma obit0 j : obit 0 j = 0.
Proof. by rewrite /obit mul0mx mxE. Qed.
Lemma obitZ a x j : obit (a *: x) j = a * obit x j.
Proof. by rewrite /obit -scalemxAl mxE. Qed.
Lemma obit_sum (I : Type) (r : seq I) (P : pred I) (F : I -> 'rV_n) j :
  obit (\sum_(k <- r | P k) F k) j = \sum_(k <- r | P k) obit (F k) j.
Proof. by apply: (big_morph (fun x => obit x j)) => [x y|]; [exact: obitD | exact: obit0]. Qed.

(** Orbit span is a subspace closed under the transition. *)
Lemma orb_widen x0 x : in_orbit_span A x0 x ->
  exists K, forall K', (K <= K')%N -> exists a : nat -> 'F_2, x = \sum_(i < K') a i *: st i x0.
Proof.
move=> [K [a ->]]. exists K => K' HK. exists (fun i => if (i < K)%N then a i else 0).
rewrite (big_ord_widen K' (fun i => a i *: st i x0) HK) big_mkcond /=.
by apply: eq_bigr => i _; case: ifP => // _; rewrite scale0r.
Qed.
Lemma orb0 x0 : in_orbit_span A x0 0.
Proof. by exists 0%N, (fun _ => 0); rewrite big_ord0. Qed.
Lemma orbD x0 x y : in_orbit_span A x0 x -> in_orbit_span A x0 y -> in_orbit_span A x0 (x + y).
Proof.
move=> /orb_widen [K HK] /orb_widen [L HL].
have [a ->] := HK (maxn K L) (leq_maxl _ _). have [b ->] := HL (maxn K L) (leq_maxr _ _).
exists (maxn K L), (fun i => a i + b i). rewrite -big_split /=.
by apply: eq_bigr => i _; rewrite scalerDl.
Qed.
Lemma orbZ x0 c x : in_orbit_span A x0 x -> in_orbit_span A x0 (c *: x).
Proof.
move=> [K [a ->]]. exists K, (fun i => c * a i). rewrite scaler_sumr.
by apply: eq_bigr => i _; rewrite scalerA.
Qed.
Lemma orb_sum x0 (I : Type) (r : seq I) (P : pred I) (F : I -> 'rV_n) :
  (forall i, P i -> in_orbit_span A x0 (F i)) -> in_orbit_span A x0 (\sum_(i <- r | P i) F i).
Proof. by move=> H; elim/big_rec: _ => [|i x Hi Hx]; [exact: orb0 | apply: orbD => //; exact: H]. Qed.
Lemma orbA x0 x : in_orbit_span A x0 x -> in_orbit_span A x0 (x *m A).
Proof.
move=> [K [a ->]]. exists K.+1, (fun i => if i is i'.+1 then a i' else 0).
rewrite big_ord_recl scale0r add0r mulmx_suml. by apply: eq_bigr => i _; rewrite -scalemxAl.
Qed.
Lemma orb_st x0 i x : in_orbit_span A x0 x -> in_orbit_span A x0 (st i x).
Proof. by elim: i => //= i IH H; apply/orbA/IH. Qed.
Lemma orb_self x0 : in_orbit_span A x0 x0.
Proof. by exists 1%N, (fun _ => 1); rewrite big_ord_recl big_ord0 scale1r addr0. Qed.
Lemma orb_trans x0 x1 x : in_orbit_span A x0 x1 -> in_orbit_span A x1 x -> in_orbit_span A x0 x.
Proof. by move=> H [K [a ->]]; apply: orb_sum => i _; apply/orbZ/orb_st. Qed.

End Lin.

(** Cayley-Hamilton: the first n states span the orbit. *)
Lemma krylov_n (n : nat) (A : 'M['F_2]_n) (x : 'rV_n) : (st A n x <= krylov A x)%MS.
Proof.
case: n A x => [|n] A x; first by rewrite [st _ _ _]thinmx0 sub0mx.
have CH := Cayley_Hamilton A.
have stE i : st A i x = x *m (A ^+ i).
  elim: i => [|i IH]; first by rewrite expr0 mulmx1.
  by rewrite stS IH exprSr mulmxA.
have sz : size (char_poly A) = n.+2 := size_char_poly A.
have mon : char_poly A \is monic := char_poly_monic A.
have E : x *m horner_mx A (char_poly A) = 0 by rewrite CH mulmx0.
have EH : horner_mx A (char_poly A) = \sum_(i < n.+2) (char_poly A)`_i *: A ^+ i.
  rewrite /horner_mx /= /horner_morph.
  have sz' : (size (map_poly (@scalar_mx _ n.+1) (char_poly A)) <= n.+2)%N by rewrite -sz size_poly.
  rewrite (horner_coef_wide _ sz').
  by apply: eq_bigr => i _; rewrite coef_map /= -mul_scalar_mx.
have E2 : \sum_(i < n.+2) (char_poly A)`_i *: st A i x = 0.
  apply: etrans E; rewrite EH mulmx_sumr. by apply: eq_bigr => i _; rewrite -scalemxAr stE.
have E3 : \sum_(i < n.+1) (char_poly A)`_i *: st A i x = - st A n.+1 x.
  move: E2; rewrite big_ord_recr /=.
  have -> : (char_poly A)`_(n.+1) = 1 by move/monicP: mon; rewrite /lead_coef sz.
  by rewrite scale1r => /eqP; rewrite addr_eq0 => /eqP.
have -> : st A n.+1 x = - \sum_(i < n.+1) (char_poly A)`_i *: st A i x.
  by rewrite E3 opprK.
rewrite eqmx_opp. apply: summx_sub => i _. apply: scalemx_sub.
by rewrite -(rowK (fun i : 'I_n.+1 => st A i x) i) row_sub.
Qed.

Section Kry.
Variable n : nat.
Variable A : 'M['F_2]_n.
Variable C : nat -> 'cV['F_2]_n.

Lemma krylov_row (x : 'rV_n) i : (i < n)%N -> (st A i x <= krylov A x)%MS.
Proof.
by move=> Hi; rewrite -(rowK (fun i : 'I_n => st A i x) (Ordinal Hi)) row_sub.
Qed.
Lemma krylov_stable (x : 'rV_n) : (krylov A x *m A <= krylov A x)%MS.
Proof.
apply/row_subP => i. rewrite row_mul rowK. rewrite -stS.
case: (ltnP i.+1 n) => Hi; first exact: krylov_row.
have -> : i.+1 = n by apply/eqP; rewrite eqn_leq Hi ltn_ord.
exact: krylov_n.
Qed.
Lemma krylov_st (x : 'rV_n) m : (st A m x <= krylov A x)%MS.
Proof.
elim: m => [|m IH].
  case: (posnP n) => Hn; last exact: krylov_row.
  by move: (st A 0 x) (krylov A x); rewrite Hn => y M; rewrite [y]thinmx0 sub0mx.
rewrite stS. apply: submx_trans (krylov_stable x). exact: submxMr.
Qed.
Lemma orb_krylov (x0 x : 'rV_n) : in_orbit_span A x0 x <-> (x <= krylov A x0)%MS.
Proof.
split=> [[K [a ->]]|/submxP [D ->]].
  by apply: summx_sub => i _; apply: scalemx_sub; exact: krylov_st.
exists n, (fun i => if insub i is Some o then D 0 o else 0).
rewrite mulmx_sum_row. by apply: eq_bigr => i _; rewrite rowK valK.
Qed.
(** n zero outputs mean zero outputs for ever. *)
Lemma zero_outputs (x : 'rV_n) j : (forall i, (i < n)%N -> obit C (st A i x) j = 0) ->
  forall i, obit C (st A i x) j = 0.
Proof.
move=> H i. have /orb_krylov [K [a E]] := krylov_st x i.
have : (krylov A x *m C j = 0).
  apply/row_matrixP => k. rewrite row_mul rowK row0. apply/matrixP => p q; rewrite !ord1 [in RHS]mxE.
  exact: H.
move=> E0. rewrite /obit. have /submxP [D ->] := krylov_st x i.
by rewrite -mulmxA E0 mulmx0 mxE.
Qed.
End Kry.
