(** The action of GF(2)[X] on the states of a linear generator and on
    sequences; existence of the minimal polynomial of a sequence. *)
From Coq Require Import NArith ZArith.
From mathcomp Require Import all_ssreflect all_algebra.
From Verif Require Import Base GenModel PolyF2 LinSpec LinLemmas PeriodSpec.
Set Implicit Arguments.
Unset Strict Implicit.
Unset Printing Implicit Defensive.
Import GRing.Theory.
Local Open Scope ring_scope.

Section Act.
Variables (n : nat) (A : 'M['F_2]_n).
Notation st := (st A).
Implicit Types (p q h : f2x) (x y : 'rV['F_2]_n).

Definition pact p x : 'rV['F_2]_n := \sum_(i < size p) p`_i *: st i x.

Lemma pactE K p x : (size p <= K)%N -> pact p x = \sum_(i < K) p`_i *: st i x.
Proof.
move=> le; rewrite /pact (big_ord_widen K (fun i => p`_i *: st i x)) //.
rewrite [RHS](bigID (fun i : 'I_K => (i < size p)%N)) /= [X in _ + X]big1 ?addr0 //.
by move=> i; rewrite -leqNgt => H; rewrite nth_default // scale0r.
Qed.
Lemma pactD p q x : pact (p + q) x = pact p x + pact q x.
Proof.
set K := maxn (size p) (size q).
rewrite (@pactE K (p + q)) ?size_add // (@pactE K p) ?leq_maxl // (@pactE K q) ?leq_maxr //.
by rewrite -big_split; apply: eq_bigr => i _; rewrite coefD scalerDl.
Qed.
Lemma pact0 x : pact 0 x = 0.
Proof. by rewrite /pact size_poly0 big_ord0. Qed.
Lemma pactC (c : 'F_2) x : pact c%:P x = c *: x.
Proof. by rewrite (@pactE 1) ?size_polyC ?leq_b1 // big_ord1 coefC. Qed.
Lemma pact1 x : pact 1 x = x.
Proof. by rewrite -polyC1 pactC scale1r. Qed.
Lemma pactZ c p x : pact (c *: p) x = c *: pact p x.
Proof.
rewrite (@pactE (size p) (c *: p)) ?size_scale_leq // scaler_sumr.
by apply: eq_bigr => i _; rewrite coefZ scalerA.
Qed.
Lemma pactN p x : pact (- p) x = - pact p x.
Proof. by rewrite -scaleN1r pactZ scaleN1r. Qed.
Lemma pactB p q x : pact (p - q) x = pact p x - pact q x.
Proof. by rewrite pactD pactN. Qed.
Lemma pact_vD p x y : pact p (x + y) = pact p x + pact p y.
Proof. by rewrite /pact -big_split; apply: eq_bigr => i _; rewrite stD scalerDr. Qed.
Lemma pact_vZ c p x : pact p (c *: x) = c *: pact p x.
Proof. by rewrite /pact scaler_sumr; apply: eq_bigr => i _; rewrite stZ !scalerA mulrC. Qed.
Lemma pact_v0 p : pact p 0 = 0.
Proof. by rewrite /pact big1 // => i _; rewrite st0 scaler0. Qed.
Lemma pact_sum p (I : Type) (r : seq I) (P : pred I) (F : I -> 'rV_n) :
  \sum_(i <- r | P i) pact p (F i) = pact p (\sum_(i <- r | P i) F i).
Proof.
elim/big_rec2: _ => [|i y1 y2 _ ->]; first by rewrite pact_v0.
by rewrite pact_vD.
Qed.
Lemma pact_st p i x : pact p (st i x) = st i (pact p x).
Proof.
by rewrite /pact st_sum; apply: eq_bigr => j _; rewrite stZ -!st_add addnC.
Qed.
Lemma pactMX p x : pact (p * 'X) x = st 1 (pact p x).
Proof.
rewrite (@pactE (size p).+1); last first.
  by have [->|p0] := eqVneq p 0; rewrite ?mul0r ?size_poly0 // size_mulX.
rewrite big_ord_recl coefMX eqxx scale0r add0r /pact st_sum.
by apply: eq_bigr => i _; rewrite coefMX stZ -st_add.
Qed.
Lemma pactM p q x : pact (p * q) x = pact p (pact q x).
Proof.
elim/poly_ind: p => [|p c IH]; first by rewrite mul0r !pact0.
by rewrite mulrDl -mulrA [_ * q]mulrC mulrA pactD pactMX IH mul_polyC pactZ pactD pactMX pactC.
Qed.
Lemma pactX k x : pact 'X^k x = st k x.
Proof.
elim: k => [|k IH]; first by rewrite expr0 pact1.
by rewrite exprSr pactMX IH -st_add.
Qed.
Lemma pact_mx p x : pact p x = x *m poly_mx A p.
Proof.
rewrite /pact /poly_mx mulmx_sumr; apply: eq_bigr => i _; rewrite -scalemxAr; congr (_ *: _).
by elim: (nat_of_ord i) => [|k IH] /=; rewrite ?mulmx1 // mulmxA -IH.
Qed.
Lemma pact_dvd p q x : p %| q -> pact p x = 0 -> pact q x = 0.
Proof. by move=> /dvdpP[r ->] E; rewrite pactM E pact_v0. Qed.
Lemma pact_comm p q x : pact p (pact q x) = pact q (pact p x).
Proof. by rewrite -!pactM mulrC. Qed.
End Act.

Lemma cayley n (A : 'M['F_2]_n) x : pact A (char_poly A) x = 0.
Proof.
case: n A x => [|n] A x; first by rewrite [LHS]thinmx0.
have E (p : f2x) : pact A p x = x *m horner_mx A p.
  elim/poly_ind: p => [|p c IH]; first by rewrite pact0 rmorph0 mulmx0.
  rewrite pactD pactMX pactC IH rmorphD rmorphM /= horner_mx_X horner_mx_C mulmxDr mul_mx_scalar.
  by rewrite /st /= mulmxA.
by rewrite E Cayley_Hamilton mulmx0.
Qed.

Lemma pact_horner n (A : 'M['F_2]_n.+1) (p : f2x) x : pact A p x = x *m horner_mx A p.
Proof.
elim/poly_ind: p => [|p c IH]; first by rewrite pact0 rmorph0 mulmx0.
rewrite pactD pactMX pactC IH rmorphD rmorphM /= horner_mx_X horner_mx_C mulmxDr mul_mx_scalar.
by rewrite /st /= mulmxA.
Qed.

Lemma poly_mx_horner n (A : 'M['F_2]_n.+1) (p : f2x) : poly_mx A p = horner_mx A p.
Proof. by apply/row_matrixP=> i; rewrite !rowE -pact_mx pact_horner. Qed.

(** * Sequences *)
Section Seq.
Implicit Types (p q h : f2x) (u v : nat -> 'F_2).
Definition sact (p : f2x) (u : nat -> 'F_2) (i : nat) : 'F_2 := \sum_(j < size p) p`_j * u (i + j)%N.

Lemma sactE K p u i : (size p <= K)%N -> sact p u i = \sum_(j < K) p`_j * u (i + j)%N.
Proof.
move=> le; rewrite /sact (big_ord_widen K (fun j => p`_j * u (i + j)%N)) //.
rewrite [RHS](bigID (fun j : 'I_K => (j < size p)%N)) /= [X in _ + X]big1 ?addr0 //.
by move=> j; rewrite -leqNgt => H; rewrite nth_default // mul0r.
Qed.
Lemma sact_ext p u v i : (forall k, (i <= k < i + size p)%N -> u k = v k) -> sact p u i = sact p v i.
Proof. by move=> H; apply: eq_bigr => j _; rewrite H // leq_addr ltn_add2l ltn_ord. Qed.
Lemma sactD p q u i : sact (p + q) u i = sact p u i + sact q u i.
Proof.
set K := maxn (size p) (size q).
rewrite (@sactE K (p + q)) ?size_add // (@sactE K p) ?leq_maxl // (@sactE K q) ?leq_maxr //.
by rewrite -big_split; apply: eq_bigr => j _; rewrite coefD mulrDl.
Qed.
Lemma sactC (c : 'F_2) u i : sact c%:P u i = c * u i.
Proof. by rewrite (@sactE 1) ?size_polyC ?leq_b1 // big_ord1 coefC addn0. Qed.
Lemma sactZ c p u i : sact (c *: p) u i = c * sact p u i.
Proof.
rewrite (@sactE (size p) (c *: p)) ?size_scale_leq // mulr_sumr.
by apply: eq_bigr => j _; rewrite coefZ mulrA.
Qed.
Lemma sact0 u i : sact 0 u i = 0.
Proof. by rewrite /sact size_poly0 big_ord0. Qed.
Lemma sactMX p u i : sact (p * 'X) u i = sact p u i.+1.
Proof.
rewrite (@sactE (size p).+1); last first.
  by have [->|p0] := eqVneq p 0; rewrite ?mul0r ?size_poly0 // size_mulX.
rewrite big_ord_recl coefMX eqxx mul0r add0r.
by apply: eq_bigr => j _; rewrite coefMX /= /bump add1n addnS addSn.
Qed.
Lemma sactM p q u i : sact (p * q) u i = sact p (sact q u) i.
Proof.
elim/poly_ind: p i => [|p c IH] i; first by rewrite mul0r !sact0.
by rewrite mulrDl -mulrA [_ * q]mulrC mulrA sactD sactMX IH mul_polyC sactZ sactD sactMX sactC.
Qed.
Lemma sact_u0 p u i : (forall k, u k = 0) -> sact p u i = 0.
Proof. by move=> H; rewrite /sact big1 // => j _; rewrite H mulr0. Qed.
Lemma sactX k u i : sact 'X^k u i = u (i + k)%N.
Proof.
elim: k i => [|k IH] i; first by rewrite expr0 -polyC1 sactC mul1r addn0.
by rewrite exprSr sactMX IH addSnnS.
Qed.
Lemma sact1 u i : sact 1 u i = u i.
Proof. by rewrite -polyC1 sactC mul1r. Qed.
Lemma sactB p q u i : sact (p - q) u i = sact p u i - sact q u i.
Proof. by rewrite -[- q]scaleN1r sactD sactZ mulN1r. Qed.

Lemma gen_mull p q u : generates q u -> generates (p * q) u.
Proof. by move=> H i; rewrite -/(sact _ u i) sactM sact_u0. Qed.
Lemma gen_dvd p q u : q %| p -> generates q u -> generates p u.
Proof. by move=> /dvdpP[r ->]; apply: gen_mull. Qed.
Lemma gen_add p q u : generates p u -> generates q u -> generates (p + q) u.
Proof. by move=> H1 H2 i; rewrite -/(sact _ u i) sactD [sact p u i]H1 [sact q u i]H2 addr0. Qed.
Lemma gen_sub p q u : generates p u -> generates q u -> generates (p - q) u.
Proof. by move=> H1 H2 i; rewrite -/(sact _ u i) sactB [sact p u i]H1 [sact q u i]H2 subr0. Qed.
Lemma gen_mod p q u : generates p u -> generates q u -> generates (p %% q) u.
Proof.
move=> H1 H2; have -> : p %% q = p - p %/ q * q by rewrite {2}(divp_eq p q) addrC addKr.
by apply: gen_sub => //; apply: gen_mull.
Qed.

(** A sequence generated by a polynomial of degree at most m is zero when its
    first m terms are. *)
Lemma gen_zero h u m : h != 0 -> (size h <= m.+1)%N -> generates h u ->
  (forall i, (i < m)%N -> u i = 0) -> forall i, u i = 0.
Proof.
move=> h0 sh gh H i; have [k] := ubnP i; elim: k i => // k IH i ik.
set r := (size h).-1; have sr : size h = r.+1 by rewrite prednK // size_poly_gt0.
have rm : (r <= m)%N by rewrite -ltnS -sr.
case: (ltnP i m) => [|mi]; first exact: H.
have ri := leq_trans rm mi; have := gh (i - r)%N; rewrite sr big_ord_recr /= subnK //.
have -> : h`_r = 1.
  by have := f2x_monic h0; rewrite monicE /lead_coef -/r => /eqP.
rewrite mul1r big1 ?add0r // => j _.
have lt : (i - r + j < i)%N by rewrite -{2}(subnK ri) ltn_add2l.
by rewrite IH ?mulr0 //; apply: leq_trans lt _; rewrite -ltnS.
Qed.

Lemma minpoly_unique u (m m' : f2x) : is_minpoly u m -> is_minpoly u m' -> m = m'.
Proof. by move=> [_ g1 H1] [_ g2 H2]; apply: f2x_dvd_anti; [apply: H1|apply: H2]. Qed.

End Seq.

(** An instance of MinPolySeq: search. *)
Definition mps_ok (v : seq 'F_2) (m : nat) (h : f2x) : bool :=
  (h != 0) && [forall i : 'I_m, sact h (nth 0 v) i == 0].
Definition mps_cand (v : seq 'F_2) (m : nat) : seq f2x :=
  [seq h <- [seq rVpoly x | x <- enum {: 'rV['F_2]_m.+1}] | mps_ok v m h].
Definition mps (v : seq 'F_2) (m : nat) : f2x :=
  foldr (fun h best : f2x => if (best == 0) || (size h < size best)%N then h else best) 0 (mps_cand v m).

Lemma mps_fold (l : seq f2x) : all (fun h : f2x => h != 0) l -> l != [::] ->
  let b := foldr (fun h best : f2x => if (best == 0) || (size h < size best)%N then h else best) 0 l in
  (b \in l) && all (fun h : f2x => size b <= size h)%N l.
Proof.
elim: l => //= h l IH /andP[h0 al] _; case: l IH al => [|h' l] IH al.
  by rewrite /= eqxx /= inE eqxx leqnn.
have := IH al isT; set b := foldr _ _ _ => /andP[bl bm].
have b0 : b != 0 by move/allP: al => /(_ _ bl).
rewrite (negPf b0) /=; case: ltnP => [lt|le].
  have lb (g : f2x) : g \in h' :: l -> (size h <= size g)%N.
    by move=> gl; apply: leq_trans (ltnW lt) _; move/allP: bm => /(_ _ gl).
  rewrite inE eqxx leqnn /= lb ?mem_head //=; apply/allP=> g gl.
  by apply: lb; rewrite inE gl orbT.
by rewrite inE bl orbT le.
Qed.

Lemma mps_spec : minpolyseq_spec mps.
Proof.
move=> u m h0 h0n sh0 gh0; set v := mkseq u (2 * m).
have vE (h : f2x) i : (size h <= m.+1)%N -> (i < m)%N -> sact h (nth 0 v) i = sact h u i.
  move=> sh im; apply: sact_ext => k /andP[_ ki]; rewrite nth_mkseq //.
  apply: leq_trans ki _; apply: (@leq_trans (i + m.+1)); first by rewrite leq_add2l.
  by rewrite addnS -addSn mul2n -addnn leq_add2r.
have okP (h : f2x) : (size h <= m.+1)%N -> mps_ok v m h <-> h != 0 /\ generates h u.
  move=> sh; rewrite /mps_ok; split=> [/andP[hn /forallP H]|[hn H]].
    have gw : generates h0 (sact h u).
      move=> k; rewrite -/(sact h0 (sact h u) k) -sactM mulrC sactM.
      by apply: sact_u0 => j; apply: gh0.
    have wz j : (j < m)%N -> sact h u j = 0.
      by move=> jm; have /eqP := H (Ordinal jm); rewrite vE.
    by split=> // i; apply: (gen_zero h0n sh0 gw wz).
  by rewrite hn; apply/forallP=> i; rewrite vE //; apply/eqP/H.
have cand (h : f2x) : h \in mps_cand v m <-> [/\ (size h <= m.+1)%N, h != 0 & generates h u].
  rewrite /mps_cand mem_filter; split.
    case/andP=> ok /mapP[x _ hE].
    have sh : (size h <= m.+1)%N by rewrite hE size_poly.
    by case/(okP _ sh): ok.
  case=> sh hn hg; have /(okP _ sh) -> /= : h != 0 /\ generates h u by [].
  by apply/mapP; exists (poly_rV h); rewrite ?mem_enum // poly_rV_K.
have c0 : h0 \in mps_cand v m by apply/cand.
have al : all (fun h : f2x => h != 0) (mps_cand v m) by apply/allP=> h /cand[].
have ne : mps_cand v m != [::] by case: (mps_cand v m) c0.
have /andP[/cand[s1 n1 g1] /allP H] := mps_fold al ne; rewrite -/(mps v m) in s1 n1 g1 H *.
split=> // h gh; rewrite /dvdp; apply/negPn/negP => r0.
have sr : (size (h %% mps v m)%R < size (mps v m))%N by rewrite ltn_modp.
have : (h %% mps v m) \in mps_cand v m.
  by apply/cand; split=> //; [apply: leq_trans (ltnW sr) s1 | apply: gen_mod].
by move/H; rewrite leqNgt sr.
Qed.

Lemma minpoly_exists u m (h : f2x) : h != 0 -> (size h <= m.+1)%N -> generates h u -> exists mu, is_minpoly u mu.
Proof. by move=> h0 sh gh; exists (mps (mkseq u (2 * m)) m); apply: mps_spec gh. Qed.

(** * Output sequences of a linear generator *)
Section Out.
Variables (n : nat) (A : 'M['F_2]_n) (D : nat -> 'cV['F_2]_n).
Notation st := (st A).

Lemma out_sact (h : f2x) x p i : sact h (out_seq A D x p) i = (st i (pact A h x) *m D p) 0 0.
Proof.
rewrite /sact /out_seq /pact st_sum mulmx_suml summxE; apply: eq_bigr => j _.
by rewrite stZ -st_add -scalemxAl !mxE.
Qed.
Lemma out_generates (h : f2x) x p : generates h (out_seq A D x p) <-> forall i, (st i (pact A h x) *m D p) 0 0 = 0.
Proof. by split=> H i; have := H i; rewrite -/(sact h _ i) out_sact. Qed.
Lemma out_zero (h : f2x) x p : pact A h x = 0 -> generates h (out_seq A D x p).
Proof. by move=> E; apply/out_generates => i; rewrite E st0 mul0mx mxE. Qed.
Lemma out_char x p : generates (char_poly A) (out_seq A D x p).
Proof. by apply: out_zero; apply: cayley. Qed.
Lemma char_neq0 : char_poly A != 0.
Proof. by rewrite -size_poly_eq0 size_char_poly. Qed.
Lemma out_minpoly x p : exists mu, is_minpoly (out_seq A D x p) mu.
Proof. by apply: (@minpoly_exists _ n (char_poly A)); rewrite ?char_neq0 ?size_char_poly //; apply: out_char. Qed.
Lemma minpoly_char x p (mu : f2x) : is_minpoly (out_seq A D x p) mu -> mu %| char_poly A.
Proof. by case=> _ _; apply; apply: out_char. Qed.
End Out.
