(** getLCMPoly and anni on objects of the classes dSFMT and sfmt. *)
From Coq Require Import NArith ZArith List Bool Lia.
From mathcomp Require Import all_ssreflect all_algebra.
From mathcomp Require Import zify.
From Verif Require Import Base UtilModel GenModel PolyF2 LinSpec LinLemmas LinInst ArrayModel ArrayWin ArrayLin ArrayOut DelayLin ViewLin PeriodModel PeriodSpec
  PolyAct PeriodProofs PeriodProofs2 PeriodProofs4 PeriodProofs5 ParityModel ParitySpec W128Model W128Spec W128Proofs W128Cert WordLemmas SfmtModel SfmtLin SfmtProofs SfmtParity
  DsfmtModel DsfmtLin DsfmtProofs DsfmtPar DsfmtSeq SimdModel SimdPack SimdSpec SimdSeq SimdBits SimdProofs SimdThm DsfmtEquiSpec DsfmtEquiProofs DsfmtEquiThm AnniModel AnniProofs.
Set Implicit Arguments.
Unset Strict Implicit.
Unset Printing Implicit Defensive.
Import GRing.Theory.
Local Open Scope ring_scope.
Delimit Scope Z_scope with coqZ.

(** The sequence of bit p of the output, and of the parity word. *)
Definition out_bits {S : Type} (G : gen_ops S) (s : S) (p : nat) (i : nat) : 'F_2 :=
  (N.testbit (g_generate G (run G i s)).1 (N.of_nat p))%:R.
Definition par_bits {S : Type} (G : gen_ops S) (P : par_ops S) (s : S) (p : nat) (i : nat) : 'F_2 :=
  (N.testbit (p_getParityValue P (run G i s)) (N.of_nat p))%:R.

Lemma gen_ext h u v : (forall i : nat, u i = v i :> 'F_2) -> generates h u -> generates h v.
Proof. by move=> E g i; rewrite -[RHS](g i); apply: eq_bigr => j _; rewrite E. Qed.
Lemma min_ext m u v : (forall i : nat, u i = v i :> 'F_2) -> is_minpoly u m -> is_minpoly v m.
Proof.
move=> E [m0 g1 g2]; split=> //; first exact: gen_ext g1.
by move=> h gh; apply: g2; apply: gen_ext gh => i; rewrite E.
Qed.
(** A polynomial that annihilates a state is a recurrence of it. *)
Lemma pact_rec n (A : 'M['F_2]_n) (f : f2x) d x : size f = d.+1 -> pact A f x = 0 ->
  st A d x = \sum_(j < d) f2 (f`_j != 0) *: st A j x.
Proof.
move=> sf. rewrite (@pactE _ _ d.+1) ?sf // big_ord_recr /=.
have L1 : f`_d = 1.
  have := lead_coef_eq0 f. rewrite /lead_coef sf /= -size_poly_eq0 sf /=. by case: (f`_d) => -[|[|m]] Hm //= _; apply: val_inj.
rewrite L1 scale1r. set Y := \sum_(i < d) _ => E.
transitivity Y; first by rewrite -[LHS]add0r -(addF2_self Y) -addrA E addr0.
by apply: eq_bigr => i _; rewrite f2_nz.
Qed.

Section Generic.
Variables (S : Type) (G : gen_ops S) (P : par_ops S) (n : nat) (ok : S -> Prop) (abs : S -> 'rV['F_2]_n)
  (A : 'M['F_2]_n) (C D : nat -> 'cV['F_2]_n) (nb : nat) (e : nat -> 'rV['F_2]_n) (Q : nat -> 'cV['F_2]_n).
Hypothesis LG : linear_gen G ok abs A C.
Hypothesis LO : linear_out G ok abs D.
Hypothesis PG : parity_gen G P ok abs nb e Q.
Hypothesis Hw : g_width G = 128%num.
Lemma out_bitsE s p : ok s -> (p < 128)%N -> forall i, out_bits G s p i = out_seq A D (abs s) p i.
Proof.
move=> H Hp i. rewrite /out_bits LO ?Hw; [by rewrite (run_abs LG)|exact: (run_ok LG)|by clear -Hp; lia].
Qed.
Lemma par_bitsE s p : ok s -> (p < 128)%N -> forall i, par_bits G P s p i = out_seq A (par_col Q) (abs s) p i.
Proof.
move=> H Hp i. rewrite /par_bits (par_bit PG Hw) //; [by rewrite (run_abs LG)|exact: (run_ok LG)].
Qed.
Lemma out_gen h s p : ok s -> (p < 128)%N -> generates h (out_bits G s p) <-> generates h (out_seq A D (abs s) p).
Proof. by move=> H Hp; split; apply: gen_ext => i; rewrite out_bitsE. Qed.
Lemma par_gen h s p : ok s -> (p < 128)%N -> generates h (par_bits G P s p) <-> generates h (out_seq A (par_col Q) (abs s) p).
Proof. by move=> H Hp; split; apply: gen_ext => i; rewrite par_bitsE. Qed.
Lemma out_minE m s p : ok s -> (p < 128)%N -> is_minpoly (out_bits G s p) m <-> is_minpoly (out_seq A D (abs s) p) m.
Proof. by move=> H Hp; split; apply: min_ext => i; rewrite out_bitsE. Qed.
End Generic.

(** * dSFMT *)
Section Dsfmt.
Variable c : dsc.
Hypothesis Hc : dsc_ok c.
Hypothesis w2 : e_weight c = 2%coqZ.
Hypothesis sl0 : (0 < d_sl1 (e_par c))%coqZ.
Variable M : seq 'F_2 -> nat -> f2x.
Hypothesis HM : minpolyseq_spec M.
Let nb := (e_size c * 104 + 128)%N.
Notation D := (vl_col (dn c) (ds_view c) (ds_mk c) (vO c)).
Let LG := dsfmt_lin Hc.
Let LO : linear_out ds_ops (dsfmt_ok c) (dsfmt_vec c) D := vl_linout (ds_vg Hc).
Let PG := ds_parity_gen Hc w2.
Let UA := dsfmt_unit Hc w2.
Let OB := ds_observable Hc w2 sl0.

Lemma ds_H1B s i : dsfmt_ok c s -> (i < nb)%N -> exists s', p_setOneBit ds_par_ops i s = Ret s' /\ dsfmt_ok c s' /\ dsfmt_vec c s' = ds_e c i.
Proof. by move=> Hs Hi; have [g' [E1 E2 E3]] := ds_setOneBit_vec Hc Hs Hi; exists g'. Qed.

Lemma ds_lcm l s : dsfmt_ok c s -> l != 0 -> exists L,
  [/\ getLCMPoly_d ds_ops ds_par_ops M l s = Ret L, L != 0, l %| L,
    l %| char_poly (dsfmt_A c) -> [/\ L %| char_poly (dsfmt_A c), dsfmt_vec c s *m poly_mx (dsfmt_A c) L = 0 &
      forall t, dsfmt_ok c t -> generates L (par_bits ds_ops ds_par_ops t 0)] &
    forall h, l %| h -> (forall p, (p < 128)%N -> generates h (par_bits ds_ops ds_par_ops s p)) ->
      (forall t, dsfmt_ok c t -> generates h (par_bits ds_ops ds_par_ops t 0)) -> L %| h].
Proof.
move=> Hs l0. have [L [E L0 D1 D2 D3]] := lcm_d_spec LG PG HM UA ds_H1B erefl Hs l0.
exists L; split=> // [lc|h lh g1 g2].
- have [E1 E2 E3] := D2 lc. split=> //.
  + rewrite -pact_mx. exact: (gen_par OB E2).
  + by move=> t Ht; apply/(par_gen LG PG erefl).
- apply: D3 => // [p Hp|x]; first by apply/(par_gen LG PG erefl) => //; exact: g1.
  have [t Ht <-] := vl_sur (ds_vg Hc) x. apply/(par_gen LG PG erefl) => //. exact: g2.
Qed.
(** Where bit 0 of the lung alone determines the state, the result annihilates
    every state. *)
Lemma ds_lcm_all l s L : dsfmt_ok c s -> l != 0 -> l %| char_poly (dsfmt_A c) -> getLCMPoly_d ds_ops ds_par_ops M l s = Ret L ->
  (forall t, dsfmt_ok c t -> (forall i, par_bits ds_ops ds_par_ops t 0 i = 0) -> dsfmt_vec c t = 0) ->
  forall t, dsfmt_ok c t -> dsfmt_vec c t *m poly_mx (dsfmt_A c) L = 0.
Proof.
move=> Hs l0 lc E O0 t Ht. have [L' [E' _ _ D2 _]] := ds_lcm Hs l0. move: E'; rewrite E => -[EL]. rewrite -{L'}EL in D2.
have [_ _ G2] := D2 lc. have := G2 t Ht. move/(par_gen LG PG erefl) => /(_ Ht isT) /out_generates g.
rewrite -pact_mx. have [t' Ht' Et] := vl_sur (ds_vg Hc) (pact (dsfmt_A c) L (dsfmt_vec c t)).
rewrite -[LHS]Et. apply: O0 => // i. rewrite (par_bitsE LG PG erefl) // /out_seq.
have -> : dsfmt_vec c t' = pact (dsfmt_A c) L (dsfmt_vec c t) by []. exact: g.
Qed.

(** ** anni *)
Variables (d fuel : nat).
Hypothesis Hd : (nb < 2 * d)%N.
Hypothesis Hmexp : d_mexp (e_par c) = Z.of_nat d.
Hypothesis Hfu : (nb < fuel)%N.
Lemma ds_dn : dn c = nb.
Proof. by rewrite /dn /dm w2 addn0. Qed.
Lemma ds_words_poly s W (f : f2x) : dsfmt_ok c s -> dsfmt_words s W -> dsfmt_vec c s *m poly_mx (dsfmt_A c) f = 0 ->
  (forall i, generates f (fun k => (N.testbit (W k) i)%:R)) /\ (size f = d.+1 -> recurrent W d).
Proof.
move=> Hs HW. rewrite -pact_mx => Kf. have UW := ds_words_unique Hc Hs HW.
pose A := dsfmt_A c. pose x k : 'rV['F_2]_(dn c) := dsfmt_vec c (ds_it c s k).
have XA k j : x (k + j)%N = st A j (x k) by rewrite /x !ds_it_vec // /st addnC iterD.
have XK k : pact A f (x k) = 0.
  by rewrite -[k]add0n XA pact_st [x 0%N]/(dsfmt_vec c s) Kf st0.
have XB i : exists y : 'cV['F_2]_(dn c), forall k, f2 (N.testbit (W k) i) = (x k *m y) 0 0.
  pose g (a : nat -> N) := a 0%N.
  have Vf : vfun (e_size c).+2 ds_small g by split=> [a b _ _|a b E] //; rewrite /g; apply: E; lia.
  exists (vl_col (dn c) (ds_view c) (ds_mk c) g (N.to_nat i)) => k'.
  have := vl_colE (ds_vg Hc) (N.to_nat i) Vf (ds_it_ok Hc k' Hs). rewrite /obit => ->.
  rewrite UW /g view_arr; last by have := dc_size Hc; clear; lia. by rewrite N2Nat.id.
split=> [i k|sf].
- have [y Y] := XB i. have E0 : (pact A f (x k) *m y) 0 0 = 0 by rewrite XK mul0mx mxE.
  rewrite -[RHS]E0 /pact mulmx_suml summxE. apply: eq_bigr => j _. by rewrite -scalemxAl mxE -XA -Y.
- exists (fun j => f`_j != 0) => k i. have [y Y] := XB i.
  apply: f2_inj. rewrite Y f2_xsum XA (pact_rec sf (XK k)) mulmx_suml summxE. apply: eq_bigr => j _. rewrite -scalemxAl mxE -XA -Y.
  by rewrite /f2; case: (f`_j != 0); case: N.testbit; rewrite ?mulr1 ?mulr0 ?mul0r.
Qed.
Lemma ds_anni s : dsfmt_ok c s -> exists b s',
  [/\ anni_d ds_ops ds_par_ops M fuel s = Ret (b, s'), dsfmt_ok c s',
    b = true <-> (exists mu f, is_minpoly (out_bits ds_ops s 0) mu /\ large_factor mu f d) &
    b = true -> ds_isZero s' = false /\
      (exists f, [/\ irreducible_poly f, size f = d.+1, dsfmt_vec c s' *m poly_mx (dsfmt_A c) f = 0 &
         forall W, dsfmt_words s' W -> recurrent W d /\ forall i, generates f (fun k => (N.testbit (W k) i)%:R)]) /\
      (prime (2 ^ d - 1) -> forall k, dsfmt_vec c (run ds_ops k s') = dsfmt_vec c s' <-> (2 ^ d - 1 %| k)%N)].
Proof.
move=> Hs. have Hn : (dn c < 2 * d)%N by rewrite ds_dn. have Hf : (dn c < fuel)%N by rewrite ds_dn.
have HX t : dsfmt_ok c t -> p_getMexp ds_par_ops t = Z.of_nat d by move=> [E _ _ _ _]; rewrite -Hmexp -E.
have [b [s' [E1 E2 E3 E4]]] := anni_d_spec LG LO PG HM UA ds_H1B erefl Hn HX OB Hs Hf.
exists b, s'; split=> //.
- case: b E3 E4 {E1} => E3 E4; split=> //.
  + have [mu [f [Hm Hl _ _]]] := E3 isT. by move=> _; exists mu, f; split=> //; apply/(out_minE LG LO erefl).
  + move=> [mu [f [Hm Hl]]]. exfalso. apply: (E4 isT mu f) => //. exact/(out_minE LG LO erefl).
- move=> b1. have AN := E3 b1. have [mu [f [Hm [If sf _] x0 Kf]]] := AN. split; [|split].
  + by rewrite [LHS](pg_isZero PG) // (negPf x0).
  + exists f; split=> // W HW. have [G1 G2] := ds_words_poly E2 HW Kf. split=> //. exact: G2.
  + move=> Hp k. exact: (anni_period LG AN Hp E2).
Qed.
(** The measurement after anni. *)
Lemma ds_anni_call s s' W pos fuel' bit_len : dsfmt_ok c s -> anni_d ds_ops ds_par_ops M fuel s = Ret (true, s') -> dsfmt_words s' W ->
  (Z.of_nat d < 2 ^ 31)%coqZ -> pos_spec 128 pos -> ((e_size c * 416 + 618) * 129 <= fuel')%N -> (bit_len <= 52)%N ->
  dsfmt_call c s' W pos fuel' d bit_len.
Proof.
move=> Hs E HW Hm Hp Hf Hl. have [b [s1 [E1 E2 _ E4]]] := ds_anni Hs. move: E1; rewrite E => -[Eb Es]. rewrite -Eb -Es in E2 E4.
have [_ [[f [_ _ _ K]] _]] := E4 erefl. have [R _] := K W HW. by split; split.
Qed.
End Dsfmt.

(** * sfmt *)
Section Sfmt.
Variable c : sfc.
Hypothesis Hc : sfc_ok c.
Hypothesis s3 : (3 <= c_size c)%N.
Hypothesis p0 : (0 < sf_pos c)%N.
Hypothesis w4 : c_weight c = 4%coqZ.
Hypothesis sm0 : c_start c = 0%coqZ.
Variable M : seq 'F_2 -> nat -> f2x.
Hypothesis HM : minpolyseq_spec M.
Let nb := (c_size c * 128)%N.
Notation D := (@dl_D sfc c 128 (c_size c) (wm_bits (c_weight c)) (c_size c * 128) (sR c)).
Let LG := sfmt_lin Hc.
Let LO := sfmt_linout Hc.
Let PG := sf_parity_gen Hc s3 p0 w4.
Let UA := sfmt_unit Hc s3 p0 w4.
Let OB := sf_observable Hc s3 p0 w4.

Lemma sf_H1B s i : sfmt_ok c s -> (i < nb)%N -> exists s', p_setOneBit sf_par_ops i s = Ret s' /\ sfmt_ok c s' /\ sfmt_vec c s' = sf_e c i.
Proof. by move=> Hs Hi; have [g' [E1 E2 E3]] := sf_setOneBit_vec Hc Hs Hi; exists g'. Qed.

(** The output is the newest word. *)
Lemma sf_out_par s : sfmt_ok c s -> (g_generate sf_ops s).1 = sf_getParity (g_generate sf_ops s).2.
Proof.
move=> Hs. have Es : s.1.1 = c by have [[]] := Hs. have G := sf_generateE Hc Hs. have K := dl_next_ok (sfmt_dg Hc) Hs.
cbn [g_generate sf_ops]. rewrite G. cbn [sf_run ds_run fst snd]. move: G K. move: (dl_out _ _ _ _ _) (dl_next _ _ _ _) => x s'.
case: s Hs Es => [[c' r] q] Hs Ec. cbn [fst] in Ec. rewrite Ec /sf_generate {Ec Hs}. case: (sf_next_state c r) => [r'| | | |]; cbn [bind]; try by [].
case: (sf_at _ _ _) => [p| | | |]; cbn [bind]; try by []. case E: (sf_at _ _ _) => [i| | | |]; cbn [bind]; try by [].
rewrite w4 sm0 /sf_weight /sf_start. move=> G.
have Ex := f_equal (fun z : res (N * sfmt) => match z with Ret y => y.1 | _ => 0%num end) G.
have Es := f_equal (fun z : res (N * sfmt) => match z with Ret y => y.2 | _ => s' end) G.
cbn [fst snd] in Ex, Es. rewrite -Es {G Es} => K.
have [[_ [Hi [Hl Hb]]] _] := K. cbn [fst snd] in Hi, Hl, Hb.
have Ei : i = List.nth (rr_idx r') (rr_arr r') 0%num.
  have s0 : (0 < c_size c)%N by clear -s3; lia.
  move: E. rewrite (sf_atE _ s0 Hl) => -[<-]. by rewrite /rr_at Nat.mod_small //; apply/ltP.
have iw : (i < 2 ^ 128)%num by rewrite Ei; exact: Hb.
rewrite -Ex -[RHS]Ei. have [W1 W2] := w_of_ok iw. rewrite -[RHS]W2. congr wval. have [H0 H1] := W1.
have T y : (y < 2 ^ 64)%num -> trunc 32 (wshr y 32) = wshr y 32.
  move=> Hy. apply: trunc_small. rewrite /wshr N.shiftr_div_pow2. apply: N.div_lt_upper_bound => //.
have := of32_halves _ _ H0 H1. rewrite (T _ H0) (T _ H1). by case: (w_of i).
Qed.
Lemma sf_out_obs : out_observable (sfmt_A c) D.
Proof.
move=> x H. have [s Hs Es] := dl_sur (sfmt_dg Hc) x. have {}Es : sfmt_vec c s = x by [].
have Z : st (sfmt_A c) 1 x = 0.
  apply: OB => i j Hj. have Hi : sfmt_ok c (run sf_ops i s) := run_ok LG i Hs.
  have Hi1 := lin_generate_ok LG Hi. rewrite -st_add addn1 stS -Es -(run_abs LG) // -(lin_generate_abs LG) //.
  rewrite -(@pg_parity _ _ _ _ _ _ _ _ _ PG _ j Hi1 Hj).
  have -> : p_getParityValue sf_par_ops (g_generate sf_ops (run sf_ops i s)).2 = (g_generate sf_ops (run sf_ops i s)).1 by rewrite sf_out_par.
  have := LO (p := (127 - j)%N) Hi. rewrite (run_abs LG) // Es H; last by clear; lia.
  rewrite /msb. have -> : (g_width sf_ops - 1 - N.of_nat j)%num = N.of_nat (127 - j) by cbn [g_width sf_ops]; move: Hj; clear; cbn [g_width sf_ops]; lia.
  by apply; clear; cbn [g_width sf_ops]; lia.
by rewrite -[x](mulmxK UA) -[x *m _]/(st (sfmt_A c) 1 x) Z mul0mx.
Qed.
Lemma sf_lcm l s : sfmt_ok c s -> l != 0 -> exists L,
  [/\ getLCMPoly_s sf_ops sf_par_ops M l s = Ret L, L != 0, l %| L,
    l %| char_poly (sfmt_A c) -> L %| char_poly (sfmt_A c) /\ forall t, sfmt_ok c t -> generates L (out_bits sf_ops t 0) &
    forall h, l %| h -> (forall t, sfmt_ok c t -> generates h (out_bits sf_ops t 0)) -> L %| h].
Proof.
move=> Hs l0. have [L [E L0 D1 D2 D3]] := lcm_s_spec LG LO PG HM sf_H1B erefl Hs l0.
exists L; split=> // [lc|h lh g2].
- have [E1 E2] := D2 lc. split=> //. by move=> t Ht; apply/(out_gen LG LO erefl).
- apply: D3 => // x. have [t Ht <-] := dl_sur (sfmt_dg Hc) x. apply/(out_gen LG LO erefl) => //. exact: g2.
Qed.

(** ** anni *)
Variables (d fuel : nat).
Hypothesis Hd : (nb < 2 * d)%N.
Hypothesis Hmexp : f_mexp (c_par c) = Z.of_nat d.
Hypothesis Hfu : (nb < fuel)%N.
Notation nn := (c_size c * 128 + wm_bits (c_weight c))%N.
Lemma sf_nn : nn = nb.
Proof. by rewrite w4 addn0. Qed.
Lemma sf_words_poly s W (f : f2x) : sfmt_ok c s -> sfmt_words s W -> sfmt_vec c s *m poly_mx (sfmt_A c) f = 0 ->
  (forall i, generates f (fun k => (N.testbit (W k) i)%:R)) /\ (size f = d.+1 -> recurrent W d).
Proof.
move=> Hs HW. rewrite -pact_mx => Kf. have UW := words_unique Hc Hs HW.
pose A := sfmt_A c. pose x k : 'rV['F_2]_nn := sfmt_vec c (iter k (dl_next (c_size c) (sF c) (sR c)) s).
have X k : x k.+1 = x k *m A.
  rewrite /x iterS. have [Hk _] := iter_next Hc k Hs. exact: (dl_gen_vec (sfmt_dg Hc) Hk).
have XA k j : x (k + j)%N = st A j (x k).
  elim: j => [|j IH]; first by rewrite addn0. by rewrite addnS X IH.
have XK k : pact A f (x k) = 0.
  by rewrite -[k]add0n XA pact_st [x 0%N]/(sfmt_vec c s) Kf st0.
have XB i : exists y : 'cV['F_2]_nn, forall k, f2 (N.testbit (W k) i) = (x k *m y) 0 0.
  case: (N.ltb_spec i 128) => Hi; last first.
    exists 0 => k. rewrite mulmx0 mxE UW (bits_above 128) //. exact: (sf_W_lt Hc).
  have Hi2 : (N.to_nat i < nn)%N by clear -Hi s3; lia.
  exists (delta_mx (Ordinal Hi2) 0) => k. rewrite -colE mxE UW /x mxE /= /dl_bits.
  have -> : (N.to_nat i < c_size c * 128)%N by clear -Hi s3; lia.
  have [_ E] := iter_next Hc k Hs. rewrite E /ar_bits addn0 /sf_W.
  have -> : Nat.div (N.to_nat i) 128 = 0%N by rewrite Nat.div_small //; clear -Hi; lia.
  have -> : Nat.modulo (N.to_nat i) 128 = N.to_nat i by rewrite Nat.mod_small //; clear -Hi; lia. by rewrite N2Nat.id.
split=> [i k|sf].
- have [y Y] := XB i. have E0 : (pact A f (x k) *m y) 0 0 = 0 by rewrite XK mul0mx mxE.
  rewrite -[RHS]E0 /pact mulmx_suml summxE. apply: eq_bigr => j _. by rewrite -scalemxAl mxE -XA -Y.
- exists (fun j => f`_j != 0) => k i. have [y Y] := XB i.
  apply: f2_inj. rewrite Y f2_xsum XA (pact_rec sf (XK k)) mulmx_suml summxE. apply: eq_bigr => j _. rewrite -scalemxAl mxE -XA -Y.
  by rewrite /f2; case: (f`_j != 0); case: N.testbit; rewrite ?mulr1 ?mulr0 ?mul0r.
Qed.
Lemma sf_anni s : sfmt_ok c s -> exists b s',
  [/\ anni_s sf_ops sf_par_ops M fuel s = Ret (b, s'), sfmt_ok c s',
    b = true <-> (exists mu f, is_minpoly (out_bits sf_ops s 0) mu /\ large_factor mu f d) &
    b = true -> sf_isZero s' = false /\
      (exists f, [/\ irreducible_poly f, size f = d.+1, sfmt_vec c s' *m poly_mx (sfmt_A c) f = 0 &
         forall W, sfmt_words s' W -> recurrent W d /\ forall i, generates f (fun k => (N.testbit (W k) i)%:R)]) /\
      (prime (2 ^ d - 1) -> forall k, sfmt_vec c (run sf_ops k s') = sfmt_vec c s' <-> (2 ^ d - 1 %| k)%N)].
Proof.
move=> Hs. have Hn : (nn < 2 * d)%N by rewrite sf_nn. have Hf : (nn < fuel)%N by rewrite sf_nn.
have HX t : sfmt_ok c t -> p_getMexp sf_par_ops t = Z.of_nat d.
  by move=> [[E _] _]; rewrite -Hmexp -E.
have [b [s' [E1 E2 E3 E4]]] := anni_s_spec LG LO PG HM UA sf_H1B erefl Hn HX sf_out_obs Hs Hf.
exists b, s'; split=> //.
- case: b E3 E4 {E1} => E3 E4; split=> //.
  + have [mu [f [Hm Hl _ _]]] := E3 isT. by move=> _; exists mu, f; split=> //; apply/(out_minE LG LO erefl).
  + move=> [mu [f [Hm Hl]]]. exfalso. apply: (E4 isT mu f) => //. exact/(out_minE LG LO erefl).
- move=> b1. have AN := E3 b1. have [mu [f [Hm [If sf _] x0 Kf]]] := AN. split; [|split].
  + by rewrite [LHS](pg_isZero PG) // (negPf x0).
  + exists f; split=> // W HW. have [G1 G2] := sf_words_poly E2 HW Kf. split=> //. exact: G2.
  + move=> Hp k. exact: (anni_period LG AN Hp E2).
Qed.
Lemma sf_anni_call info ew L s s' W pos fuel' bit_len : sfmt_ok c s -> anni_s sf_ops sf_par_ops M fuel s = Ret (true, s') -> sfmt_words s' W ->
  good_info info ew L -> (Z.of_nat d < 2 ^ 31)%coqZ -> pos_spec 128 pos -> ((c_size c * 512 + 194) * 129 <= fuel')%N -> (bit_len <= ew)%N ->
  simd_call info ew L c s' W pos fuel' d bit_len.
Proof.
move=> Hs E HW Hg Hm Hp Hf Hl. have [b [s1 [E1 E2 _ E4]]] := sf_anni Hs. move: E1; rewrite E => -[Eb Es]. rewrite -Eb -Es in E2 E4.
have [_ [[f [_ _ _ K]] _]] := E4 erefl. have [R _] := K W HW. split; [by split|split; [split=> //|by split]].
by move: p0; rewrite /sf_pos; case: (Nat.modulo _ _).
Qed.
End Sfmt.
