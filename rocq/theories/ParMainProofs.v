(** The program calc_parity of sfmtdc. *)
From Coq Require Import NArith ZArith List Bool Lia.
From mathcomp Require Import all_ssreflect all_algebra.
From mathcomp Require Import zify.
From Verif Require Import Base WordLemmas UtilModel GenModel PolyF2 LinSpec LinLemmas LinInst ArrayModel ArrayWin ArrayLin DelayLin PeriodModel PeriodSpec
  PolyAct PeriodProofs2 PeriodProofs3 PeriodProofs4 ParityModel ParitySpec W128Model W128Spec W128Proofs W128Cert SfmtModel SfmtLin SfmtProofs SfmtParity
  DsfmtFix AnniModel AnniProofs AnniThm SearchLin SearchSfmt PerTestModel PerTestRead EqMainModel EqMainSpec EqMainProofs EqMainProg ParMainModel ParMainSpec.
Import ListNotations.
Set Implicit Arguments.
Unset Strict Implicit.
Unset Printing Implicit Defensive.
Import GRing.Theory.
Local Open Scope ring_scope.
Delimit Scope Z_scope with coqZ.

(** * One component *)
Section Comp.
Variables (n : nat) (A : 'M['F_2]_n) (D : nat -> 'cV['F_2]_n) (f : f2x) (d : nat).
Hypothesis If : irreducible_poly f.
Hypothesis sf : size f = d.+1.
Hypothesis Hn : (n < 2 * d)%N.
Hypothesis Df : f %| char_poly A.
Notation g0 := (char_poly A %/ f).
Lemma g0E : f * g0 = char_poly A.
Proof. by rewrite mulrC divpK. Qed.
Lemma g0_0 : g0 != 0.
Proof. by apply: contraTneq (char_neq0 A) => E; rewrite -g0E E mulr0 eqxx. Qed.
Lemma g0_cop : ~~ (f %| g0).
Proof. apply: contra (large_simple A If sf Hn) => K. by rewrite -g0E expr2 dvdp_mul. Qed.
(** After annihilating by f the degree is small. *)
Lemma killed_deg x mu p : is_minpoly (out_seq A D x p) mu -> pact A g0 x = 0 -> (deg mu < Z.of_nat d)%coqZ.
Proof.
move=> [_ _ H] E. have := dvdp_leq g0_0 (H _ (out_zero D p E)). rewrite size_divp -?size_poly_gt0 ?sf // size_char_poly /deg /=.
move: Hn (size mu) => + k. clear. lia.
Qed.
Lemma bits_pact h z p : (forall i, (st A i z *m D p) 0 0 = 0) -> forall i, (st A i (pact A h z) *m D p) 0 0 = 0.
Proof. by move=> H; apply/out_generates => i; rewrite big1 // => j _; rewrite /out_seq H mulr0. Qed.
(** If f divides the polynomial of one sequence, it divides that of every sequence whose
    component of f is not zero. *)
Lemma comp_poly x y mu nu p : is_minpoly (out_seq A D x p) mu -> f %| mu -> is_minpoly (out_seq A D y p) nu -> pact A g0 y != 0 -> f %| nu.
Proof.
move=> Hx fm Hy y0. apply: contraT => fn.
have y0k : pact A f (pact A g0 y) = 0 by rewrite -pactM g0E cayley.
have Z i : (st A i (pact A g0 y) *m D p) 0 0 = 0.
  have /Bezout_eq1_coprimepP [[u v] /= E] := irred_coprime If fn.
  rewrite -[pact A g0 y](pact1 A) -E pactD !pactM y0k pact_v0 add0r (pact_comm A nu). apply: bits_pact i => i. apply: bits_pact i.
  have [_ N _] := Hy. exact/out_generates.
have Zx i : (st A i (pact A g0 x) *m D p) 0 0 = 0.
  have /(comp_all If sf Hn y0 y0k) [K [a E]] : pact A g0 x *m poly_mx A f = 0 by rewrite -pact_mx -pactM g0E cayley.
  rewrite E LinLemmas.st_sum mulmx_suml summxE big1 // => j _. by rewrite stZ -scalemxAl mxE -st_add Z mulr0.
have [_ _ H] := Hx. have /out_generates/H D1 := Zx. case/negP: g0_cop. exact: dvdp_trans fm D1.
Qed.
End Comp.

(** * The index, the certification and the loop *)
Section Loop.
Variables (c : sfc) (f : f2x) (d : nat) (M : seq 'F_2 -> nat -> f2x).
Hypothesis Hc : sfc_ok c.
Hypothesis s3 : (3 <= c_size c)%N.
Hypothesis p0 : (0 < sf_pos c)%N.
Hypothesis w4 : c_weight c = 4%coqZ.
Hypothesis HM : minpolyseq_spec M.
Hypothesis If : irreducible_poly f.
Hypothesis sf : size f = d.+1.
Hypothesis Hn : (c_size c * 128 + wm_bits (c_weight c) < 2 * d)%N.
Hypothesis Df : f %| char_poly (sfmt_A c).
Hypothesis Ed : f_mexp (c_par c) = Z.of_nat d.
Notation v := (f_parity (c_par c)).
Hypothesis v0 : (0 < v < 2 ^ 128)%num.
Hypothesis Cv : certifies_word c f v.
Notation sz := (c_size c).
Notation A := (sfmt_A c).
Notation g0 := (char_poly A %/ f).
Notation D := (@dl_D sfc c 128 sz (wm_bits (c_weight c)) (sz * 128) (sR c)).

(** The state with index 0. *)
Definition at0 (s : sfmt) : Prop := sfmt_ok c s /\ rr_idx s.1.2 = 0%N.

Lemma idx_gen s : sfmt_ok c s -> rr_idx (g_generate sf_ops s).2.1.2 = Nat.modulo (Nat.add (rr_idx s.1.2) 1) sz.
Proof. by move=> Hs; rewrite (dg_step (sfmt_dg Hc) Hs). Qed.
Lemma idx_run k s : sfmt_ok c s -> rr_idx (run sf_ops k s).1.2 = Nat.modulo (Nat.add (rr_idx s.1.2) k) sz.
Proof.
move=> Hs. have z0 : sz <> 0%N by move: s3; clear; lia. elim: k => [|k IH].
  rewrite Nat.add_0_r. have [[_ [L _]] _] := Hs. by rewrite Nat.mod_small.
rewrite /run iterS -/(run sf_ops k s) idx_gen; last exact: (run_ok (sfmt_lin Hc)).
rewrite IH Nat.add_mod_idemp_l //. congr Nat.modulo. move: (rr_idx _); clear => a; lia.
Qed.
Lemma at0_run s : at0 s -> at0 (run sf_ops (2 * (sz * 128)) s).
Proof.
move=> [Hs E]; split; first exact: (run_ok (sfmt_lin Hc)). rewrite idx_run // E Nat.add_0_l.
have -> : (2 * (sz * 128))%N = Nat.mul 256 sz by move: sz; clear => a; lia.
by apply: Nat.mod_mul; move: s3; clear; lia.
Qed.
Lemma at0_seed i g : (N.of_nat i < 2 ^ 128)%num -> g.1.1 = c -> at0 (sf_seed (N.of_nat i) g).
Proof.
case: g => [[c0 s] q]; cbn [fst snd] => Hi ->. split; first exact: (@sf_seed_ok c _ (s, q) Hc Hi). by [].
Qed.
Lemma idx_anni cnt i p r o : r.1.1 = c -> rr_idx (annihilate_loop sf_ops cnt i p r o).1.2 = rr_idx r.1.2.
Proof.
elim: cnt i r o => [//|cnt IH] i r o E. cbn [annihilate_loop].
have K : (g_add sf_ops r o).1.1 = c /\ rr_idx (g_add sf_ops r o).1.2 = rr_idx r.1.2.
  by case: (r) E => [[c0 s] q]; case: (o) => [[c1 t] q1].
rewrite IH; case: (_ == _) => //; by case: K.
Qed.
Lemma at0_anni s p : sfmt_ok c s -> at0 (annihilate sf_ops s p).
Proof.
move=> Hs; split; first by have [] := annihilate_spec (sfmt_lin Hc) p Hs.
have E : s.1.1 = c by have [[]] := Hs. rewrite /annihilate idx_anni; by case: (s) E => [[c0 t] q].
Qed.

(** state[0] *)
Definition word0 (s : sfmt) : N := List.nth 0 (rr_arr s.1.2) 0%num.
Lemma cert1 s : at0 s -> (if W128Spec.inner (word0 s) v then sf_cert s = (1%coqZ, s)
  else exists2 s', sf_cert s = (0%coqZ, s') & at0 s' /\ W128Spec.inner (word0 s') v = true).
Proof.
case: s => [[c0 s] q] [[[E [Hi [Hl Hw]]] Hq] I0]. have E' : c0 = c := E. subst c0. rewrite /word0 /sf_cert.
cbn [fst snd] in Hi, Hl, Hw, I0 |- *.
have [Wv Vv] := w_of_ok (proj2 v0). have [Wx Vx] := w_of_ok (Hw 0%N).
have NZ : wval (w_of v) <> 0%num by rewrite Vv; case: v0 => + _; clear; lia.
have [T F] := cert_cases _ _ Wx Wv NZ. rewrite Vx Vv in T F.
have [W' I'] := cert_ok _ _ Wx Wv NZ. rewrite Vv in I'.
case I1 : (W128Spec.inner _ _).
  rewrite (T I1) Vx. congr (_, (_, _, _)). by case: (s) Hl => ix [|a l].
have [w' [E1 _]] := F I1. rewrite E1 in I' W'. cbn [snd] in I', W'. rewrite E1.
have L0 : (0 < length (rr_arr s))%coq_nat by rewrite Hl; move: s3; clear; lia.
eexists; first exact: erefl. split; last by cbn [fst snd rr_arr]; rewrite nth_put.
split; last exact: I0. split; last exact: Hq. split; first exact: erefl. split; first exact: Hi. split; first by cbn [fst snd rr_arr]; rewrite put_len.
move=> i; cbn [fst snd rr_arr]; rewrite nth_put //; case: (i =? 0)%nat; [exact: wval_lt|exact: Hw].
Qed.
Lemma twice1 s : at0 s -> exists2 s', tp_twice s = (true, s') & at0 s'.
Proof.
move=> Hs. rewrite /tp_twice. have := cert1 Hs. case: (W128Spec.inner _ _) => [->|[s' -> [Hs' I]]]; first by exists s.
have := cert1 Hs'. rewrite I => ->. by exists s'.
Qed.
Lemma odd_alive s : at0 s -> W128Spec.inner (word0 s) v = true -> pact A g0 (sfmt_vec c s) != 0.
Proof.
move=> [Hs I0] H. rewrite pact_mx. apply: Cv => //. rewrite I0 inner_link -/(word0 s) H //.
Qed.
Lemma mp_at0 s : at0 s -> exists mu, minpoly sf_ops M s 0 0 = Ret (mu, run sf_ops (2 * (sz * 128)) s) /\ is_minpoly (out_seq A D (sfmt_vec c s) 0) mu.
Proof. move=> [Hs _]. exact: (out_min (sfmt_lin Hc) (sfmt_linout Hc) (sf_parity_gen Hc s3 p0 w4) HM (erefl _) Hs). Qed.
Lemma deg_large mu s : is_minpoly (out_seq A D (sfmt_vec c s) 0) mu -> f %| mu -> (deg mu <? Z.of_nat d)%coqZ = false.
Proof.
move=> [m0 _ _] /(dvdp_leq m0). rewrite sf /deg. move: (size mu); clear => k; lia.
Qed.
Lemma seed_same i s t : s.1.1 = t.1.1 -> sf_seed i s = sf_seed i t.
Proof. by case: s => [[c0 a] q]; case: t => [[c1 b] q']; cbn [fst snd] => ->. Qed.
Variable q : sfp.
Hypothesis Hq : (sf_new q).1.1 = c.
Lemma seed_hasE i mu : (N.of_nat i < 2 ^ 128)%num -> is_minpoly (out_seq A D (sfmt_vec c (sf_seed (N.of_nat i) (sf_new q))) 0) mu ->
  seed_has q f i <-> f %| mu.
Proof.
move=> Hi Hmu. have [Hs _] := at0_seed Hi Hq.
have E m := out_minE (sfmt_lin Hc) (sfmt_linout Hc) (erefl _) m Hs (p := 0) isT.
split=> [[m /E Hm Dm]|Dm]; last by exists mu => //; apply/E.
by rewrite (minpoly_unique Hmu Hm).
Qed.
Lemma tp_loop_ok cnt i s : (0 < i + cnt)%N -> (N.of_nat (i + cnt + 3) < 2 ^ 128)%num -> s.1.1 = c -> (forall j, (j < i)%N -> seed_has q f j.+1) ->
  exists2 r, tp_loop M cnt i i f s = Ret r & check_right q f (i + cnt) r.
Proof.
elim: cnt i s => [|cnt IH] i s i0 Hi Es Hj; cbn [tp_loop].
  rewrite addn0 in i0 *. exists (TpOk i); last by []. by case: (i) i0.
have L1 : (N.of_nat (i + 1) < 2 ^ 128)%num by apply: N.le_lt_trans Hi; clear; lia.
have L3 : (N.of_nat (i + 3) < 2 ^ 128)%num by apply: N.le_lt_trans Hi; clear; lia.
have L1' : (N.of_nat i.+1 < 2 ^ 128)%num by rewrite -addn1.
have -> : p_getMexp sf_par_ops s = Z.of_nat d by rewrite -Ed -Es.
set s1 := g_seed sf_ops _ s. have E1 : s1 = sf_seed (N.of_nat i.+1) (sf_new q) by rewrite /s1 addn1; apply: seed_same; rewrite Es Hq.
have H1 : at0 s1 by apply: at0_seed.
have [mu [-> Hmu]] := mp_at0 H1; cbn [bind].
have f0 : f != 0 := irredp_neq0 If.
rewrite /gf2x_div (negbTE f0); cbn [bind].
have -> : (deg (mu %% f) =? -1)%coqZ = (f %| mu).
  by rewrite /dvdp -size_poly_eq0 /deg; move: (size _); clear => k; lia.
have R : ~ seed_has q f i.+1 -> check_right q f (i + cnt.+1) (TpFailed i) by move=> K; split=> //; rewrite -addSnnS leq_addr.
rewrite E1 in Hmu. have HE := seed_hasE L1' Hmu.
case Dm : (f %| mu); cbn [negb]; last by exists (TpFailed i) => //; apply: R => /HE; rewrite Dm.
rewrite (deg_large Hmu Dm).
have [s2 -> H2] := twice1 (at0_run H1). cbn [negb].
have E2 : s2.1.1 = c by have [[[]]] := H2.
set s4 := g_seed sf_ops _ s2. have [H4 _] : at0 s4 by apply: at0_seed.
have H5 := at0_anni f H4. have [_ V5] := annihilate_spec (sfmt_lin Hc) f H4. set s5 := annihilate _ _ _ in H5 V5 *.
have [nu [-> Hnu]] := mp_at0 H5; cbn [bind].
have K5 : pact A g0 (sfmt_vec c s5) = 0 by rewrite V5 -pactM mulrC g0E // cayley.
have -> : (Z.of_nat d <=? deg nu)%coqZ = false by have := killed_deg sf Hn Df Hnu K5; move: (deg nu); clear => k; lia.
have H6 := at0_run H5. set s6 := run _ _ s5 in H6 *.
have K6 : pact A g0 (sfmt_vec c s6) = 0.
  have [H5' _] := H5. by rewrite /s6 (run_abs (sfmt_lin Hc)) // pact_st K5 LinLemmas.st0.
have := cert1 H6. case I6 : (W128Spec.inner _ _); first by have := odd_alive H6 I6; rewrite K6 eqxx.
move=> [s7 -> [H7 I7]]. cbn [Z.eqb].
have := cert1 H7. rewrite I7 => ->. cbn [Z.eqb].
have [xi [-> Hxi]] := mp_at0 H7; cbn [bind].
have Dx : f %| xi by apply: (comp_poly If sf Hn Df Hmu Dm Hxi); apply: odd_alive.
rewrite (deg_large Hxi Dx).
have [s8 -> H8] := twice1 (at0_run H7). cbn [negb].
have E8 : s8.1.1 = c by have [[[]]] := H8.
rewrite -addSnnS. apply: IH => //; first by rewrite addSnnS.
move=> j; rewrite ltnS leq_eqVlt => /orP [/eqP->|]; [exact/HE|exact: Hj].
Qed.
End Loop.

(** * The program *)
Section Program.
Variable q : sfp.
Hypothesis Hq : sfp_ok q.
Hypothesis Hm : (256 <= f_mexp q < 2 ^ 31 - 128)%coqZ.
Hypothesis Hm128 : (f_mexp q mod 128 <> 0)%coqZ.
Hypothesis Hp : (0 <= f_pos1 q < 2 ^ 31)%coqZ.
Hypothesis Hp0 : (0 < f_pos1 q mod (f_mexp q / 128 + 1))%coqZ.
Hypothesis Hpar : (f_parity q < 2 ^ 128)%num.
Variables (M : seq 'F_2 -> nat -> f2x) (pos : N -> res Z) (kernel : nat -> nat -> (nat -> nat -> bool) -> list (list bool)) (fuel : nat) (junk junk2 : N).
Hypothesis HM : minpolyseq_spec M.
Hypothesis HK : kernel_spec kernel.
Hypothesis Hpos : pos_spec 128 pos.
Notation d := (Z.to_nat (f_mexp q)).
Let sz := Z.to_nat (f_mexp q / 128 + 1).
Hypothesis Hfuel : ((sz * 512 + 194) * 129 <= fuel)%N.
Notation c := (SFC q sz 0 4 false).
Notation s0 := (sf_seed (eq_seed 1 junk) (sf_new q)).

Theorem par_thm check tail :
  (exists f v r, [/\ sf_par_main M pos kernel fuel junk junk2 check (sf_text q ++ tail) = Ret (Some (sf_text (with_parity q v), r)),
      low_factor sf_ops s0 d f /\ f %| char_poly (sfmt_A c), (0 < v < 2 ^ 128)%num,
      certifies_word c f v /\ (prime (2 ^ d - 1) -> long_period c d v) & if check then exists2 o, r = Some o & check_right q f 100 o else r = None]) \/
  sf_par_main M pos kernel fuel junk junk2 check (sf_text q ++ tail) = Ret None /\ forall f, ~ low_factor sf_ops s0 d f.
Proof.
have [[Hc Hs s3 p0 n2] [Hf1 Ed]] := @es_ok q Hq Hm Hp Hp0 fuel 1%num junk Hfuel.
have n3 : (c_size c * 128 + wm_bits (c_weight c) < 2 * d)%N by rewrite addn0.
rewrite /sf_par_main sf_parseE //; try (move: Hm; clear; lia). cbn [bind].
have -> : (f_mexp q <? 0)%coqZ = false by move: Hm; clear; lia.
have [mu [Emu Hmu]] := out_min (sfmt_lin Hc) (sfmt_linout Hc) (sf_parity_gen Hc s3 p0 erefl) HM (erefl _) Hs.
have Hmu' := (out_minE (sfmt_lin Hc) (sfmt_linout Hc) (erefl _) mu Hs (p := 0) isT).2 Hmu.
rewrite Emu; cbn [bind]. set s1 := run _ _ s0.
have ok1 : sfmt_ok c s1 by apply: (run_ok (sfmt_lin Hc)).
have E1 : s1.1.1 = c by have [[]] := ok1.
have -> : p_getMexp sf_par_ops s1 = Z.of_nat d by rewrite -Ed -[p_getMexp _ _]/(f_mexp (c_par s1.1.1)) E1.
have [mu0 _ _] := Hmu. have Dc := minpoly_char Hmu.
have Lf : (size mu <= fuel)%N.
  apply: leq_trans (dvdp_leq (char_neq0 _) Dc) _. rewrite size_char_poly addn0. exact: Hf1.
have [f [b [Eb B1 B2]]] := hasFactor_spec d mu0 Lf. rewrite Eb; cbn [bind].
case: b Eb B1 B2 => Eb B1 B2; cbn [negb]; last first.
  right; split=> // f' [mu' H1 H2]. apply: (B2 isT f'). by rewrite (minpoly_unique Hmu' H1).
have Lff := B1 isT. have [If sf [h hE Hh]] := Lff.
have Df : f %| char_poly (sfmt_A c) by apply: dvdp_trans Dc; rewrite hE dvdp_mulr.
have D2 := large_simple (sfmt_A c) If sf n3.
have szl : (c_size c * 128 < d + 128)%N.
  have Dv := Z.div_mod (f_mexp q) 128. have R := Z.mod_pos_bound (f_mexp q) 128.
  have E : Z.of_nat sz = (f_mexp q / 128 + 1)%coqZ by rewrite /sz; have := Z.div_pos (f_mexp q) 128; move: Hm; clear; lia.
  move: E Dv R Hm Hm128. cbn [c_size]. move: sz (f_mexp q / 128)%coqZ (f_mexp q mod 128)%coqZ => a b' c'. clear. lia.
have [v [Ev Hv Cv]] := @sf_search c Hc s3 p0 erefl pos kernel f d Hpos HK If sf Df D2 junk2 fuel s1 Ed szl (ltnW Hf1) ok1.
have Cw : certifies_word c f v by move=> s Hs' I; have [] := Cv s Hs' I.
rewrite Ev; cbn [bind].
have -> : c_par (sf_setParity v s1).1.1 = with_parity q v by case: (s1) E1 => [[c0 t] w]; cbn [fst snd] => ->.
have -> : p_getParityValue sf_par_ops (sf_setParity v s1) = v.
  cbn [p_getParityValue sf_par_ops]. have [[_ [Hi [Hl _]]] _] := ok1. case: (s1) Hi Hl => [[c0 t] w]; cbn [fst snd] => Hi Hl.
  rewrite /sf_getParity /sf_setParity; cbn [fst snd rr_idx rr_arr]. rewrite nth_put; first by rewrite Nat.eqb_refl. by rewrite Hl.
have L : low_factor sf_ops s0 d f by exists mu.
have Lp : prime (2 ^ d - 1) -> long_period c d v.
  move=> pr s k Hs' I. have [_ P] := Cv s Hs' I. exact: (P (mersenne_primitive If sf pr)).
left; exists f, v. case: check; last by exists None.
pose q1 := with_parity q v. pose c1 := SFC q1 sz 0 4 false.
have Hq1 : sfp_ok q1 by have [*] := Hq; split.
have Hc1 : sfc_ok c1 by have [*] := Hc; split.
have EA : sfmt_A c1 = sfmt_A c := A_recfg q v sz 0 4 false.
have Cw1 : certifies_word c1 f v.
  move=> s Hs' I. rewrite EA. have := ok_back Hs'. set t := recfg _ s => Ht. exact: (Cw t Ht I).
have Df1 : f %| char_poly (sfmt_A c1) by rewrite EA.
have En : (sf_new q1).1.1 = c1 by [].
have Es : (sf_setParity v (sf_new q)).1.1 = c1 by [].
have [o Eo Ho] := @tp_loop_ok c1 f d M Hc1 s3 p0 erefl HM If sf n3 Df1 Ed Hv Cw1 q1 En 100 0 (sf_setParity v (sf_new q)) isT (erefl _) Es
  (fun j (Hj : (j < 0)%N) => False_ind _ (notF Hj)).
rewrite /test_parity0 Eo; cbn [bind]. exists (Some o); split=> //. exists o => //.
have SE i : (N.of_nat i < 2 ^ 128)%num -> seed_has q1 f i <-> seed_has q f i.
  move=> Hi. have X k : out_bits sf_ops (sf_seed (N.of_nat i) (sf_new q1)) 0 k = out_bits sf_ops (sf_seed (N.of_nat i) (sf_new q)) 0 k.
    exact: (@bits_recfg q v sz 0 4 false (sf_seed (N.of_nat i) (sf_new q)) 0%N k erefl).
  by split=> -[m Hm' Dm]; exists m => //; move: Hm'; apply: min_ext => k; rewrite X.
have B i : (i < 100)%N -> (N.of_nat i.+1 < 2 ^ 128)%num by move=> Hi; apply: (N.lt_trans _ 200%num); [move: Hi; clear; lia|].
move: Ho; rewrite add0n. clear -SE B. case: o => [n [H1 H2]|i [H1 H2 H3]|//].
- by split=> // i Hi; apply/(SE _ (B _ Hi))/H2.
- split=> // [/(SE _ (B _ H1))//|j Hj]. by apply/(SE _ (B _ (ltn_trans Hj H1))); apply: H3.
Qed.
End Program.
