(** search() of sfmtdc.cpp. *)
From Coq Require Import NArith ZArith List Bool Lia.
From mathcomp Require Import all_ssreflect all_algebra.
From mathcomp Require Import zify.
From Verif Require Import Base UtilModel GenModel PolyF2 LinSpec LinLemmas LinInst ArrayModel DelayLin PeriodModel PeriodSpec
  PolyAct PeriodProofs PeriodProofs2 PeriodProofs3 PeriodProofs4 PeriodProofs5 PeriodProofs7 ParityModel ParitySpec W128Model W128Spec SfmtModel SfmtLin SfmtProofs SfmtParity
  EquiModel SimdModel SimdPack SimdSpec SimdProofs SimdThm AnniModel AnniThm SearchModel SearchSpec SearchLin.
Set Implicit Arguments.
Unset Strict Implicit.
Unset Printing Implicit Defensive.
Import GRing.Theory.
Local Open Scope ring_scope.
Delimit Scope Z_scope with coqZ.

(** * The parity vector is not used by the recursion *)
Definition set_par (v : N) (p : sfp) : sfp :=
  SFP (f_mexp p) (f_pos1 p) (f_sl1 p) (f_sl2 p) (f_sr1 p) (f_sr2 p) (f_msk1 p) (f_msk2 p) (f_msk3 p) (f_msk4 p) v.
Definition recfg (c : sfc) (g : sfmt) : sfmt := ((c, g.1.2), g.2).

Section Par.
Variables (p : sfp) (v : N) (size : nat) (st wt : Z) (rev : bool).
Notation c := (SFC p size st wt rev).
Notation c1 := (SFC (set_par v p) size st wt rev).
Lemma gen_recfg g : g.1.1 = c -> sf_generate (recfg c1 g) = do '(x, g') <- sf_generate g; Ret (x, recfg c1 g').
Proof.
case: g => [[c0 s] q]; cbn [fst snd]; move=> -> {c0}; rewrite /recfg /sf_generate; cbn [fst snd c_size c_start c_weight].
have -> : sf_next_state c1 s = sf_next_state c s by [].
case: (sf_next_state _ _) => [s'||||]; cbn [bind]; try by [].
case: (sf_at _ _ _) => [a||||]; cbn [bind]; try by [].
case: (sf_at _ _ _) => [b||||]; cbn [bind]; by [].
Qed.
Lemma gen_cfg g x g' : sf_generate g = Ret (x, g') -> g'.1.1 = g.1.1.
Proof.
case: g => [[c0 s] q]; rewrite /sf_generate. case: (sf_next_state _ _) => [s'||||]; cbn [bind]; try by [].
case: (sf_at _ _ _) => [a||||]; cbn [bind]; try by [].
case: (sf_at _ _ _) => [b||||]; cbn [bind]; try by [].
move=> E. have := f_equal (fun z : res (N * sfmt) => match z with Ret y => y.2 | _ => g' end) E. by cbn [fst snd] => <-.
Qed.
Lemma ops_recfg g : g.1.1 = c -> g_generate sf_ops (recfg c1 g) = ((g_generate sf_ops g).1, recfg c1 (g_generate sf_ops g).2) /\
  (g_generate sf_ops g).2.1.1 = c.
Proof.
move=> E; cbn [g_generate sf_ops]; rewrite gen_recfg //.
have := @gen_cfg g; case: (sf_generate g) => [[x g']||||]; cbn [bind sf_run fst snd]; try by [].
by move=> H; rewrite -E; split=> //; apply: (H x g').
Qed.
Lemma run_recfg k g : g.1.1 = c -> run sf_ops k (recfg c1 g) = recfg c1 (run sf_ops k g) /\ (run sf_ops k g).1.1 = c.
Proof.
move=> E; elim: k => [//|k [IH1 IH2]]; rewrite /run !iterS -!/(run sf_ops k _) IH1.
by have [-> H] := ops_recfg IH2.
Qed.
Lemma bits_recfg g b i : g.1.1 = c -> out_bits sf_ops (recfg c1 g) b i = out_bits sf_ops g b i.
Proof. by move=> E; rewrite /out_bits; have [-> E'] := run_recfg i E; have [-> _] := ops_recfg E'. Qed.
Lemma A_recfg : sfmt_A c1 = sfmt_A c.
Proof.
rewrite /sfmt_A /dl_A /trans_mat /mat_of; apply/matrixP => i j.
apply: etrans (mxE _ _ _ _) _; apply: etrans (esym (mxE _ _ _ _)); rewrite /next_vec.
set f := (fun k => _).
have -> : dl_mk c1 128 size (wm_bits wt) (size * 128) f = recfg c1 (dl_mk c 128 size (wm_bits wt) (size * 128) f) by [].
by have [|-> _] := @ops_recfg (dl_mk c 128 size (wm_bits wt) (size * 128) f).
Qed.
Lemma sF_recfg : sF c1 = sF c.
Proof. by rewrite /sF /sf_pos; cbn [c_par c_size]; have -> : frec (set_par v p) = frec p by []. Qed.
Lemma C_recfg : sfmt_C c1 = sfmt_C c.
Proof.
rewrite /sfmt_C; have -> : sT c1 = sT c by []. have -> : sR c1 = sR c by rewrite /sR sF_recfg.
by move: (sR c) (sT c) => R T.
Qed.
Lemma ok_recfg g : sfmt_ok c g -> sfmt_ok c1 (recfg c1 g).
Proof. by move=> [[E H] Q]; split=> //; split. Qed.
Lemma ok_back g : sfmt_ok c1 g -> sfmt_ok c (recfg c g).
Proof. by move=> [[E H] Q]; split=> //; split. Qed.
Lemma recfg_id g : g.1.1 = c1 -> recfg c1 (recfg c g) = g.
Proof. by case: g => [[c0 s] q]; cbn [fst snd] => ->. Qed.
End Par.

(** * One pass of the loop *)
Section Pass.
Variables (B : Type) (next : B -> N * B) (M : seq 'F_2 -> nat -> f2x)
  (kernel : nat -> nat -> (nat -> nat -> bool) -> list (list bool)) (pos : N -> res Z) (junk : N) (d fuel : nat).
Hypothesis Hnext : forall b, ((next b).1 < 2 ^ 32)%num.
Hypothesis HM : minpolyseq_spec M.
Hypothesis HK : kernel_spec kernel.
Hypothesis Hpos : pos_spec 128 pos.
Hypothesis d256 : (256 <= d)%N.
Hypothesis d128 : ~~ (128 %| d)%N.
Hypothesis dmax : (Z.of_nat d * 100 < 2 ^ 31)%coqZ.
Definition sfsz : nat := Z.to_nat (Z.of_nat d / 128 + 1).
Hypothesis Hfuel : ((sfsz * 512 + 194) * 129 <= fuel)%N.
Notation setUp := (sf_setUp next).

Lemma sfszE : sfsz = (d %/ 128).+1.
Proof.
rewrite /sfsz; clear; have E := divn_eq d 128; have L : (d %% 128 < 128)%N by rewrite ltn_mod.
move: (d %/ 128)%N (d %% 128)%N E L => q r -> L.
by rewrite -(Z.div_unique (Z.of_nat (q * 128 + r)) 128 (Z.of_nat q) (Z.of_nat r)); lia.
Qed.
Lemma sz3 : (3 <= sfsz)%N.
Proof. by rewrite sfszE ltnS; apply: (leq_div2r 128 d256). Qed.
Lemma szlt : (sfsz * 128 < d + 128)%N.
Proof.
rewrite sfszE mulSn addnC ltn_add2r. have := divn_eq d 128; move: d128; rewrite /dvdn => r0.
by move: (d %% 128)%N r0 (d %/ 128 * 128)%N => r r0 q; lia.
Qed.
Lemma szmax : (N.of_nat sfsz < 2 ^ 31)%num.
Proof. by move: szlt dmax d256; clear; move: sfsz => z; lia. Qed.

(** The parameters setUpParam chooses, whatever the parity vector. *)
Definition scf (p : sfp) : sfc := SFC p sfsz 0 4 false.
Definition sth : Type := {p : sfp | [/\ sfp_ok p, (1 <= f_pos1 p <= Z.of_nat sfsz - 2)%coqZ & f_mexp p = Z.of_nat d]}.
Definition sflegal (s : sfmt) : Prop := exists p, s.1.1 = scf p /\ f_mexp p = Z.of_nat d.
Notation nn := (sfsz * 128 + 0)%N.
Definition sabs (th : sth) : sfmt -> 'rV['F_2]_nn := sfmt_vec (scf (sval th)).
Definition sA (th : sth) : 'M['F_2]_nn := sfmt_A (scf (sval th)).
Definition sC (th : sth) : nat -> 'cV['F_2]_nn := sfmt_C (scf (sval th)).
Definition sD (th : sth) : nat -> 'cV['F_2]_nn := @dl_D sfc (scf (sval th)) 128 sfsz 0 (sfsz * 128) (sR (scf (sval th))).
Definition sok (th : sth) : sfmt -> Prop := sfmt_ok (scf (sval th)).

Lemma scf_ok p : sfp_ok p -> (1 <= f_pos1 p <= Z.of_nat sfsz - 2)%coqZ -> sfc_ok (scf p) /\ (0 < sf_pos (scf p))%N.
Proof.
move=> H1 H2; have := sz3 => s3; split; first by split; cbn [scf c_par c_size]; [|lia|lia].
by rewrite /sf_pos; cbn [scf c_par c_size]; rewrite Nat.mod_small; lia.
Qed.
Lemma draw_lt k b i : (List.nth i (draw next k b).1 0 < 2 ^ 32)%num.
Proof.
elim: k b i => [|k IH] b i; first by case: i.
cbn [draw]; have := Hnext b; case: (next b) => x b1 /= Hx; have := IH b1; case: (draw next k b1) => l b2 /= Hl.
by case: i => [|i].
Qed.
Lemma draw_later k b : (draw next k b).2 = iter k (fun b => (next b).2) b.
Proof. by elim: k b => [//|k IH] b; cbn [draw]; rewrite iterSr -IH; case: (next b) => x b1; case: (draw next k b1). Qed.
Lemma later_trans b1 b2 b3 : later next b1 b2 -> later next b2 b3 -> later next b1 b3.
Proof. by move=> [k ->] [m ->]; exists (m + k)%N; rewrite iterD. Qed.
Lemma setUp_later g b g' b' : setUp g b = Ret (g', b') -> later next b b'.
Proof.
rewrite /sf_setUp; have := draw_later 13 b; case: (draw next 13 b) => l b1; cbn [snd] => ->.
case: (sf_setUpParam _ _) => [g1||||]; cbn [bind]; try by [].
by move=> E; have := f_equal (fun z : res (sfmt * B) => match z with Ret y => y.2 | _ => b end) E; cbn [snd] => <-; exists 13%N.
Qed.
Lemma setUp_rev u g g' : sf_setUpParam u g = Ret g' -> c_rev g'.1.1 = c_rev g.1.1.
Proof.
case: g => [[c s] q]; rewrite /sf_setUpParam; cbv zeta; case: (_ =? 0)%num; first by [].
move=> E; have := f_equal (fun z : res sfmt => match z with Ret y => y | _ => g' end) E; by cbn [fst snd] => <-.
Qed.
Definition smk p (H : [/\ sfp_ok p, (1 <= f_pos1 p <= Z.of_nat sfsz - 2)%coqZ & f_mexp p = Z.of_nat d]) : sth :=
  exist (fun p => [/\ sfp_ok p, (1 <= f_pos1 p <= Z.of_nat sfsz - 2)%coqZ & f_mexp p = Z.of_nat d]) p H.
Lemma setUp_spec g b : sflegal g -> exists (th : sth) g' b',
  [/\ setUp g b = Ret (g', b'), g'.1.1 = scf (sval th) & sok th (sf_seed 1 g')].
Proof.
case=> p [E Em]; rewrite /sf_setUp; have Hl := @draw_lt 13 b; case: (draw next 13 b) Hl => l b' /= Hl.
have [||g' [[Eg Hc Hp] [E1 E2 E3 E4 E5]]] := @sf_setUp_ok (fun i => List.nth i l 0%num) g Hl.
- by rewrite E; exact: sz3.
- by rewrite E; exact: szmax.
have Er : c_rev g'.1.1 = false by rewrite (setUp_rev Eg) E.
rewrite Eg; cbn [bind].
have Ec : g'.1.1 = scf (c_par g'.1.1).
  by move: E1 E3 E4 Er; rewrite E; case: (g'.1.1) => a1 a2 a3 a4 a5 /=; rewrite /scf => -> -> -> ->.
have Q : [/\ sfp_ok (c_par g'.1.1), (1 <= f_pos1 (c_par g'.1.1) <= Z.of_nat sfsz - 2)%coqZ & f_mexp (c_par g'.1.1) = Z.of_nat d].
  by split; [exact: (sc_par Hc)|move: Hp; rewrite E|rewrite E2 E].
exists (smk Q), g', b'; split=> //.
rewrite /sok /=; have [H1 H2 _] := Q; have [Hk _] := scf_ok H1 H2.
have := @sf_seed_ok (scf (c_par g'.1.1)) 1 (g'.1.2, g'.2) Hk (erefl _); congr sfmt_ok.
by move: Ec; case: (g') => [[c0 s0] q0]; cbn [fst snd] => <-.
Qed.
Lemma sf_family : family sf_ops sok sabs sA sC sD sflegal setUp 1.
Proof.
split.
- by move=> [p [H1 H2 H3]]; have [Hc _] := scf_ok H1 H2; exact: (sfmt_lin Hc).
- by move=> [p [H1 H2 H3]]; have [Hc _] := scf_ok H1 H2; exact: (sfmt_linout Hc).
- by move=> s [p [E _]]; cbn [g_bitSize sf_ops]; rewrite -[fst (fst s)]/(s.1.1) E addn0.
- by move=> [p [H1 H2 H3]] s [[E _] _]; exists p.
- move=> g b g' b' L E; have [th [g1 [b1 [E1 _ K]]]] := setUp_spec b L.
  by move: E; rewrite E1 => H; exists th; have := f_equal (fun z : res (sfmt * B) => match z with Ret y => y.1 | _ => g1 end) H; cbn [fst] => <-.
- by [].
Qed.

Lemma tried_failed k r b r' b' : tried sf_ops setUp 1 nn sok (no_factor sabs sA sD d) k r b r' b' ->
  failed sf_ops setUp d nn k r b.
Proof.
elim=> {k r b r' b'} [r b|k r b th s b1 r' b' E ok1 bad _ IH]; first exact: failed0.
apply: (failedS E _ IH) => mu f Hm; apply: (bad mu f).
exact/(out_minE (fam_gen sf_family th) (fam_out sf_family (th := th)) (erefl _) mu ok1).
Qed.

Lemma tried_later bad k r b r' b' : tried sf_ops setUp 1 nn sok bad k r b r' b' -> later next b b'.
Proof. by elim=> {k r b r' b'} [r b|k r b th s b1 r' b' /setUp_later E _ _ _]; [exists 0%N|apply: later_trans]. Qed.

(** The end of a successful pass. *)
Lemma sf_pass (th : sth) s r irr poly v128 v32 v64 : g_seed sf_ops 1 s = sf_seed 1 s -> s.1.1 = scf (sval th) -> sok th (sf_seed 1 s) -> sok th r ->
  is_minpoly (low_seq sabs sA sD th (sf_seed 1 s)) poly -> large_factor poly irr d -> poly %| char_poly (sA th) ->
  (128 <= length v128)%N -> (32 <= length v32)%N -> (64 <= length v64)%N ->
  exists v g l a1 q1 q2 q3, let g2 := sf_seed 1 (sf_setParity v r) in
    [/\ searchParity sf_ops sf_par_ops pos kernel (Some junk) fuel r irr = Ret (v, sf_setParity v r),
      anni_s sf_ops sf_par_ops M fuel g2 = Ret (true, g),
      get_all_equidist sf_ops pos fuel (ae_new sf_ops g 128 (Z.of_nat d)) v128 = Ret (a1, q1, sl_d128 l) &
      calc_SIMD sf_ops pos (SI 128 32 4) false sf_setStart sf_setWeight fuel (Z.of_nat d) g 32 v32 = Ret (q2, sl_d32 l) /\
      calc_SIMD sf_ops pos (SI 128 64 2) false sf_setStart sf_setWeight fuel (Z.of_nat d) g 64 v64 = Ret (q3, sl_d64 l)] /\
    [/\ sl_par l = c_par g.1.1, sf_line_ok d l & sflegal g].
Proof.
move=> _ Es oks okr Hm [If sf [h hE Hh]] Dp L1 L2 L3.
case: th Es oks okr Hm Dp => p Hp; rewrite /sok /sA /low_seq /sabs /sD; cbn [sval]; move=> Es oks okr Hm Dp.
have [Hp1 Hp2 Hp3] := Hp; have [Hc p0] := scf_ok Hp1 Hp2.
set c := scf p in Es oks okr Hm Dp Hc p0.
have n2 : (sfsz * 128 < 2 * d)%N by move: szlt d256; clear; move: sfsz => z; lia.
have n2' : (c_size c * 128 + wm_bits (c_weight c) < 2 * d)%N by rewrite addn0.
have Hf1 : (sfsz * 128 < fuel)%N by apply: leq_trans Hfuel; clear; move: sfsz => z; lia.
have Df : irr %| char_poly (sfmt_A c) by apply: dvdp_trans Dp; rewrite hE dvdp_mulr.
have D2 : ~~ (irr ^+ 2 %| char_poly (sfmt_A c)) := large_simple (sfmt_A c) If sf n2'.
have [v [Ev Hv Cv]] := @sf_search c Hc sz3 p0 erefl pos kernel irr d Hpos HK If sf Df D2 junk fuel r Hp3 szlt (ltnW Hf1) okr.
have Er : r.1.1 = c by have [[]] := okr.
pose p1 := set_par v p; pose c1 := scf p1.
have Hp1' : sfp_ok p1 by have [*] := Hp1; split.
have [Hc1 p01] : sfc_ok c1 /\ (0 < sf_pos c1)%N by apply: scf_ok.
pose g2 := sf_seed 1 (sf_setParity v r).
have Eg2 : g2 = recfg c1 (sf_seed 1 s).
  by rewrite /g2 /recfg; case: (r) Er => [[c0 s0] q0]; case: (s) Es => [[c2 s2] q2]; cbn [fst snd] => -> ->.
have Ecs : (sf_seed 1 s).1.1 = c by have [[]] := oks.
have ok2 : sfmt_ok c1 g2 by rewrite Eg2; apply: ok_recfg.
have EA : sfmt_A c1 = sfmt_A c by exact: A_recfg.
have EC : sfmt_C c1 = sfmt_C c by exact: C_recfg.
have [b [g [Ea okg [_ Eb] Kg]]] := @sf_anni c1 Hc1 sz3 p01 erefl erefl M HM d fuel n2 Hp3 Hf1 g2 ok2.
have bt : b = true.
  apply: Eb; exists poly, irr; split; last by split=> //; exists h.
  have := (out_minE (sfmt_lin Hc) (sfmt_linout Hc) (erefl _) poly oks (p := 0) isT).2 Hm.
  apply: min_ext => i; rewrite Eg2; exact/esym/bits_recfg.
subst b; have [g0 [[f [If' sf' Kf KW]] _]] := Kg erefl.
have gv0 : sfmt_vec c1 g != 0.
  by apply/eqP => /(sfmt_isZero Hc1 okg); rewrite g0.
have n3 : (c_size c1 * 128 + wm_bits (c_weight c1) < 2 * d)%N by rewrite addn0.
have ff : f = irr.
  apply: (@large_unique _ (sfmt_A c1) f irr d If' If sf' sf n3); last by rewrite EA.
  by apply: (@comp_dvd _ (sfmt_A c1) f If' (sfmt_vec c1 g)) => //; rewrite pact_mx.
subst f.
have Hfu : ((2 * (c_size c1 * 128 + wm_bits (c_weight c1)) + 2 * (sfsz * 128) + 2) * (N.to_nat (g_width sf_ops)).+1 <= fuel)%N.
  by apply: leq_trans Hfuel; cbn [scf c1 c_size c_weight wm_bits g_width sf_ops]; clear; move: sfsz => z; lia.
have Hsz t : sfmt_ok c1 t -> g_bitSize sf_ops t = (sfsz * 128)%N.
  by move=> [[E _] _]; cbn [g_bitSize sf_ops]; rewrite -[fst (fst t)]/(t.1.1) E.
have Hn4 : (c_size c1 * 128 + wm_bits (c_weight c1) <= sfsz * 128)%N by rewrite addn0.
have [a1 [q1 [E1 V1]]] := comp_dims (sfmt_lin Hc1) Hsz Hn4 Hpos okg If sf n3 gv0 Kf Hfu (L := 128) (veq := v128) isT (@N.le_refl _) L1.
have [W HW] := words_exist Hc1 okg.
have dm : (Z.of_nat d < 2 ^ 31)%coqZ by move: dmax; clear; lia.
have S32 := @sf_anni_call c1 Hc1 sz3 p01 erefl erefl M HM d fuel n2 Hp3 Hf1 (SI 128 32 4) 32 4 g2 g W pos fuel 32 ok2 Ea HW
  (or_introl (conj erefl (conj erefl erefl))) dm Hpos Hfuel isT.
have S64 := @sf_anni_call c1 Hc1 sz3 p01 erefl erefl M HM d fuel n2 Hp3 Hf1 (SI 128 64 2) 64 2 g2 g W pos fuel 64 ok2 Ea HW
  (or_intror (conj erefl (conj erefl erefl))) dm Hpos Hfuel isT.
have [q2 [u2 [E2 [U2 [_ [_ V2]]]]]] := @simd_thm _ _ _ false _ _ _ _ _ _ _ v32 S32 L2.
have [q3 [u3 [E3 [U3 [_ [_ V3]]]]]] := @simd_thm _ _ _ false _ _ _ _ _ _ _ v64 S64 L3.
have Ecg : g.1.1 = c1 by have [[]] := okg.
exists v, g, (SFL p1 u2 u3 (defect_sum d 128 q1)), a1, q1, q2, q3; split; first by split.
split; first by rewrite Ecg.
- split; first by split. cbn [sl_par sl_d32 sl_d64 sl_d128]. exists irr. rewrite -/sfsz -[SFC _ _ _ _ _]/c1. split; first by split; rewrite ?EA. split; [|split].
  + split; first exact: Hv. move=> t Ht Hi.
    have Et : t.1.1 = c1 by have [[]] := Ht.
    have Htb : sfmt_ok c (recfg c t) := ok_back Ht.
    have [C1 C2] := Cv _ Htb Hi. rewrite EA. split; first exact: C1.
    move=> Pd k Ek. apply: (C2 (mersenne_primitive If sf Pd)).
    have [R1 R2] := @run_recfg p v sfsz 0 4 false k (recfg c t) erefl.
    rewrite -[t in RHS](@recfg_id p v sfsz 0 4 false t Et) in Ek.
    rewrite -[t in LHS](@recfg_id p v sfsz 0 4 false t Et) R1 in Ek. exact: Ek.
  + exists q1; split; first by []. move=> u Hu. exact: (V1 u Hu).
  + exists g, W, q2, q3; split; first by split. by split.
- by exists p1.
Qed.

Lemma sf_loop v128 v32 v64 cnt ars : (128 <= length v128)%N -> (32 <= length v32)%N -> (64 <= length v64)%N -> sflegal (rr_rand ars) ->
  exists lines, [/\ sfmtdc_loop next M kernel pos junk fuel v128 v32 v64 (Z.of_nat d) cnt ars = Ret (lines, 0%coqZ),
    (length lines <= cnt)%N, (forall l, List.In l lines -> sf_line_ok d l) &
    length lines = cnt \/ exists r b, [/\ sflegal r, later next (rr_base ars) b & failed sf_ops setUp d nn (100 * d) r b]].
Proof.
move=> L1 L2 L3; elim: cnt ars => [|cnt IH] ars Hl; first by exists [::]; split=> //; left.
have Em : f_mexp (c_par (rr_rand ars).1.1) = Z.of_nat d by have [p [-> E]] := Hl.
cbn [sfmtdc_loop]; rewrite /tries_of Em.
have -> : (Z.of_nat d * 100 <? 2 ^ 31)%coqZ = true by apply/Z.ltb_lt.
cbn [bind]; set tries := (Z.of_nat d * 100)%coqZ.
have Et : Z.to_nat tries = (100 * d)%N by rewrite /tries; clear; lia.
have Hf1 : (nn < fuel)%N by apply: leq_trans Hfuel; clear; move: sfsz => z; lia.
have HS r b : sflegal r -> exists r', setUp r b = Ret r' \/ setUp r b = Throw.
  by move=> Hr; have [th [g' [b' [E _ _]]]] := setUp_spec b Hr; exists (g', b'); left.
case: (reducible_search sf_family HM d tries Hl Hf1 HS) => [[_ [r [b [Hr Er]]]]|[found [ars1 [-> Hres]]]].
  by have [th [g' [b' [E _ _]]]] := setUp_spec b Hr; rewrite E in Er.
cbn [bind]; case: found Hres => Hres; last first.
  have [Ht _] := Hres; exists [::]; split=> //; right; exists (rr_rand ars), (rr_base ars).
  by rewrite Et in Ht; split=> //; [exists 0%N|apply: tried_failed Ht].
cbn [negb]; have [k [r [b [s [th [[_ Ht [Es oks] [Er okr]] [_ Hm Dp HL _]]]]]]] := Hres.
have [If sf _] := HL; have irr0 : rr_irreducible ars1 != 0 by rewrite -size_poly_gt0 sf.
rewrite /gf2x_div (negPf irr0); cbn [bind]; rewrite degZ_eq sf eqxx; cbn [negb].
have Es' : s.1.1 = scf (sval th) by clear -oks; case: s oks => [[c0 s0] q0] [[+ _] _]; apply: etrans.
have [v [g [l [a1 [q1 [q2 [q3 [[E1 E2 E3 [E4 E5]] [El Hok Lg]]]]]]]]] := @sf_pass th s (rr_rand ars1) (rr_irreducible ars1) (rr_poly ars1)
  v128 v32 v64 erefl Es' oks okr Hm HL Dp L1 L2 L3.
rewrite E1; cbn [bind]; rewrite E2; cbn [bind negb]; rewrite E3; cbn [bind]; rewrite E4; cbn [bind]; rewrite E5; cbn [bind].
have [lines [-> Hlen Hin Hend]] := IH (with_rand ars1 g) Lg.
cbn [bind]; exists (l :: lines); split.
- by rewrite -El; case: (l).
- by [].
- by move=> l' [<-|/Hin].
- case: Hend => [E|[r1 [b1 [H1 H2 H3]]]]; [by left; congr S|right; exists r1, b1; split=> //].
  exact: later_trans (later_trans (tried_later Ht) (setUp_later Es)) H2.
Qed.

Lemma sf_search_thm arr v128 v32 v64 count mt : (128 <= length v128)%N -> (32 <= length v32)%N -> (64 <= length v64)%N ->
  exists lines, [/\ sfmtdc_search next M kernel pos junk fuel arr v128 v32 v64 (Z.of_nat d) count mt = Ret (lines, 0%coqZ),
    (length lines <= Z.to_nat count)%N, (forall l, List.In l lines -> sf_line_ok d l) &
    length lines = Z.to_nat count \/ exists r b, [/\ sflegal r, later next mt b & failed sf_ops setUp d (sfsz * 128) (100 * d) r b]].
Proof.
move=> L1 L2 L3; rewrite /sfmtdc_search.
have := @sf_loop v128 v32 v64 (Z.to_nat count) (ars_new (sf_new_mexp (Z.of_nat d) arr) mt) L1 L2 L3; rewrite addn0; apply.
by rewrite /ars_new /sf_new_mexp /sflegal; cbn [rr_rand]; eexists; split; reflexivity.
Qed.
End Pass.
