(** search() of dSFMTdc.cpp. *)
From Coq Require Import NArith ZArith List Bool Lia.
From mathcomp Require Import all_ssreflect all_algebra.
From mathcomp Require Import zify.
From Verif Require Import Base UtilModel GenModel PolyF2 LinSpec LinLemmas ArrayModel PeriodModel PeriodSpec
  PolyAct PeriodProofs PeriodProofs2 PeriodProofs3 PeriodProofs4 PeriodProofs5 PeriodProofs7 ParityModel ParitySpec ParityProofs W128Model W128Spec SfmtModel
  ViewLin DsfmtModel DsfmtLin DsfmtProofs DsfmtPar DsfmtFixModel DsfmtFixSpec AffineFix DsfmtAffine DsfmtFix DsfmtCert
  EquiModel SimdModel SimdSpec DsfmtEquiModel DsfmtEquiSpec DsfmtEquiProofs DsfmtEquiThm AnniModel AnniThm SearchModel SearchSpec SearchLin SearchSfmt.
Set Implicit Arguments.
Unset Strict Implicit.
Unset Printing Implicit Defensive.
Import GRing.Theory.
Local Open Scope ring_scope.
Delimit Scope Z_scope with coqZ.

(** * The fixed point and the parity vector are not used by the recursion *)
Section Cert.
Variables (c : dsc) (fx pr : N).
Hypothesis Hc : dsc_ok c.
Notation c' := (with_cert fx pr c).
Lemma tr_gen s : dsfmt_ok c s -> g_generate ds_ops (tr c fx pr s) = ((g_generate ds_ops s).1, tr c fx pr (g_generate ds_ops s).2).
Proof.
move=> Hs; cbn [g_generate ds_ops].
rewrite (ds_generateE Hc Hs) (ds_generateE (cert_ok' Hc fx pr) (tr_ok fx pr Hs)); cbn [ds_run fst snd].
by rewrite tr_nexts.
Qed.
Lemma tr_run k s : dsfmt_ok c s -> run ds_ops k (tr c fx pr s) = tr c fx pr (run ds_ops k s).
Proof.
move=> Hs; elim: k => [//|k IH]; rewrite /run !iterS -!/(run ds_ops k _) IH.
by rewrite tr_gen //; apply: (run_ok (dsfmt_lin Hc)).
Qed.
Lemma tr_bits s b i : dsfmt_ok c s -> out_bits ds_ops (tr c fx pr s) b i = out_bits ds_ops s b i.
Proof. by move=> Hs; rewrite /out_bits tr_run // tr_gen //; apply: (run_ok (dsfmt_lin Hc)). Qed.
End Cert.

(** * One pass of the loop *)
Section Pass.
Variables (B : Type) (next : B -> N * B) (M : seq 'F_2 -> nat -> f2x)
  (kernel : nat -> nat -> (nat -> nat -> bool) -> list (list bool)) (XGCD : f2x -> f2x -> f2x * f2x * f2x)
  (pos : N -> res Z) (junk : N) (d fuel : nat) (bf : bool) (sl : Z).
Hypothesis Hnext : forall b, ((next b).1 < 2 ^ 64)%num.
Hypothesis HM : minpolyseq_spec M.
Hypothesis HK : kernel_spec kernel.
Hypothesis HX : xgcd_spec XGCD.
Hypothesis Hpos : pos_spec 128 pos.
Hypothesis d336 : (336 <= d)%N.
Hypothesis dmax : (Z.of_nat d * 100 < 2 ^ 31)%coqZ.
Definition dsz : nat := ds_words (Z.of_nat d).
Hypothesis Hfuel : ((dsz * 416 + 618) * 129 <= fuel)%N.
Hypothesis Hfix : bf -> (0 < sl < 64)%coqZ.
Notation setUp := (ds_setUp next).

Lemma dszE : (dsz * 104 + 24 <= d)%N /\ (d < dsz * 104 + 128)%N.
Proof.
rewrite /dsz /ds_words; move: d336; clear => H; rewrite Z.quot_div_nonneg; [|lia|lia].
have := Z.div_mod (Z.of_nat d - 128) 104; have := Z.mod_pos_bound (Z.of_nat d - 128) 104.
have : (2 <= (Z.of_nat d - 128) / 104)%coqZ by apply: Z.div_le_lower_bound; lia.
by move: (Z.div _ _) (Z.modulo _ _) => a b; lia.
Qed.
Lemma dsz3 : (3 <= dsz)%N.
Proof. by have [_ H] := dszE; move: H d336; clear; move: dsz => z; lia. Qed.
Lemma dszmax : (N.of_nat dsz < 2 ^ 31)%num.
Proof. by have [H _] := dszE; move: H dmax; clear; move: dsz => z; lia. Qed.
Lemma dn2 : (dsz * 104 + 128 < 2 * d)%N.
Proof. by have [H _] := dszE; move: H d336; clear; move: dsz => z; lia. Qed.

Definition dcf (p : dsp) : dsc := DSC p dsz 0 2 0 bf sl.
Definition dslok (x : Z) : Prop := if bf then x = sl else (1 <= x <= 51)%coqZ.
Definition dpok (p : dsp) : Prop := [/\ dsp_ok p, (1 <= d_pos1 p <= Z.of_nat dsz - 2)%coqZ, dslok (d_sl1 p) & d_mexp p = Z.of_nat d].
Definition dth : Type := {p : dsp | dpok p}.
Definition dslegal (s : dsfmt) : Prop := exists p, s.1.1 = dcf p /\ d_mexp p = Z.of_nat d.
Notation nn := (dsz * 104 + 128 + 0)%N.
Definition dabs (th : dth) : dsfmt -> 'rV['F_2]_nn := dsfmt_vec (dcf (sval th)).
Definition dA (th : dth) : 'M['F_2]_nn := dsfmt_A (dcf (sval th)).
Definition dC (th : dth) : nat -> 'cV['F_2]_nn := dsfmt_C (dcf (sval th)).
Definition dD (th : dth) : nat -> 'cV['F_2]_nn := vl_col (dn (dcf (sval th))) (ds_view (dcf (sval th))) (ds_mk (dcf (sval th))) (vO (dcf (sval th))).
Definition dok (th : dth) : dsfmt -> Prop := dsfmt_ok (dcf (sval th)).
Definition dcert (p : dsp) (fx v : N) : dsp := DSP (d_mexp p) (d_pos1 p) (d_sl1 p) (d_msk1 p) (d_msk2 p) fx v.
Lemma dcf_cert p fx v : with_cert fx v (dcf p) = dcf (dcert p fx v).
Proof. by []. Qed.
Lemma dcf_ok p : dpok p -> dsc_ok (dcf p) /\ (0 < d_sl1 p)%coqZ.
Proof.
have s3 := dsz3; move=> [H1 H2 H3 _]; split.
  split; cbn [dcf e_par e_size e_prefix] => //; [by move: s3; clear; move: dsz => z; lia|by move: H2; clear; move: dsz => z; lia].
by move: Hfix H3; rewrite /dslok; clear; case: bf => [H E|_ H]; [have := H isT|]; lia.
Qed.
Lemma ds_draw_lt k b i : (List.nth i (draw next k b).1 0 < 2 ^ 64)%num.
Proof.
elim: k b i => [|k IH] b i; first by case: i.
cbn [draw]; have := Hnext b; case: (next b) => x b1; cbn [fst] => Hx; have := IH b1; case: (draw next k b1) => l b2; cbn [fst] => Hl.
by case: i => [|i]; cbn [List.nth]; [exact: Hx|exact: Hl].
Qed.
Lemma ds_setUp_later g b g' b' : setUp g b = Ret (g', b') -> later next b b'.
Proof.
rewrite /ds_setUp; set k := (if _ then _ else _); have := draw_later next k b; case: (draw next k b) => l b1; cbn [snd] => ->.
case: (ds_setUpParam _ _) => [g1||||]; cbn [bind]; try by [].
by move=> E; have := f_equal (fun z : res (dsfmt * B) => match z with Ret y => y.2 | _ => b end) E; cbn [snd] => <-; exists k.
Qed.
Lemma ds_setUp_flags u g g' : ds_setUpParam u g = Ret g' ->
  [/\ e_prefix g'.1.1 = e_prefix g.1.1, e_fixed g'.1.1 = e_fixed g.1.1 & e_fixedSL1 g'.1.1 = e_fixedSL1 g.1.1].
Proof.
case: g => [[c s] q]; rewrite /ds_setUpParam; cbv zeta; case: (_ =? 0)%num; first by [].
move=> E; have := f_equal (fun z : res dsfmt => match z with Ret y => y | _ => g' end) E; by cbn [fst snd] => <-.
Qed.
Lemma ds_setUp_spec g b : dslegal g -> exists (th : dth) g' b',
  [/\ setUp g b = Ret (g', b'), g'.1.1 = dcf (sval th) & dok th (ds_seed 1 g')].
Proof.
case=> p [E Em]; rewrite /ds_setUp E; cbn [dcf e_fixed]; set k := (if _ then _ else _); have Hl := @ds_draw_lt k b.
case: (draw next k b) Hl => l b'; cbn [fst] => Hl.
have [||||g' [[Eg Hc Hp] [[E1 E2 E3 [E4 E5]] E6]]] := @ds_setUp_ok (fun i => List.nth i l 0%num) g Hl.
- by rewrite E; exact: dsz3.
- by rewrite E; exact: dszmax.
- by rewrite E.
- by rewrite E; cbn [dcf e_fixed e_fixedSL1] => /Hfix; clear; lia.
have [F1 F2 F3] := ds_setUp_flags Eg.
rewrite Eg; cbn [bind].
have Ec : g'.1.1 = dcf (e_par g'.1.1).
  move: E1 E3 E4 F1 F2 F3; rewrite E; cbn [dcf e_size e_weight e_start e_prefix e_fixed e_fixedSL1].
  by case: (g'.1.1) => a1 a2 a3 a4 a5 a6 a7; cbn [e_par e_size e_weight e_start e_prefix e_fixed e_fixedSL1]; rewrite /dcf => -> -> -> -> -> ->.
have Q : dpok (e_par g'.1.1).
  by split; [exact: (dc_par Hc)|move: Hp; rewrite E|move: E6; rewrite E|rewrite E2 E].
exists (exist dpok _ Q), g', b'; split=> //.
rewrite /dok; cbn [sval proj1_sig]; have [Hk _] := dcf_ok Q.
have := @ds_seed_ok (dcf (e_par g'.1.1)) 1 (erefl _) g'.1.2 g'.2 Hk.
by move: Ec; case: (g') => [[c0 s0] q0]; cbn [fst snd] => <-.
Qed.
Lemma ds_family : family ds_ops dok dabs dA dC dD dslegal setUp 1.
Proof.
split.
- by move=> [p Hp]; have [Hc _] := dcf_ok Hp; exact: (dsfmt_lin Hc).
- by move=> [p Hp]; have [Hc _] := dcf_ok Hp; exact: (vl_linout (ds_vg Hc)).
- by move=> s [p [E _]]; cbn [g_bitSize ds_ops]; rewrite -[fst (fst s)]/(s.1.1) E addn0.
- by move=> [p [H1 H2 H3 H4]] s [E _ _ _ _]; exists p.
- move=> g b g' b' L E; have [th [g1 [b1 [E1 _ K]]]] := ds_setUp_spec b L.
  by move: E; rewrite E1 => H; exists th; have := f_equal (fun z : res (dsfmt * B) => match z with Ret y => y.1 | _ => g1 end) H; cbn [fst] => <-.
- by [].
Qed.

Lemma ds_tried_failed k r b r' b' : tried ds_ops setUp 1 nn dok (no_factor dabs dA dD d) k r b r' b' ->
  failed ds_ops setUp d nn k r b.
Proof.
elim=> {k r b r' b'} [r b|k r b th s b1 r' b' E ok1 bad _ IH]; first exact: failed0.
apply: (failedS E _ IH) => mu f Hm; apply: (bad mu f).
exact/(out_minE (fam_gen ds_family th) (fam_out ds_family (th := th)) (erefl _) mu ok1).
Qed.
Lemma ds_tried_later bad k r b r' b' : tried ds_ops setUp 1 nn dok bad k r b r' b' -> later next b b'.
Proof. by elim=> {k r b r' b'} [r b|k r b th s b1 r' b' /ds_setUp_later E _ _ _]; [exists 0%N|apply: later_trans]. Qed.

(** The end of a successful pass. *)
Lemma ds_pass (th : dth) s r irr poly v52 : s.1.1 = dcf (sval th) -> dok th (ds_seed 1 s) -> dok th r ->
  is_minpoly (low_seq dabs dA dD th (ds_seed 1 s)) poly -> large_factor poly irr d -> poly %| char_poly (dA th) ->
  (52 <= length v52)%N ->
  exists L fx v g3 l qv, let q := L %/ irr in let g1 := ds_setParity v (ds_setFixPoint fx r) in let g := annihilate ds_ops g3 q in
    [/\ getLCMPoly_d ds_ops ds_par_ops M poly r = Ret L, calc_fixpoint XGCD r irr q = Ret fx,
      searchParity ds_ops ds_par_ops pos kernel (Some junk) fuel (ds_setFixPoint fx r) irr = Ret (v, g1),
      anni_d ds_ops ds_par_ops M fuel (ds_seed 1 g1) = Ret (true, g3) &
      calc_DSFMT ds_ops pos (DI 128 2) ds_setStart ds_setWeight fuel (Z.of_nat d) g 52 v52 = Ret (qv, dl_d52 l)] /\
    [/\ dl_par l = e_par g.1.1, ds_line_ok bf sl d l & dslegal g].
Proof.
move=> Es oks okr Hm [If sf [h hE Hh]] Dp L1.
case: th Es oks okr Hm Dp => p Hp; rewrite /dok /dA /low_seq /dabs /dD; cbn [sval proj1_sig]; move=> Es oks okr Hm Dp.
have [Hp1 Hp2 Hp3 Hp4] := Hp; have [Hc sl0] := dcf_ok Hp.
set c := dcf p in Es oks okr Hm Dp Hc.
have w2 : e_weight c = 2%coqZ by [].
have [szl szu] := dszE.
have n2 : (e_size c * 104 + 128 < 2 * d)%N := dn2.
have n2' : (dn c < 2 * d)%N by rewrite /dn addn0.
have Hf1 : (dsz * 104 + 128 < fuel)%N by apply: leq_trans Hfuel; clear; move: dsz => z; lia.
have Hf2 : (dn c <= fuel)%N by rewrite /dn addn0; exact: ltnW.
have irr0 : irr != 0 by rewrite -size_poly_gt0 sf.
have poly0 : poly != 0.
  by apply: contraTneq Dp => ->; rewrite dvd0p; exact: char_neq0.
have Df : irr %| char_poly (dsfmt_A c) by apply: dvdp_trans Dp; rewrite hE dvdp_mulr.
have D2 : ~~ (irr ^+ 2 %| char_poly (dsfmt_A c)) := large_simple (dsfmt_A c) If sf n2'.
have [L [EL L0 PL HL _]] := @ds_lcm c Hc w2 sl0 M HM poly r okr poly0.
have [LC _ _] := HL Dp.
pose q := L %/ irr.
have fL : irr %| L by apply: dvdp_trans PL; rewrite hE dvdp_mulr.
have Cop : coprimep irr q.
  apply: irred_coprime => //; apply: contra D2 => D; apply: dvdp_trans LC.
  by rewrite -(divpK fL) -/q expr2; apply: dvdp_mul.
have [cst [Ec _ _]] := ds_setConst_ok Hc w2 okr.
have szd : (e_size c * 104 < d)%N by move: szl; clear; cbn [c dcf e_size]; move: dsz => z; lia.
have [fx [v [Efx Ev [Eg1 [Hfx Hv]] Cv]]] := @ds_certified c Hc w2 sl0 XGCD pos kernel HX Hpos HK irr q d If sf Df D2 Hp4 szd Cop junk fuel r cst Hf2 okr Ec.
have Er : r.1.1 = c by have [] := okr.
pose p1 := dcert p fx v; pose c1 := dcf p1.
have Hp' : dpok p1 by have [[? ? ?] ? ? ?] := Hp.
have [Hc1 sl1] := dcf_ok Hp'.
set g1 := ds_setParity v (ds_setFixPoint fx r).
have Eg2 : ds_seed 1 g1 = tr c fx v (ds_seed 1 s).
  rewrite /g1 /tr; case: (r) Er => [[c0 s0] q0]; case: (s) Es => [[c2 s2] q2]; cbn [fst snd] => -> ->.
  by case: q0 => [q0 q0'].
have ok2 : dsfmt_ok c1 (ds_seed 1 g1) by rewrite Eg2; exact: (tr_ok fx v oks).
have EA : dsfmt_A c1 = dsfmt_A c := cert_A Hc fx v.
have [b [g3 [Ea okg [_ Eb] Kg]]] := @ds_anni c1 Hc1 erefl sl1 M HM d fuel n2 Hp4 Hf1 (ds_seed 1 g1) ok2.
have bt : b = true.
  apply: Eb; exists poly, irr; split; last by split=> //; exists h.
  have := (out_minE (dsfmt_lin Hc) (vl_linout (ds_vg Hc)) (erefl _) poly oks (p := 0) isT).2 Hm.
  apply: min_ext => i; rewrite Eg2; exact/esym/(tr_bits fx v Hc).
subst b; have [g0 [[f [If' sf' Kf _]] _]] := Kg erefl.
have gv0 : dsfmt_vec c1 g3 != 0.
  by apply/eqP => /(dsfmt_isZero Hc1 erefl okg); rewrite g0.
have n3 : (dn c1 < 2 * d)%N := n2'.
have ff : f = irr.
  apply: (@large_unique _ (dsfmt_A c1) f irr d If' If sf' sf n3); last by rewrite EA.
  by apply: (@comp_dvd _ (dsfmt_A c1) f If' (dsfmt_vec c1 g3)) => //; rewrite pact_mx.
subst f.
set g := annihilate ds_ops g3 q.
have [okq Vq] : dsfmt_ok c1 g /\ dsfmt_vec c1 g = pact (dsfmt_A c1) q (dsfmt_vec c1 g3) := annihilate_spec (dsfmt_lin Hc1) q okg.
have Kf' : pact (dsfmt_A c1) irr (dsfmt_vec c1 g3) = 0 by rewrite pact_mx.
have vq0 : dsfmt_vec c1 g != 0.
  rewrite Vq (ann_irred _ If Kf' gv0); apply: contraL Cop => D.
  rewrite /coprimep (eqp_size (dvdp_gcd_idl D)) sf; move: d336; clear; lia.
have Kq : dsfmt_vec c1 g *m poly_mx (dsfmt_A c1) irr = 0 by rewrite -pact_mx Vq pact_comm Kf' pact_v0.
have [W HW] := ds_words_exist Hc1 okq.
have dm : (Z.of_nat d < 2 ^ 31)%coqZ by move: dmax; clear; lia.
have [_ RW'] := @ds_words_poly c1 Hc1 erefl d fuel n2 Hf1 g W irr okq HW Kq; have RW := RW' sf.
have call : dsfmt_call c1 g W pos fuel d 52 by split; split.
have [qv [u [E2 [U2 [_ [_ V2]]]]]] := @dsfmt_thm c1 g W pos fuel d 52 v52 call L1.
have Ecg : g.1.1 = c1 by have [] := okq.
exists L, fx, v, g3, (DSL p1 u), qv; split; first by split.
split; first by rewrite Ecg.
- split; first exact: Hp'. cbn [dl_par dl_d52]. exists irr. rewrite -/dsz -[DSC _ _ _ _ _ _ _]/c1. split; first by split; rewrite ?EA.
  split; first by split=> // Pd; apply: (Cv (mersenne_primitive If sf Pd)).
  by exists g, W, qv; split.
- by exists p1.
Qed.

Lemma ds_loop v52 cnt ars : (52 <= length v52)%N -> dslegal (rr_rand ars) ->
  exists lines, [/\ dsfmtdc_loop next M kernel XGCD pos junk fuel v52 (Z.of_nat d) cnt ars = Ret (lines, 0%coqZ),
    (length lines <= cnt)%N, (forall l, List.In l lines -> ds_line_ok bf sl d l) &
    length lines = cnt \/ exists r b, [/\ dslegal r, later next (rr_base ars) b & failed ds_ops setUp d nn (100 * d) r b]].
Proof.
move=> L1; elim: cnt ars => [|cnt IH] ars Hl; first by exists [::]; split=> //; left.
have Em : d_mexp (e_par (rr_rand ars).1.1) = Z.of_nat d by have [p [-> E]] := Hl.
cbn [dsfmtdc_loop]; rewrite /tries_of Em.
have -> : (Z.of_nat d * 100 <? 2 ^ 31)%coqZ = true by apply/Z.ltb_lt.
cbn [bind]; set tries := (Z.of_nat d * 100)%coqZ.
have Et : Z.to_nat tries = (100 * d)%N by rewrite /tries; clear; lia.
have Hf1 : (nn < fuel)%N by apply: leq_trans Hfuel; clear; move: dsz => z; lia.
have HS r b : dslegal r -> exists r', setUp r b = Ret r' \/ setUp r b = Throw.
  by move=> Hr; have [th [g' [b' [E _ _]]]] := ds_setUp_spec b Hr; exists (g', b'); left.
case: (reducible_search ds_family HM d tries Hl Hf1 HS) => [[_ [r [b [Hr Er]]]]|[found [ars1 [-> Hres]]]].
  by have [th [g' [b' [E _ _]]]] := ds_setUp_spec b Hr; rewrite E in Er.
cbn [bind]; case: found Hres => Hres; last first.
  have [Ht _] := Hres; exists [::]; split=> //; right; exists (rr_rand ars), (rr_base ars).
  by rewrite Et in Ht; split=> //; [exists 0%N|apply: ds_tried_failed Ht].
cbn [negb]; have [k [r [b [s [th [[_ Ht [Es oks] [Er okr]] [_ Hm Dp HL _]]]]]]] := Hres.
have [If sf _] := HL; have irr0 : rr_irreducible ars1 != 0 by rewrite -size_poly_gt0 sf.
rewrite degZ_eq sf eqxx; cbn [negb].
have Es' : s.1.1 = dcf (sval th).
  by clear -oks; case: s oks => [[c0 s0] q0] [+ _ _ _ _]; apply: etrans.
have [L [fx [v [g3 [l [qv [[E1 E2 E3 E4 E5] [El Hok Lg]]]]]]]] := @ds_pass th s (rr_rand ars1) (rr_irreducible ars1) (rr_poly ars1)
  v52 Es' oks okr Hm HL Dp L1.
rewrite E1; cbn [bind]; rewrite /gf2x_div (negPf irr0); cbn [bind]; rewrite E2; cbn [bind]; rewrite E3; cbn [bind]; rewrite E4; cbn [bind negb]; rewrite E5; cbn [bind].
have [lines [-> Hlen Hin Hend]] := IH (with_rand ars1 (annihilate ds_ops g3 (L %/ rr_irreducible ars1))) Lg.
cbn [bind]; exists (l :: lines); split.
- by rewrite -El; case: (l).
- by [].
- by move=> l' [<-|/Hin].
- case: Hend => [E|[r1 [b1 [H1 H2 H3]]]]; [by left; congr S|right; exists r1, b1; split=> //].
  exact: later_trans (later_trans (ds_tried_later Ht) (ds_setUp_later Es)) H2.
Qed.
End Pass.

Lemma ds_search_thm B (next : B -> N * B) M kernel XGCD pos junk d fuel fixed : (forall b, ((next b).1 < 2 ^ 64)%num) ->
  minpolyseq_spec M -> kernel_spec kernel -> xgcd_spec XGCD -> pos_spec 128 pos ->
  (336 <= d)%N -> (Z.of_nat d * 100 < 2 ^ 31)%coqZ -> (if fixed is Some sl then (0 < sl < 64)%coqZ else True) ->
  let size := ds_words (Z.of_nat d) in let bf := if fixed is Some _ then true else false in let sl := if fixed is Some x then x else 0%coqZ in
  ((size * 416 + 618) * 129 <= fuel)%N ->
  forall arr v52 count mt, (52 <= length v52)%N ->
  exists lines, [/\ dsfmtdc_search next M kernel XGCD pos junk fuel arr v52 (Z.of_nat d) count fixed mt = Ret (lines, 0%coqZ),
    (length lines <= Z.to_nat count)%N, (forall l, List.In l lines -> ds_line_ok bf sl d l) &
    length lines = Z.to_nat count \/
    exists r b, [/\ exists p, r.1.1 = DSC p size 0 2 0 bf sl /\ d_mexp p = Z.of_nat d, later next mt b &
      failed ds_ops (ds_setUp next) d (size * 104 + 128) (100 * d) r b]].
Proof.
move=> H1 H2 H3 H4 H5 H6 H7 H8 size bf sl H9 arr v52 count mt L1; rewrite /dsfmtdc_search.
have H8' : bf -> (0 < sl < 64)%coqZ by rewrite /bf /sl; clear -H8; case: fixed H8.
have := @ds_loop B next M kernel XGCD pos junk d fuel bf sl H1 H2 H3 H4 H5 H6 H7 H9 H8' v52 (Z.to_nat count)
  (ars_new (ds_setFixed fixed (ds_new_mexp (Z.of_nat d) arr)) mt) L1.
rewrite addn0; apply; rewrite /ars_new /ds_new_mexp /ds_setFixed /dslegal /dcf /bf /sl; cbn [rr_rand].
by clear; case: fixed => [x|]; eexists; split; reflexivity.
Qed.
