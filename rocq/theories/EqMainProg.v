(** The programs calc_equidist of sfmtdc and of dSFMTdc. *)
From Coq Require Import NArith ZArith List Bool Lia.
From mathcomp Require Import all_ssreflect all_algebra.
From mathcomp Require Import zify.
From Verif Require Import Base WordLemmas UtilModel GenModel PolyF2 LinSpec LinLemmas LinInst ArrayModel ArrayLin DelayLin PeriodModel PeriodSpec
  PolyAct PeriodProofs2 PeriodProofs4 ParityModel ParitySpec W128Model W128Spec SfmtModel SfmtLin SfmtProofs SfmtParity
  EquiModel SimdModel SimdPack SimdSpec SimdProofs SimdThm DsfmtModel ViewLin DsfmtLin DsfmtProofs DsfmtPar DsfmtEquiModel DsfmtEquiSpec
  DsfmtEquiProofs DsfmtEquiThm AnniModel AnniThm SearchModel SearchSpec SearchLin SearchSfmt PerTestModel PerTestRead EqMainModel EqMainSpec EqMainSeq EqMainProofs.
Import ListNotations.
Set Implicit Arguments.
Unset Strict Implicit.
Unset Printing Implicit Defensive.
Import GRing.Theory.
Local Open Scope ring_scope.
Delimit Scope Z_scope with coqZ.

(** * The bits in the reverse order do not change the recursion *)
Section Rev.
Variables (p : sfp) (size : nat) (st wt : Z) (r : bool).
Notation c := (SFC p size st wt false).
Notation c1 := (SFC p size st wt r).
Lemma rev_gen g : g.1.1 = c -> sf_generate (recfg c1 g) = do '(x, g') <- sf_generate g; Ret (x, recfg c1 g').
Proof.
case: g => [[c0 s] q]; cbn [fst snd]; move=> -> {c0}; rewrite /recfg /sf_generate; cbn [fst snd c_size c_start c_weight].
have -> : sf_next_state c1 s = sf_next_state c s by [].
case: (sf_next_state _ _) => [s'||||]; cbn [bind]; try by [].
case: (sf_at _ _ _) => [a||||]; cbn [bind]; try by [].
case: (sf_at _ _ _) => [b||||]; cbn [bind]; by [].
Qed.
Lemma rev_ops g : g.1.1 = c -> (g_generate sf_ops (recfg c1 g)).2 = recfg c1 (g_generate sf_ops g).2.
Proof.
move=> E; cbn [g_generate sf_ops]; rewrite rev_gen //.
by case: (sf_generate g) => [[x g']||||]; cbn [bind sf_run fst snd].
Qed.
Lemma A_rev : sfmt_A c1 = sfmt_A c.
Proof.
rewrite /sfmt_A /dl_A /trans_mat /mat_of; apply/matrixP => i j.
apply: etrans (mxE _ _ _ _) _; apply: etrans (esym (mxE _ _ _ _)); rewrite /next_vec.
set f := (fun k => _).
have -> : dl_mk c1 128 size (wm_bits wt) (size * 128) f = recfg c1 (dl_mk c 128 size (wm_bits wt) (size * 128) f) by [].
by rewrite (@rev_ops (dl_mk c 128 size (wm_bits wt) (size * 128) f)).
Qed.
Lemma ok_rev g : sfmt_ok c g -> sfmt_ok c1 (sf_setrev r g) /\ sfmt_vec c1 (sf_setrev r g) = sfmt_vec c g.
Proof.
case: g => [[c0 s] q]. move=> [[E H] Q]; cbn [fst snd] in *. split; first by rewrite /sf_setrev E; split=> //; split.
by rewrite /sf_setrev E.
Qed.
Lemma okc_rev : sfc_ok c -> sfc_ok c1.
Proof. by case=> *; split. Qed.
End Rev.

Section Sfmt.
Variable q : sfp.
Hypothesis Hq : sfp_ok q.
Hypothesis Hm : (256 <= f_mexp q < 2 ^ 31 - 128)%coqZ.
Hypothesis Hp : (0 <= f_pos1 q < 2 ^ 31)%coqZ.
Hypothesis Hp0 : (0 < f_pos1 q mod (f_mexp q / 128 + 1))%coqZ.
Hypothesis Hpar : (f_parity q < 2 ^ 128)%num.
Variables (M : seq 'F_2 -> nat -> f2x) (pos : N -> res Z) (fuel : nat) (seed junk : N).
Hypothesis HM : minpolyseq_spec M.
Hypothesis Hpos : pos_spec 128 pos.
Notation d := (Z.to_nat (f_mexp q)).
Let sz := Z.to_nat (f_mexp q / 128 + 1).
Hypothesis Hfuel : ((sz * 512 + 194) * 129 <= fuel)%N.
Notation c := (SFC q sz 0 4 false).
Notation s0 := (sf_seed (eq_seed seed junk) (sf_new q)).

Lemma es_ok : [/\ sfc_ok c, sfmt_ok c s0, (3 <= sz)%N, (0 < sf_pos c)%N & (sz * 128 < 2 * d)%N] /\
  (sz * 128 < fuel)%N /\ f_mexp q = Z.of_nat d.
Proof.
have M1 : (128 <= f_mexp q)%coqZ by move: Hm; clear; lia. have P1 : (0 <= f_pos1 q)%coqZ by move: Hp; clear; lia.
have [H1 H2] := sf_new_ok Hq M1 P1.
have E : Z.of_nat sz = (f_mexp q / 128 + 1)%coqZ by rewrite /sz; have := Z.div_pos (f_mexp q) 128; move: Hm; clear; lia.
have D := Z.div_mod (f_mexp q) 128. have R := Z.mod_pos_bound (f_mexp q) 128.
split; [split|].
- exact: H1.
- exact: (@sf_seed_ok _ _ ((sf_new q).1.2, (sf_new q).2) H1 (eq_seed_lt seed junk)).
- move: E D R Hm. move: sz (f_mexp q / 128)%coqZ (f_mexp q mod 128)%coqZ => a b c. clear. lia.
- rewrite /sf_pos; cbn [c_par c_size]. have P : Z.of_nat (Nat.modulo (Z.to_nat (f_pos1 q)) sz) = (f_pos1 q mod (f_mexp q / 128 + 1))%coqZ.
    rewrite Nat2Z.inj_mod E Z2Nat.id //.
  by move: P Hp0; clear; lia.
- move: E D R Hm. move: sz (f_mexp q / 128)%coqZ (f_mexp q mod 128)%coqZ => a b c. clear. lia.
- split; last by rewrite Z2Nat.id //; move: Hm; clear; lia.
  apply: leq_trans Hfuel. clear; move: sz => a; lia.
Qed.
Theorem sf_equi_thm v128 v32 v64 reverse tail : (128 <= length v128)%N -> (32 <= length v32)%N -> (64 <= length v64)%N ->
  (exists f out q128 q32 q64, [/\ sf_equi_main M pos fuel seed junk v128 v32 v64 reverse (sf_text q ++ tail) = Ret (Some out),
      low_factor sf_ops s0 d f /\ f %| char_poly (sfmt_A c), eq_text out = sf_text q,
      eq_deltas out = [defect_sum d 32 q32; defect_sum d 64 q64; defect_sum d 128 q128] &
      exists t32 t64 t128, [/\ eq_tables out = [t32; t64; t128], table_of d 32 q32 t32, table_of d 64 q64 t64 & table_of d 128 q128 t128]] /\
    [/\ let cr := SFC q sz 0 4 reverse in comp_dims_of (sfmt_A cr) (sfmt_C cr) f 128 q128, exists W, sf_comp_words c f W &
      forall W, sf_comp_words c f W -> word_dims_from reverse 32 4 W q32 /\ word_dims_from reverse 64 2 W q64]) \/
  sf_equi_main M pos fuel seed junk v128 v32 v64 reverse (sf_text q ++ tail) = Ret None /\ forall f, ~ low_factor sf_ops s0 d f.
Proof.
move=> L1 L2 L3. have [[Hc Hs s3 p0 n2] [Hf1 Ed]] := es_ok.
rewrite /sf_equi_main sf_parseE //; try (move: Hm; clear; lia). cbn [bind].
have -> : (f_mexp q <? 0)%coqZ = false by move: Hm; clear; lia.
have [b [g [Ea okg Eb Kg]]] := @sf_anni c Hc s3 p0 erefl erefl M HM d fuel n2 Ed Hf1 s0 Hs.
rewrite Ea; cbn [bind]. case: b Ea Eb Kg => Ea Eb Kg; last first.
  right; split=> // f [mu H1 H2]. by have := Eb.2 (ex_intro _ mu (ex_intro _ f (conj H1 H2))).
left. have [g0 [[f [If sf Kf KW]] _]] := Kg erefl.
have gv0 : sfmt_vec c g != 0 by apply/eqP => /(sfmt_isZero Hc okg); rewrite g0.
have n3 : (c_size c * 128 + wm_bits (c_weight c) < 2 * d)%N by rewrite addn0.
have Df : f %| char_poly (sfmt_A c) by apply: (@comp_dvd _ (sfmt_A c) f If (sfmt_vec c g)) => //; rewrite pact_mx.
have Lf : low_factor sf_ops s0 d f.
  have [mu [f' [Hmu Lf']]] := Eb.1 erefl. exists mu => //. have [If' sf' [h hE Hh]] := Lf'.
  have Hm' := (out_minE (sfmt_lin Hc) (sfmt_linout Hc) (erefl _) mu Hs (p := 0) isT).1 Hmu.
  have D' : f' %| char_poly (sfmt_A c) by apply: dvdp_trans (minpoly_char Hm'); rewrite hE dvdp_mulr.
  by rewrite (@large_unique _ (sfmt_A c) f f' d If If' sf sf' n3).
(* 128 bits *)
pose cr := SFC q sz 0 4 reverse. pose gr := sf_setrev reverse g.
have [okr Vr] : sfmt_ok cr gr /\ sfmt_vec cr gr = sfmt_vec c g := ok_rev reverse okg.
have Hcr : sfc_ok cr := okc_rev reverse Hc.
have EA : sfmt_A cr = sfmt_A c := A_rev q sz 0 4 reverse.
have Ec : g.1.1 = c by have [[]] := okg.
have Egr : (if reverse then sf_setrev true g else g) = gr.
  rewrite /gr; case: (reverse) => //. by move: Ec; case: (g) => [[c0 s] w]; cbn [fst snd] => ->.
have Eg : sf_setrev false gr = g by rewrite /gr; move: Ec; case: (g) => [[c0 s] w]; cbn [fst snd] => ->.
have Hfu : ((2 * (c_size cr * 128 + wm_bits (c_weight cr)) + 2 * (sz * 128) + 2) * (N.to_nat (g_width sf_ops)).+1 <= fuel)%N.
  by apply: leq_trans Hfuel; cbn [cr c_size c_weight wm_bits g_width sf_ops]; clear; move: sz => z; lia.
have Hsz t : sfmt_ok cr t -> g_bitSize sf_ops t = (sz * 128)%N.
  by move=> [[E _] _]; cbn [g_bitSize sf_ops]; rewrite -[fst (fst t)]/(t.1.1) E.
have Hn4 : (c_size cr * 128 + wm_bits (c_weight cr) <= sz * 128)%N by rewrite addn0.
have gr0 : sfmt_vec cr gr != 0 by rewrite Vr.
have Kr : sfmt_vec cr gr *m poly_mx (sfmt_A cr) f = 0 by rewrite Vr EA.
have [a1 [q1 [E1 V1]]] := comp_dims (sfmt_lin Hcr) Hsz Hn4 Hpos okr If sf n3 gr0 Kr Hfu (L := 128) (veq := v128) isT (@N.le_refl _) L1.
have [W HW] := words_exist Hc okg.
have dm : (Z.of_nat d < 2 ^ 31)%coqZ by rewrite -Ed; move: Hm; clear; lia.
have S32 := @sf_anni_call c Hc s3 p0 erefl erefl M HM d fuel n2 Ed Hf1 (SI 128 32 4) 32 4 s0 g W pos fuel 32 Hs Ea HW
  (or_introl (conj erefl (conj erefl erefl))) dm Hpos Hfuel isT.
have S64 := @sf_anni_call c Hc s3 p0 erefl erefl M HM d fuel n2 Ed Hf1 (SI 128 64 2) 64 2 s0 g W pos fuel 64 Hs Ea HW
  (or_intror (conj erefl (conj erefl erefl))) dm Hpos Hfuel isT.
have [q2 [u2 [E2 [U2 [_ [_ V2]]]]]] := @simd_thm _ _ _ reverse _ _ _ _ _ _ _ v32 S32 L2.
have [q3 [u3 [E3 [U3 [_ [_ V3]]]]]] := @simd_thm _ _ _ reverse _ _ _ _ _ _ _ v64 S64 L3.
have CW : sf_comp_words c f W by exists g; split.
rewrite Egr Eg. rewrite -Ed in E1 E2 E3.
cbn [negb]. rewrite E1; cbn [bind]; rewrite E2; cbn [bind]; rewrite E3; cbn [bind].
exists f; eexists; exists q1, q2, q3; split; first split; first exact: erefl.
- by [].
- by rewrite Ec.
- by rewrite U2 U3.
- by do 3 eexists; split; first exact: erefl; apply: eq_tableE.
- split.
  + exact: V1.
  + by exists W.
  + by move=> W' CW'; split; apply: (sf_dims_all Hc s3 If sf n3 _ CW CW').
Qed.
End Sfmt.

Section Dsfmt.
Variable q : dsp.
Hypothesis Hq : dsp_ok q.
Hypothesis sl0 : (0 < d_sl1 q)%coqZ.
Hypothesis Hm : (232 <= d_mexp q < 2 ^ 31 - 128)%coqZ.
Hypothesis Hp : (0 <= d_pos1 q < 2 ^ 31)%coqZ.
Hypothesis Hfix : (d_fix q < 2 ^ 128)%num.
Hypothesis Hpar : (d_parity q < 2 ^ 128)%num.
Variables (M : seq 'F_2 -> nat -> f2x) (pos : N -> res Z) (fuel : nat) (seed junk : N).
Hypothesis HM : minpolyseq_spec M.
Hypothesis Hpos : pos_spec 128 pos.
Notation d := (Z.to_nat (d_mexp q)).
Let sz := ds_words (d_mexp q).
Hypothesis Hfuel : ((sz * 416 + 618) * 129 <= fuel)%N.
Notation s0 := (ds_seed (eq_seed seed junk) (ds_new q)).
Notation c := s0.1.1.
Lemma ed_ok : [/\ dsc_ok c, dsfmt_ok c s0, (sz * 104 + 128 < 2 * d)%N & (sz * 104 + 128 < fuel)%N] /\ d_mexp q = Z.of_nat d.
Proof.
have M1 : (232 <= d_mexp q)%coqZ by move: Hm; clear; lia. have P1 : (0 <= d_pos1 q)%coqZ by move: Hp; clear; lia.
have [H1 H2] := ds_new_ok Hq M1 P1.
have E : Z.of_nat sz = ((d_mexp q - 128) / 104 + 1)%coqZ.
  rewrite /sz /ds_words Z.quot_div_nonneg; move: Hm; clear; lia.
have D := Z.div_mod (d_mexp q - 128) 104. have R := Z.mod_pos_bound (d_mexp q - 128) 104.
split; [split|].
- exact: H1.
- exact: (@ds_seed_ok _ _ (eq_seed_lt seed junk) (ds_new q).1.2 (ds_new q).2 H1).
- move: E D R Hm. move: sz ((d_mexp q - 128) / 104)%coqZ ((d_mexp q - 128) mod 104)%coqZ => a b e. clear. lia.
- apply: leq_trans Hfuel. clear; move: sz => a; lia.
- by rewrite Z2Nat.id //; move: Hm; clear; lia.
Qed.
Theorem ds_equi_thm v52 tail : (52 <= length v52)%N ->
  (exists f out q52, [/\ ds_equi_main M pos fuel seed junk v52 (ds_text q ++ tail) = Ret (Some out),
      low_factor ds_ops s0 d f /\ f %| char_poly (dsfmt_A c), eq_text out = ds_text q,
      eq_deltas out = [defect_sum d 52 q52] & exists2 t52, eq_tables out = [t52] & table_of d 52 q52 t52] /\
    (exists W, ds_comp_words c f W) /\ forall W, ds_comp_words c f W -> word_dims52 W q52) \/
  ds_equi_main M pos fuel seed junk v52 (ds_text q ++ tail) = Ret None /\ forall f, ~ low_factor ds_ops s0 d f.
Proof.
move=> L1. have [[Hc Hs n2 Hf1] Ed] := ed_ok.
rewrite /ds_equi_main ds_parseE //; try (move: Hm; clear; lia). cbn [bind].
have -> : (d_mexp q <? 128)%coqZ = false by move: Hm; clear; lia.
have [b [g [Ea okg Eb Kg]]] := @ds_anni c Hc erefl sl0 M HM d fuel n2 Ed Hf1 s0 Hs.
rewrite Ea; cbn [bind]. case: b Ea Eb Kg => Ea Eb Kg; last first.
  right; split=> // f [mu H1 H2]. by have := Eb.2 (ex_intro _ mu (ex_intro _ f (conj H1 H2))).
left. have [g0 [[f [If sf Kf KW]] _]] := Kg erefl.
have gv0 : dsfmt_vec c g != 0 by apply/eqP => /(dsfmt_isZero Hc erefl okg); rewrite g0.
have n3 : (dn c < 2 * d)%N by rewrite (ds_dn (c := c) erefl).
have Df : f %| char_poly (dsfmt_A c) by apply: (@comp_dvd _ (dsfmt_A c) f If (dsfmt_vec c g)) => //; rewrite pact_mx.
have Lf : low_factor ds_ops s0 d f.
  have [mu [f' [Hmu Lf']]] := Eb.1 erefl. exists mu => //. have [If' sf' [h hE Hh]] := Lf'.
  have Hm' := (out_minE (dsfmt_lin Hc) (vl_linout (ds_vg Hc)) (erefl _) mu Hs (p := 0) isT).1 Hmu.
  have D' : f' %| char_poly (dsfmt_A c) by apply: dvdp_trans (minpoly_char Hm'); rewrite hE dvdp_mulr.
  by rewrite (@large_unique _ (dsfmt_A c) f f' d If If' sf sf' n3).
have Ec : g.1.1 = c by have [] := okg.
have [W HW] := ds_words_exist Hc okg.
have dm : (Z.of_nat d < 2 ^ 31)%coqZ by rewrite -Ed; move: Hm; clear; lia.
have S52 := @ds_anni_call c Hc erefl sl0 M HM d fuel n2 Ed Hf1 s0 g W pos fuel 52 Hs Ea HW dm Hpos Hfuel isT.
have [q2 [u2 [E2 [U2 [_ [_ V2]]]]]] := @dsfmt_thm _ _ _ _ _ _ _ v52 S52 L1.
have CW : ds_comp_words c f W by exists g; split.
rewrite -Ed in E2. cbn [negb]. rewrite E2; cbn [bind].
exists f; eexists; exists q2; split; first split; first exact: erefl.
- by [].
- by rewrite Ec.
- by rewrite U2.
- by eexists; first exact: erefl; apply: eq_tableE.
- by split; [exists W|move=> W' CW'; apply: (ds_dims_all Hc If sf n3 CW CW')].
Qed.
End Dsfmt.

(** * Two runs *)
Lemma comp_dims_same n (A : 'M['F_2]_n) C f L v1 v2 : comp_dims_of A C f L v1 -> comp_dims_of A C f L v2 ->
  forall i, (i < L)%N -> List.nth i v1 0%coqZ = List.nth i v2 0%coqZ.
Proof.
move=> H1 H2 i Hi. have Hv : (1 <= i.+1 <= L)%N by rewrite Hi.
have [k1 [E1 [F1 G1]]] := H1 _ Hv. have [k2 [E2 [F2 G2]]] := H2 _ Hv.
move: E1 E2. rewrite subn1 /= => -> ->. by congr Z.of_nat; apply/eqP; rewrite eqn_leq G1 // G2.
Qed.
Lemma defect_same d L v1 v2 : (forall i, (i < L)%N -> List.nth i v1 0%coqZ = List.nth i v2 0%coqZ) -> defect_sum d L v1 = defect_sum d L v2.
Proof.
move=> H. rewrite /defect_sum. congr List.fold_right. apply: List.map_ext_in => i /List.in_seq Hi. rewrite H //. clear -Hi; lia.
Qed.
Lemma sf_same q (Hq : sfp_ok q) : (256 <= f_mexp q < 2 ^ 31 - 128)%coqZ -> (0 <= f_pos1 q < 2 ^ 31)%coqZ ->
  (0 < f_pos1 q mod (f_mexp q / 128 + 1))%coqZ -> (f_parity q < 2 ^ 128)%num ->
  forall M pos fuel M' pos' fuel' reverse, minpolyseq_spec M -> pos_spec 128 pos -> minpolyseq_spec M' -> pos_spec 128 pos' ->
  let sz := Z.to_nat (f_mexp q / 128 + 1) in ((sz * 512 + 194) * 129 <= fuel)%N -> ((sz * 512 + 194) * 129 <= fuel')%N ->
  forall seed junk v128 v32 v64 tail seed' junk' v128' v32' v64' tail' out out',
  (128 <= length v128)%N -> (32 <= length v32)%N -> (64 <= length v64)%N ->
  (128 <= length v128')%N -> (32 <= length v32')%N -> (64 <= length v64')%N ->
  sf_equi_main M pos fuel seed junk v128 v32 v64 reverse (sf_text q ++ tail) = Ret (Some out) ->
  sf_equi_main M' pos' fuel' seed' junk' v128' v32' v64' reverse (sf_text q ++ tail') = Ret (Some out') ->
  eq_text out = eq_text out' /\ List.nth 2 (eq_deltas out) 0%coqZ = List.nth 2 (eq_deltas out') 0%coqZ /\
  List.nth 2 (eq_tables out) [] = List.nth 2 (eq_tables out') [].
Proof.
move=> Hm Hp Hp0 Hpar M pos fuel M' pos' fuel' reverse HM Hpos HM' Hpos' sz Hf Hf' seed junk v128 v32 v64 tail seed' junk' v128' v32' v64' tail' out out'
  L1 L2 L3 L1' L2' L3' E E'.
have [[_ _ _ _ n2] [_ Ed]] := es_ok Hq Hm Hp Hp0 seed junk Hf.
case: (sf_equi_thm Hq Hm Hp Hp0 Hpar seed junk HM Hpos Hf reverse tail L1 L2 L3); last by move=> [E0 _]; move: E0; rewrite E.
move=> [f [o [a1 [a2 [a3 [[E0 [Lf Df] T D [t1 [t2 [t3 [TT _ _ T3]]]]] [V _ _]]]]]]].
case: (sf_equi_thm Hq Hm Hp Hp0 Hpar seed' junk' HM' Hpos' Hf' reverse tail' L1' L2' L3'); last by move=> [E1 _]; move: E1; rewrite E'.
move=> [f' [o' [b1 [b2 [b3 [[E0' [Lf' Df'] T' D' [t1' [t2' [t3' [TT' _ _ T3']]]]] [V' _ _]]]]]]].
move: E0; rewrite E => -[Eo]. move: E0'; rewrite E' => -[Eo']. rewrite -{o}Eo -{o'}Eo' in T D TT T' D' TT'.
have n3 : (sz * 128 + 0 < 2 * Z.to_nat (f_mexp q))%N by rewrite addn0.
have ff : f = f'.
  have [mu _ [If sf _]] := Lf. have [mu' _ [If' sf' _]] := Lf'. exact: (large_unique If If' sf sf' n3 Df Df').
rewrite -ff in V'. have S := comp_dims_same V V'.
split; first by rewrite T T'. rewrite D D' TT TT'; cbn [List.nth]. split; first exact: defect_same.
have [N1 F1] := T3. have [N2 F2] := T3'. apply: (List.nth_ext _ _ (0, 0)%coqZ (0, 0)%coqZ); first by rewrite N1 N2.
move=> i /ltP; rewrite N1 => Hi. have Hv : (1 <= i.+1 <= 128)%N by rewrite Hi.
have [k [Ek _]] := V _ Hv. have Ek' : List.nth (i.+1 - 1) b1 0%coqZ = Z.of_nat k by rewrite -Ek subn1 S.
by have := F1 _ Hv _ Ek; rewrite -(F2 _ Hv _ Ek') subn1.
Qed.
