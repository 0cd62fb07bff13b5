(** The programs calc_fixpoint and calc_parity of dSFMTdc. *)
From Coq Require Import NArith ZArith List Bool Lia.
From mathcomp Require Import all_ssreflect all_algebra.
From mathcomp Require Import zify.
From Verif Require Import Base WordLemmas UtilModel GenModel PolyF2 LinSpec LinLemmas PeriodModel PeriodSpec PolyAct PeriodProofs2 PeriodProofs3 PeriodProofs4
  ArrayModel W128Model W128Spec W128Proofs ParityModel ParitySpec ViewLin
  DsfmtModel DsfmtLin DsfmtProofs DsfmtPar DsfmtFixModel AffineFix DsfmtAffine DsfmtFixSpec DsfmtFix DsfmtCert SearchLin
  AnniModel AnniProofs AnniThm RmtCalcModel RmtCalcRead PerTestModel PerTestRead FixParModel FixParSpec.
Import ListNotations.
Set Implicit Arguments.
Unset Strict Implicit.
Unset Printing Implicit Defensive.
Import GRing.Theory.
Local Open Scope ring_scope.
Delimit Scope Z_scope with coqZ.

(** * Reading *)
Lemma fields_cat l r : fields (l ++ r) = fields l ++ fields r.
Proof. by elim: l => [|x l IH] //=; rewrite IH -catA. Qed.
Section Read.
Variables (q : dsp) (t : list N).
Hypothesis Hq : dsp_ok q.
Hypothesis Hm : (0 <= d_mexp q < 2 ^ 31)%coqZ.
Hypothesis Hp : (0 <= d_pos1 q < 2 ^ 31)%coqZ.
Let B z : (0 <= z < 2 ^ 31)%coqZ -> (0 <= z < 2 ^ 64)%coqZ. Proof. clear; lia. Qed.
Let S1 : (0 <= d_sl1 q < 2 ^ 31)%coqZ. Proof. have [q1 _ _] := Hq; move: q1; clear; lia. Qed.
Let C x : (x < 2 ^ 52)%num -> (x < 2 ^ 64)%num. Proof. by move=> Hx; apply: N.lt_trans Hx _. Qed.
Lemma fix_parseE : fix_parse (ds_text q ++ t) = Ret (DSP (d_mexp q) (d_pos1 q) (d_sl1 q) (d_msk1 q) (d_msk2 q) 0 0).
Proof.
have [q1 q2 q3] := Hq.
pose vs := [Z.to_N (d_mexp q); Z.to_N (d_pos1 q); Z.to_N (d_sl1 q); d_msk1 q; d_msk2 q].
have -> : ds_text q ++ t = fields [long_chars (d_mexp q); long_chars (d_pos1 q); long_chars (d_sl1 q); hex16 (d_msk1 q); hex16 (d_msk2 q)] ++
   (fields [hex16 (lo64 (d_fix q)); hex16 (hi64 (d_fix q)); hex16 (lo64 (d_parity q)); hex16 (hi64 (d_parity q))] ++ t).
  by rewrite catA -fields_cat.
rewrite /fix_parse (@read_fieldsE fix_bases _ vs).
  rewrite /vs; cbn [bind List.nth]. by rewrite (rc_intZ Hm) (rc_intZ Hp) (rc_intZ S1).
by do 3 (split; first by apply: reads_dec; apply: B); do 2 (split; first by apply: reads_hex16; exact: C).
Qed.
Lemma par_parseE : (d_fix q < 2 ^ 128)%num ->
  par_parse (ds_text q ++ t) = Ret (DSP (d_mexp q) (d_pos1 q) (d_sl1 q) (d_msk1 q) (d_msk2 q) (d_fix q) 0).
Proof.
move=> Hf. have [q1 q2 q3] := Hq.
pose vs := [Z.to_N (d_mexp q); Z.to_N (d_pos1 q); Z.to_N (d_sl1 q); d_msk1 q; d_msk2 q; lo64 (d_fix q); hi64 (d_fix q)].
have -> : ds_text q ++ t = fields [long_chars (d_mexp q); long_chars (d_pos1 q); long_chars (d_sl1 q); hex16 (d_msk1 q); hex16 (d_msk2 q);
    hex16 (lo64 (d_fix q)); hex16 (hi64 (d_fix q))] ++ (fields [hex16 (lo64 (d_parity q)); hex16 (hi64 (d_parity q))] ++ t).
  by rewrite catA -fields_cat.
rewrite /par_parse (@read_fieldsE par_bases _ vs).
  rewrite /vs; cbn [bind List.nth]. by rewrite (rc_intZ Hm) (rc_intZ Hp) (rc_intZ S1) join_lohi.
do 3 (split; first by apply: reads_dec; apply: B); do 2 (split; first by apply: reads_hex16; exact: C).
by split; [apply: reads_hex16; exact: lo64_lt|split; [apply: reads_hex16; exact: hi64_lt|]].
Qed.
End Read.

(** * The first steps of both programs *)
Section First.
Variable p : dsp.
Hypothesis Hq : dsp_ok p.
Hypothesis sl0 : (0 < d_sl1 p)%coqZ.
Hypothesis Hm : (232 <= d_mexp p < 2 ^ 31 - 128)%coqZ.
Hypothesis Hp : (0 <= d_pos1 p < 2 ^ 31)%coqZ.
Variables (M : seq 'F_2 -> nat -> f2x) (fuel : nat) (junk : N).
Hypothesis HM : minpolyseq_spec M.
Notation d := (Z.to_nat (d_mexp p)).
Hypothesis Hfuel : (d + 104 < fuel)%N.
Let s0 := ds_seed (fp_seed junk) (ds_new p).
Let c := s0.1.1.
Lemma fp_ok : dsc_ok c /\ dsfmt_ok c s0.
Proof.
have M1 : (232 <= d_mexp p)%coqZ by move: Hm; clear; lia. have P1 : (0 <= d_pos1 p)%coqZ by move: Hp; clear; lia.
have [H1 H2] := ds_new_ok Hq M1 P1. split; first exact: H1.
have L : (fp_seed junk < 2 ^ 128)%num by apply: join_lt => //; exact: N.mod_lt.
exact: (@ds_seed_ok _ _ L (ds_new p).1.2 (ds_new p).2 H1).
Qed.
Lemma fp_size : [/\ (dn c < 2 * d)%N, (dn c < fuel)%N, (e_size c * 104 < d)%N & Z.of_nat d = d_mexp p].
Proof.
have E : Z.of_nat (e_size c) = ((d_mexp p - 128) / 104 + 1)%coqZ.
  rewrite [e_size c]/(ds_words (d_mexp p)) /ds_words Z.quot_div_nonneg; move: Hm; clear; lia.
have D := Z.div_mod (d_mexp p - 128) 104. have R := Z.mod_pos_bound (d_mexp p - 128) 104.
have -> : dn c = (e_size c * 104 + 128)%N by rewrite /dn /dm (_ : wt2 (e_weight c)) // addn0.
move: E D R Hm Hfuel. move: (e_size c) ((d_mexp p - 128) / 104)%coqZ ((d_mexp p - 128) mod 104)%coqZ => a b e.
clear. split; lia.
Qed.
Lemma fp_first : exists mu s1 irr b, [/\ minpoly ds_ops M s0 0 0 = Ret (mu, s1),
  hasFactorOfDegree fuel mu (p_getMexp ds_par_ops s1) = Ret (irr, b), dsfmt_ok c s1,
  is_minpoly (out_bits ds_ops s0 0) mu /\ mu %| char_poly (dsfmt_A c) &
  (b -> large_factor mu irr d) /\ (~~ b -> forall f, ~ large_of s0 d f)].
Proof.
have [Hc Hs] := fp_ok. have [Hn Hf _ Ed] := fp_size. have LG := dsfmt_lin Hc. have LO := vl_linout (ds_vg Hc).
have [mu [E Hmu]] := out_min LG LO (ds_parity_gen Hc erefl) HM (erefl _) Hs.
have Hmu' : is_minpoly (out_bits ds_ops s0 0) mu by apply/(out_minE LG LO (erefl _) mu Hs).
have mA := minpoly_char Hmu. have [m0 _ _] := Hmu.
have sm : (size mu <= fuel)%N.
  apply: leq_trans Hf. rewrite -(size_char_poly (dsfmt_A c)). exact: dvdp_leq (char_neq0 _) mA.
have ok1 := run_ok LG (2 * (e_size c * 104 + 128)) Hs. set s1 := PeriodProofs4.run _ _ _ in ok1.
have Em : p_getMexp ds_par_ops s1 = Z.of_nat d by have [E1 _ _ _ _] := ok1; cbn [p_getMexp ds_par_ops]; rewrite -[fst (fst s1)]/(s1.1.1) E1 Ed.
have [irr [b [E2 Fb Fn]]] := hasFactor_spec d m0 sm.
exists mu, s1, irr, b; split; [exact: E|by rewrite Em|exact: ok1|by []|].
split=> // nb f [mu' Hmu2 Lf]. rewrite (minpoly_unique Hmu2 Hmu') in Lf. exact: (Fn nb f).
Qed.
(** The factor. *)
Lemma fp_factor mu irr : mu %| char_poly (dsfmt_A c) -> large_factor mu irr d ->
  [/\ irreducible_poly irr, size irr = d.+1, irr %| char_poly (dsfmt_A c) & ~~ (irr ^+ 2 %| char_poly (dsfmt_A c))].
Proof.
move=> mA [If sf [h hE _]]. have [Hn _ _ _] := fp_size. split=> //; last exact: large_simple If sf Hn.
by apply: dvdp_trans mA; rewrite hE dvdp_mulr.
Qed.
End First.

Section Programs.
Variable q : dsp.
Hypothesis Hq : dsp_ok q.
Hypothesis sl0 : (0 < d_sl1 q)%coqZ.
Hypothesis Hm : (232 <= d_mexp q < 2 ^ 31 - 128)%coqZ.
Hypothesis Hp : (0 <= d_pos1 q < 2 ^ 31)%coqZ.
Variables (M : seq 'F_2 -> nat -> f2x) (XGCD : f2x -> f2x -> f2x * f2x * f2x).
Variables (pos : N -> res Z) (kernel : nat -> nat -> (nat -> nat -> bool) -> list (list bool)).
Variable (fuel : nat).
Hypothesis HM : minpolyseq_spec M.
Hypothesis HX : xgcd_spec XGCD.
Hypothesis Hpos : pos_spec 128 pos.
Hypothesis HK : kernel_spec kernel.
Notation d := (Z.to_nat (d_mexp q)).
Hypothesis Hfuel : (d + 104 < fuel)%N.
Lemma base_ok fx pr : dsp_ok (base q fx pr).
Proof. by have [] := Hq. Qed.
Let M31 : (0 <= d_mexp q < 2 ^ 31)%coqZ. Proof. by move: Hm; clear; lia. Qed.
Let M128 : (d_mexp q <? 128)%coqZ = false. Proof. by move: Hm; clear; lia. Qed.
Notation st0 junk p := (ds_seed (fp_seed junk) (ds_new p)).

Lemma new_ok p : dsp_ok p -> (232 <= d_mexp p)%coqZ -> (0 <= d_pos1 p)%coqZ -> dsfmt_ok (ds_new p).1.1 (ds_new p).
Proof. by move=> H1 H2 H3; have [] := ds_new_ok H1 H2 H3. Qed.
Theorem fix_program junk t : let p := base q 0 0 in let c := (ds_new p).1.1 in
  (exists f F cst, [/\ large_of (st0 junk p) d f, dsfmt_ok c F, ds_setConst (ds_new p) = Ret cst,
     comp_fixed (dsfmt_A c) (dsfmt_vec c cst) f (dsfmt_vec c F) &
     fix_main M XGCD fuel junk (ds_text q ++ t) = Ret (FpLine (ds_text (base q (ds_lung F) 0)))]) \/
  ((forall f, ~ large_of (st0 junk p) d f) /\ fix_main M XGCD fuel junk (ds_text q ++ t) = Ret FpNoFactor).
Proof.
move=> p c. have [Hc Hs] : dsc_ok c /\ dsfmt_ok c (st0 junk p) := @fp_ok p (base_ok 0 0) Hm Hp junk. have [Hn Hf Hsz Ed] : [/\ (dn c < 2 * d)%N, (dn c < fuel)%N, (e_size c * 104 < d)%N & Z.of_nat d = d_mexp p] := @fp_size p Hm fuel junk Hfuel.
have [mu [s1 [irr [b [E1 E2 ok1 [Hmu mA] [Fb Fn]]]]]] := @fp_first p (base_ok 0 0) Hm Hp M fuel junk HM Hfuel.
rewrite /fix_main fix_parseE //. cbn [bind]. rewrite -/(base q 0 0) -/p. cbn [d_mexp p base]. rewrite M128 -/p E1; cbn [bind]. rewrite E2; cbn [bind].
case: b E2 Fb Fn => E2 Fb Fn; last by right; split; [exact: Fn|]. left. cbn [negb].
have LF := Fb erefl. have [If sf D1 D2] := @fp_factor p Hm fuel junk Hfuel mu irr mA LF.
have [_ _ [h hE _]] := LF. have mu0 : mu != 0 by have [] := Hmu.
have [L [EL L0 PL HL _]] := ds_lcm Hc erefl sl0 HM ok1 mu0. have [LC _ _] := HL mA.
have irr0 : irr != 0 by rewrite -size_poly_gt0 sf.
have fL : irr %| L by apply: dvdp_trans PL; rewrite hE dvdp_mulr.
have Cop : coprimep irr (L %/ irr).
  apply: irred_coprime => //; apply: contra D2 => D; apply: dvdp_trans LC.
  by rewrite -[X in _ %| X](divpK fL) expr2; apply: dvdp_mul.
rewrite EL; cbn [bind]. rewrite /gf2x_div (negPf irr0); cbn [bind].
have -> : (0 <=? deg (L %% irr))%coqZ = false by rewrite (eqP fL) /deg size_poly0.
have d2 : (2 <= d)%N by move: Hm; clear; lia.
have [cst1 [Ec1 Oc1 Vc1]] := ds_setConst_ok Hc erefl ok1.
have [cst [Ec Oc Vc]] := ds_setConst_ok Hc erefl (new_ok (base_ok 0 0) (proj1 Hm) (proj1 Hp)).
have VV : dsfmt_vec c cst1 = dsfmt_vec c cst.
  by apply/(vl_state (ds_vg Hc)) => // j Hj; rewrite (Vc1 j Hj) (Vc j Hj).
have [F [a [b [a' [b' [EF OF VF ab ab']]]]]] := ds_fix_raw Hc erefl HX ok1 Cop (irred_X1 If sf d2) Ec1.
rewrite EF; cbn [bind]. exists irr, F, cst; split; [by exists mu|exact: OF|exact: Ec| |].
- rewrite /comp_fixed -VV VF mulmxBl -!pact_mx. have RF := R_fix (dsfmt_vec c cst1) ab ab' D1.
  rewrite pact_vD. apply/eqP. rewrite subr_eq0. apply/eqP. apply: etrans RF. congr (_ + _).
  by rewrite -!st1 -pact_st.
- have [E _ _ _ _] := ok1. move: E. clear. by case: s1 => [[c' s] [l r]]; cbn [fst] => ->.
Qed.
Theorem par_program junk junk2 t (Hfx : (d_fix q < 2 ^ 128)%num) : let p := base q (d_fix q) 0 in let c := (ds_new p).1.1 in
  (exists f v, [/\ large_of (st0 junk p) d f, (0 < v < 2 ^ 128)%num, certifies_lung c f v &
     par_main M pos kernel fuel junk junk2 (ds_text q ++ t) = Ret (FpLine (ds_text (base q (d_fix q) v)), 0%coqZ)]) \/
  ((forall f, ~ large_of (st0 junk p) d f) /\ par_main M pos kernel fuel junk junk2 (ds_text q ++ t) = Ret (FpNoFactor, (-1)%coqZ)).
Proof.
move=> p c. have Op := base_ok (d_fix q) 0. have [Hc Hs] : dsc_ok c /\ dsfmt_ok c (st0 junk p) := @fp_ok p Op Hm Hp junk. have [Hn Hf Hsz Ed] : [/\ (dn c < 2 * d)%N, (dn c < fuel)%N, (e_size c * 104 < d)%N & Z.of_nat d = d_mexp p] := @fp_size p Hm fuel junk Hfuel.
have [mu [s1 [irr [b [E1 E2 ok1 [Hmu mA] [Fb Fn]]]]]] := @fp_first p Op Hm Hp M fuel junk HM Hfuel.
rewrite /par_main par_parseE //. cbn [bind]. rewrite -/(base q (d_fix q) 0) -/p. cbn [d_mexp p base]. rewrite M128 -/p E1; cbn [bind]. rewrite E2; cbn [bind].
case: b E2 Fb Fn => E2 Fb Fn; last by right; split; [exact: Fn|]. left. cbn [negb].
have LF := Fb erefl. have [If sf D1 D2] := @fp_factor p Hm fuel junk Hfuel mu irr mA LF.
have Hn' : (e_size c * 104 + 128 < d + 128)%N by rewrite ltn_add2r.
have Hf' : (e_size c * 104 + 128 <= fuel)%N by apply: leq_trans (ltnW Hf); rewrite /dn leq_addr.
have [v [Es v0 S]] := ds_search Hc erefl sl0 Hpos HK If sf D1 D2 junk2 (esym Ed) Hn' Hf' ok1.
rewrite Es; cbn [bind]. exists irr, v; split; [by exists mu|exact: v0| |].
- by move=> s Os In; have [] := S s Os In.
- have [E _ _ _ _] := ok1. move: E. clear. by case: s1 => [[c' s] [l r]]; cbn [fst] => ->.
Qed.
End Programs.
Section Pipeline.
Variable q : dsp.
Hypothesis Hq : dsp_ok q.
Hypothesis sl0 : (0 < d_sl1 q)%coqZ.
Hypothesis Hm : (232 <= d_mexp q < 2 ^ 31 - 128)%coqZ.
Hypothesis Hp : (0 <= d_pos1 q < 2 ^ 31)%coqZ.
Variables (M : seq 'F_2 -> nat -> f2x) (XGCD : f2x -> f2x -> f2x * f2x * f2x).
Variables (pos : N -> res Z) (kernel : nat -> nat -> (nat -> nat -> bool) -> list (list bool)).
Variable (fuel : nat).
Hypothesis HM : minpolyseq_spec M.
Hypothesis HX : xgcd_spec XGCD.
Hypothesis Hpos : pos_spec 128 pos.
Hypothesis HK : kernel_spec kernel.
Notation d := (Z.to_nat (d_mexp q)).
Hypothesis Hfuel : (d + 104 < fuel)%N.
Theorem fp_pipeline junk junk' junk2 t t' l1 l2 z : fix_main M XGCD fuel junk (ds_text q ++ t) = Ret (FpLine l1) ->
  par_main M pos kernel fuel junk' junk2 (l1 ++ t') = Ret (FpLine l2, z) ->
  exists fx v, [/\ (fx < 2 ^ 128)%num, (0 < v < 2 ^ 128)%num, z = 0%coqZ, l2 = ds_text (base q fx v) &
    prime (2 ^ d - 1) -> forall s, ds_live (ds_new (base q fx v)).1.1 s ->
      let s' := (ds_periodCertification false s).2 in
      [/\ ds_live (ds_new (base q fx v)).1.1 s', s'.1 = s.1 & forall k, exists2 g, ds_steps k s' = Ret g & (ds_equals s' g -> 2 ^ d - 1 %| k)%N]].
Proof.
move=> E1 E2.
case: (@fix_program q Hq sl0 Hm Hp M XGCD fuel HM HX Hfuel junk t) => [|[_ E]]; last by rewrite E in E1.
set p := base q 0 0. set c := (ds_new p).1.1. move=> [f [F [cst [[mu Hmu LF] OF Ec CF E]]]].
have {E}E1 : l1 = ds_text (base q (ds_lung F) 0) by move: E1; rewrite E => -[].
pose q1 := base q (ds_lung F) 0. rewrite E1 -/q1 in E2.
have Hfx : (d_fix q1 < 2 ^ 128)%num by have [_ _ _ L _] := OF.
have Oq1 : dsp_ok q1 := base_ok Hq _ _.
case: (@par_program q1 Oq1 sl0 Hm Hp M pos kernel fuel HM Hpos HK Hfuel junk' junk2 t' Hfx) => [|[_ E]]; last by rewrite E in E2.
set p1 := base q1 _ 0. set c1 := (ds_new p1).1.1. move=> [f1 [v [[mu1 Hmu1 LF1] v0 CV E]]].
have [E3 E4] : l2 = ds_text (base q1 (d_fix q1) v) /\ z = 0%coqZ by move: E2; rewrite E => -[<- <-].
have [Hc _] : dsc_ok c /\ _ := @fp_ok p (base_ok Hq 0 0) Hm Hp junk.
have [Hn _ _ _] : [/\ (dn c < 2 * d)%N, (dn c < fuel)%N, (e_size c * 104 < d)%N & Z.of_nat d = d_mexp p] := @fp_size p Hm fuel junk Hfuel.
have ff p' j m g : dsp_ok p' -> d_mexp p' = d_mexp q -> d_pos1 p' = d_pos1 q -> is_minpoly (out_bits ds_ops (ds_seed (fp_seed j) (ds_new p')) 0) m -> large_factor m g d ->
    [/\ irreducible_poly g, size g = d.+1 & g %| char_poly (dsfmt_A (ds_new p').1.1)].
  move=> O1 em ep Hm1 L1. have Hm' := Hm. rewrite -em in Hm'. have Hp' := Hp. rewrite -ep in Hp'. have Hf' := Hfuel. rewrite -em in Hf'.
  have [m' [s1 [irr [b [_ _ _ [Hm2 mA] _]]]]] := @fp_first p' O1 Hm' Hp' M fuel j HM Hf'.
  rewrite (minpoly_unique Hm2 Hm1) in mA. have L1' := L1. rewrite -em in L1'.
  by have [H1 H2 H3 H4] := @fp_factor p' Hm' fuel j Hf' m g mA L1'; split=> //; rewrite -em.
have [If sf D1] : [/\ irreducible_poly f, size f = d.+1 & f %| char_poly (dsfmt_A c)] := ff p junk mu f (base_ok Hq 0 0) erefl erefl Hmu LF.
have [If1 sf1 D1'] : [/\ irreducible_poly f1, size f1 = d.+1 & f1 %| char_poly (dsfmt_A c1)] := ff p1 junk' mu1 f1 (base_ok Oq1 _ 0) erefl erefl Hmu1 LF1.
have A1 : dsfmt_A c1 = dsfmt_A c := cert_A Hc (ds_lung F) 0.
have Ef : f1 = f by rewrite A1 in D1'; exact: (large_unique If1 If sf1 sf Hn D1' D1).
exists (ds_lung F), v; split; [exact: Hfx|exact: v0|exact: E4|exact: E3|] => Pr s Ls.
have RF : pact (dsfmt_A c) (char_poly (dsfmt_A c) %/ f) (dsfmt_vec c F) *m dsfmt_A c + pact (dsfmt_A c) (char_poly (dsfmt_A c) %/ f) (dsfmt_vec c cst) =
    pact (dsfmt_A c) (char_poly (dsfmt_A c) %/ f) (dsfmt_vec c F).
  move: CF. rewrite /comp_fixed mulmxBl -!pact_mx pact_vD => /eqP. rewrite subr_eq0 => /eqP K. apply: etrans K. congr (_ + _). by rewrite -!st1 -pact_st.
rewrite Ef in CV.
apply: (@ds_certify c Hc erefl f d If D1 (ds_new p) cst F v _ Ec OF RF v0 _ _ s Ls).
- exact: (new_ok (base_ok Hq 0 0) (proj1 Hm) (proj1 Hp)).
- exact: CV.
- exact: (mersenne_primitive If sf Pr).
Qed.
End Pipeline.
