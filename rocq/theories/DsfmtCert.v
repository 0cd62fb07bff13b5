(** Period of the certified dSFMT. *)
From Coq Require Import NArith ZArith Lia Bool List.
From mathcomp Require Import all_ssreflect all_algebra.
From mathcomp Require Import zify.
From Verif Require Import Base WordLemmas UtilModel UtilSpec GenModel PolyF2 LinSpec LinLemmas PolyAct PeriodModel PeriodSpec
  ArrayModel ArrayWin ArrayLin ArrayOut W128Model W128Spec W128Proofs W128Cert ParityModel ParitySpec ParityProofs
  SfmtModel SfmtLin ViewLin DsfmtModel DsfmtLin DsfmtProofs DsfmtPar DsfmtFixModel AffineFix DsfmtAffine DsfmtFixSpec DsfmtFix.
Set Implicit Arguments.
Unset Strict Implicit.
Unset Printing Implicit Defensive.
Import GRing.Theory.
Local Open Scope N_scope.
Delimit Scope Z_scope with coqZ.

Lemma irred_X1 (f : f2x) d : irreducible_poly f -> size f = d.+1 -> (2 <= d)%N -> coprimep f ('X + 1)%R.
Proof.
move=> I sf d2. apply: irred_coprime => //. apply/negP => D.
have s1 : size ('X + 1 : f2x)%R = 2%N by rewrite -[1%R]/(1%:P)%R size_XaddC.
have n0 : ('X + 1 : f2x)%R != 0%R by rewrite -size_poly_gt0 s1.
have := dvdp_leq n0 D. rewrite s1 sf. lia.
Qed.

(** periodCertification on the object. *)
Lemma ds_cert_live c s : d_fix (e_par c) < 2 ^ 128 -> d_parity (e_par c) < 2 ^ 128 -> d_parity (e_par c) <> 0 -> ds_real c s ->
  let s' := (ds_periodCertification false s).2 in
  [/\ ds_real c s', s'.1 = s.1 & ParitySpec.inner 128 (d_parity (e_par c)) (N.lxor (ds_lung s') (d_fix (e_par c))) = 1%R].
Proof.
case: s => [[c' s] [l q]] Hf Hp P0 [E R W L P]; cbn [fst snd ds_lung ds_prev] in E, R, W, L, P; subst c'; cbv zeta.
rewrite /ds_periodCertification. cbn [cH e_par].
have [A1 B1] := w_of_ok L. have [A2 B2] := w_of_ok Hp. have [A3 B3] := w_of_ok Hf.
have N0 : wval (w_of (d_parity (e_par c))) <> 0 by rewrite B2.
have := dcert_ok _ _ _ false A1 A2 A3 N0. cbv zeta.
case: dsfmt_certification => r l'. cbn [snd]. rewrite B2 B3 => -[W' K]. cbn [fst snd ds_lung]. split.
- split=> //; cbn [fst snd ds_lung ds_prev]. exact: wval_lt.
- by [].
- by rewrite inner_link K.
Qed.

Section Final.
Variable c : dsc.
Hypothesis Hc : dsc_ok c.
Hypothesis w2 : e_weight c = 2%coqZ.
Hypothesis sl0 : (0 < d_sl1 (e_par c))%coqZ.
Notation A := (dsfmt_A c).
Variables (XGCD : f2x -> f2x -> f2x * f2x * f2x) (pos : N -> res Z) (kernel : nat -> nat -> (nat -> nat -> bool) -> list (list bool)).
Hypothesis HX : xgcd_spec XGCD.
Hypothesis Hpos : pos_spec 128 pos.
Hypothesis HK : kernel_spec kernel.
Variables (f q : f2x) (d : nat).
Hypothesis I : irreducible_poly f.
Hypothesis sf : size f = d.+1.
Hypothesis D1 : (f %| char_poly A)%R.
Hypothesis D2 : ~~ (f ^+ 2 %| char_poly A)%R.
Hypothesis Ed : d_mexp (e_par c) = Z.of_nat d.
Hypothesis Hn : (e_size c * 104 < d)%N.
Hypothesis Cop : coprimep f q.
(** A state F that is fixed in the component of f and a parity vector of the search
    for objects with F's lung as the fixed point. *)
Notation R := (pact A (char_poly A %/ f)).
Lemma ds_certify g cst F v (c1 := with_cert (ds_getParity F) (d_parity (e_par c)) c) : dsfmt_ok c g -> ds_setConst g = Ret cst ->
  dsfmt_ok c F -> (R (dsfmt_vec c F) *m A + R (dsfmt_vec c cst) = R (dsfmt_vec c F))%R ->
  0 < v < 2 ^ 128 ->
  (forall s, dsfmt_ok c1 s -> ParitySpec.inner 128 v (ds_getParity s) = 1%R ->
     (dsfmt_vec c1 s *m poly_mx (dsfmt_A c1) (char_poly (dsfmt_A c1) %/ f) != 0)%R) ->
  primitive f d -> forall s, ds_live (with_cert (ds_getParity F) v c) s ->
    let s' := (ds_periodCertification false s).2 in
    [/\ ds_live (with_cert (ds_getParity F) v c) s', s'.1 = s.1 & forall k, exists2 t, ds_steps k s' = Ret t & (ds_equals s' t -> 2 ^ d - 1 %| k)%N].
Proof.
set fx := ds_getParity F in c1 *.
move=> Hg Ec OF RF [v0 v1] S.
have Hfx : fx < 2 ^ 128 by have [_ _ _ L _] := OF.
have Hc1 : dsc_ok c1 := cert_ok' Hc fx (d_parity (e_par c)).
have A1 : dsfmt_A c1 = A := cert_A Hc fx (d_parity (e_par c)).
move=> Pf s Ls. set c2 := with_cert fx v c.
have Hc2 : dsc_ok c2 := cert_ok' Hc fx v. have A2 : dsfmt_A c2 = A := cert_A Hc fx v.
have Rs : ds_real c2 s by apply/live_real.
have v0' : v <> 0 by move=> Ev; move: v0; rewrite Ev.
have [R' E1 In] := @ds_cert_live c2 s Hfx v1 v0' Rs. cbv zeta. set s' := (ds_periodCertification false s).2 in R' E1 In *.
split; [by apply/live_real|exact: E1|] => k.
have Hg2 := tr_ok fx v Hg. have [cst2 [Ec2 Oc2 Vc2]] := ds_setConst_ok Hc2 w2 Hg2.
have [cst' [Ec' Oc Vc]] := ds_setConst_ok Hc w2 Hg. have Ecst : cst' = cst by move: Ec'; rewrite Ec => -[]. rewrite {cst' Ec'}Ecst in Oc Vc.
have VV : dsfmt_vec c2 cst2 = dsfmt_vec c cst.
  have T : dsfmt_vec c2 cst2 = dsfmt_vec c2 (tr c fx v cst).
    apply/(vl_state (ds_vg Hc2)); [exact: Oc2|exact: tr_ok|] => j Hj. rewrite (Vc2 j Hj). apply: esym. exact: (Vc j Hj).
  exact: T.
have [t [Et Ht V]] := steps_aff Hc2 w2 Hg2 Ec2 k R'. exists t; first exact: Et.
move=> EQ. have EV := equals_strip Hc2 w2 R' Ht EQ. rewrite V VV A2 in EV.
apply: (aff_period I D1 RF Pf (x := dsfmt_vec c2 (strip c2 s'))); last exact: (esym EV).
have O1 : dsfmt_ok c1 (strip c1 s') by have [Q1 Q2 Q3 Q4 Q5] := strip_ok Hc2 R'; split.
have O2 : dsfmt_ok c1 (tr c fx (d_parity (e_par c)) F) := tr_ok _ _ OF.
have O3 := ds_addS_ok Hc1 O1 O2. have S1 := S _ O3 In.
have VA := lin_add_abs (dsfmt_lin Hc1) O1 O2. cbn [g_add ds_ops] in VA. rewrite (ds_addE O1 O2) in VA.
rewrite VA A1 -pact_mx in S1. exact: S1.
Qed.
Lemma ds_certified junk fuel g cst : (dn c <= fuel)%N -> dsfmt_ok c g -> ds_setConst g = Ret cst ->
  exists fx v, [/\ calc_fixpoint XGCD g f q = Ret fx,
    searchParity ds_ops ds_par_ops pos kernel (Some junk) fuel (ds_setFixPoint fx g) f = Ret (v, ds_setParity v (ds_setFixPoint fx g)),
    (ds_setParity v (ds_setFixPoint fx g)).1.1 = with_cert fx v c /\ fx < 2 ^ 128 /\ 0 < v < 2 ^ 128 &
    primitive f d -> forall s, ds_live (with_cert fx v c) s ->
      let s' := (ds_periodCertification false s).2 in
      [/\ ds_live (with_cert fx v c) s', s'.1 = s.1 & forall k, exists2 t, ds_steps k s' = Ret t & (ds_equals s' t -> 2 ^ d - 1 %| k)%N]].
Proof.
move=> Hf Hg Ec.
have d2 : (2 <= d)%N by have := dc_size Hc; lia.
have CX := irred_X1 I sf d2.
have [F [a [b [a' [b' [EF OF VF ab ab']]]]]] := ds_fix_raw Hc w2 HX Hg Cop CX Ec. set fx := ds_getParity F in EF.
have RF : (R (dsfmt_vec c F) *m A + R (dsfmt_vec c cst) = R (dsfmt_vec c F))%R by rewrite VF; exact: (R_fix _ ab ab' D1).
have Hfx : fx < 2 ^ 128 by have [_ _ _ L _] := OF.
set c1 := with_cert fx (d_parity (e_par c)) c.
have Hc1 : dsc_ok c1 := cert_ok' Hc fx (d_parity (e_par c)).
have A1 : dsfmt_A c1 = A := cert_A Hc fx (d_parity (e_par c)).
have Hg1 : dsfmt_ok c1 (ds_setFixPoint fx g).
  have [E R W L P] := Hg. move: E R W L P. clear. case: g => [[c' s] [l r]]. cbn [fst snd ds_lung ds_prev] => -> R W L P. by split.
have D1' : (f %| char_poly (dsfmt_A c1))%R by rewrite A1.
have D2' : ~~ (f ^+ 2 %| char_poly (dsfmt_A c1))%R by rewrite A1.
have Hn' : (e_size c1 * 104 + 128 < d + 128)%N by rewrite ltn_add2r.
have Hf' : (e_size c1 * 104 + 128 <= fuel)%N by move: Hf; rewrite /dn; apply: leq_trans; exact: leq_addr.
have [v [Es [v0 v1] S]] := ds_search Hc1 w2 sl0 Hpos HK I sf D1' D2' junk Ed Hn' Hf' Hg1.
exists fx, v; split=> //.
  split; last by [].
  have [E _ _ _ _] := Hg. move: E. clear. by case: g => [[c' s] [l r]]; cbn [fst] => ->.
by move=> Pf s Ls; apply: (ds_certify Hg Ec OF RF (conj v0 v1) _ Pf Ls) => t Ht It; have [] := S t Ht It.
Qed.
End Final.

Lemma ds_defined c : dsc_ok c -> forall s, dsfmt_ok c s ->
  (exists x s', [/\ ds_generate s = Ret (x, s'), x < 2 ^ 128 & dsfmt_ok c s']) /\
  forall v, (1 <= v <= 128)%coqZ -> exists x s', [/\ ds_generate_len v s = Ret (x, s'), x < 2 ^ 128 & dsfmt_ok c s'].
Proof.
move=> Hc s Hs. split.
- rewrite (ds_generateE Hc Hs). eexists; eexists; split; [exact: erefl|exact: vO_lt|exact: (ds_nexts_ok Hc Hs)].
- move=> v Hv. rewrite (ds_lenE Hc Hs Hv). eexists; eexists; split; [exact: erefl|apply: (land_lt 128); exact: vO_lt|exact: (ds_nexts_ok Hc Hs)].
Qed.
Lemma ds_seed_live c v s l : dsc_ok c -> v < 2 ^ 128 -> ds_live c (ds_seed v ((with_prefix 0x3ff0000000000000 c, s), l)).
Proof.
move=> Hc Hv. have s2 := dc_size Hc. rewrite /ds_seed. cbn [with_prefix e_size]. rewrite -/(ds_sw c v) /ds_setup_prefix.
have G j := @ds_group_lt (e_size c + 1) (ds_sw c v) (ds_sw_lt c Hv) j.
have Ln : length (List.firstn (e_size c) (ds_group (e_size c + 1) (ds_sw c v))) = e_size c by rewrite List.firstn_length ds_group_len; lia.
split; cbn [fst snd rr_idx rr_arr ds_lung ds_prev]; [by []| | |].
- split; first lia. by rewrite List.map_length.
- move=> x /List.in_map_iff [y [<- _]]. apply/two_real. exists (ds_pref_word 0 y); [exact: pref0_52|exact: prefHE].
- by split; [exact: G|].
Qed.
Lemma ds_quotient c f cst : irreducible_poly f -> (f %| char_poly (dsfmt_A c))%R -> ~~ (f ^+ 2 %| char_poly (dsfmt_A c))%R ->
  let q := (char_poly (dsfmt_A c) %/ f)%R in coprimep f q /\ (dsfmt_vec c cst *m poly_mx (dsfmt_A c) (f * q) = 0)%R.
Proof.
move=> I D1 D2 q. have E := char_fq D1. split.
- apply: irred_coprime => //. apply: contra D2 => D. rewrite E expr2. exact: dvdp_mul.
- by rewrite [(f * q)%R]mulrC divpK // -pact_mx cayley.
Qed.
