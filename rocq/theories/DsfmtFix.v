(** calc_fixpoint, and the period of the certified dSFMT. *)
From Coq Require Import NArith ZArith Lia Bool List.
From mathcomp Require Import all_ssreflect all_algebra.
From mathcomp Require Import zify.
From Verif Require Import Base WordLemmas WordVec UtilModel UtilSpec UtilProofs GenModel PolyF2 LinSpec LinLemmas PolyAct PeriodModel PeriodSpec PeriodProofs4 XorshiftProofs TinyLin
  ArrayModel ArrayWin ArrayLin ArrayOut MtdcLin W128Model W128Spec W128Proofs W128Cert ParityModel ParitySpec ParityProofs
  SfmtModel SfmtLin ViewLin DsfmtModel DsfmtLin DsfmtProofs DsfmtPar DsfmtFixModel AffineFix DsfmtAffine DsfmtFixSpec.
Set Implicit Arguments.
Unset Strict Implicit.
Unset Printing Implicit Defensive.
Import GRing.Theory.
Local Open Scope N_scope.
Delimit Scope Z_scope with coqZ.

Section XG.
Local Open Scope ring_scope.
Variable XGCD : f2x -> f2x -> f2x * f2x * f2x.
Hypothesis HX : xgcd_spec XGCD.
Lemma xgcd_coprime x y d a b : XGCD x y = (d, a, b) -> (deg d =? 0)%coqZ = coprimep x y.
Proof.
move=> E. have [Ed D1 D2] := HX E. rewrite /coprimep.
have G : d %= gcdp x y.
  rewrite /eqp dvdp_gcd D1 D2 Ed /=. apply: dvdp_add; apply: dvdp_mull; [exact: dvdp_gcdl|exact: dvdp_gcdr].
rewrite -(eqp_size G) /deg. move: (size d) => z. lia.
Qed.
Lemma xgcd_one x y d a b : XGCD x y = (d, a, b) -> coprimep x y -> a * x + b * y = 1.
Proof.
move=> E. rewrite -(xgcd_coprime E) => K. have [<- _ _] := HX E. apply/eqP. rewrite -f2x_size1. move: K. rewrite /deg. move: (size d) => z. lia.
Qed.
Lemma fix_unique n (A : 'M['F_2]_n) (C F F' : 'rV['F_2]_n) (f q : f2x) : coprimep f q -> coprimep f ('X + 1) ->
  is_fixpoint A C f q F -> is_fixpoint A C f q F' -> F = F'.
Proof.
move=> /Bezout_eq1_coprimepP [[u v] /= uv] /Bezout_eq1_coprimepP [[u' v'] /= uv'] [C1 [C2 [E1 E2 E3 E4 E5]]] [D1 [D2 [G1 G2 G3 G4 G5]]].
have K1 : C1 = D1.
  apply/eqP. rewrite -subr_eq0. apply/eqP.
  have E : C1 - D1 = D2 - C2 by apply/eqP; rewrite subr_eq addrAC -subr_eq opprK -E1 G1 addrC.
  have P1 : pact A f (C1 - D1) = 0 by rewrite pact_mx mulmxBl E2 G2 subr0.
  have P2 : pact A q (C1 - D1) = 0 by rewrite E pact_mx mulmxBl E3 G3 subr0.
  by rewrite -[LHS](pact1 A) -uv pactD (pactM A u f) (pactM A v q) P1 P2 !pact_v0 addr0.
apply/eqP. rewrite -subr_eq0. apply/eqP. have K2 : (F - F') *m A = F - F'.
  have H1 : F *m A = F - C1 by rewrite -{2}E5 addrK. have H2 : F' *m A = F' - C1 by rewrite -{2}G5 K1 addrK.
  by rewrite mulmxBl H1 H2 opprB addrA subrK.
have P1 : pact A f (F - F') = 0 by rewrite pact_mx mulmxBl E4 G4 subr0.
have P2 : pact A ('X + 1) (F - F') = 0 by rewrite pactD pact1 -['X]expr1 pactX st1 K2 addF2_self.
by rewrite -[LHS](pact1 A) -uv' pactD (pactM A u' f) (pactM A v' _) P1 P2 !pact_v0 addr0.
Qed.
End XG.

Section Fix.
Variable c : dsc.
Hypothesis Hc : dsc_ok c.
Hypothesis w2 : e_weight c = 2%coqZ.
Notation size := (e_size c).
Notation p := (e_par c).
Notation A := (dsfmt_A c).
Variable XGCD : f2x -> f2x -> f2x * f2x * f2x.
Hypothesis HX : xgcd_spec XGCD.
Variables (f q : f2x).
Let vg := ds_vg Hc.
Lemma ds_fix_throw g : dsfmt_ok c g -> ~~ coprimep f q \/ ~~ coprimep f ('X + 1) -> calc_fixpoint XGCD g f q = Throw.
Proof.
move=> Hg H. rewrite /calc_fixpoint. case E : (XGCD f q) => [[d a] b]. rewrite (xgcd_coprime HX E).
have [g' [-> _ _]] := ds_setConst_ok Hc w2 Hg. cbn [bind].
case E' : (XGCD f ('X + 1)%R) => [[d' a'] b']. rewrite (xgcd_coprime HX E').
case: H => -> //. by case: (~~ _).
Qed.
Lemma ds_fix_raw g cst : dsfmt_ok c g -> coprimep f q -> coprimep f ('X + 1)%R -> ds_setConst g = Ret cst ->
  exists F a b a' b', [/\ calc_fixpoint XGCD g f q = Ret (ds_getParity F), dsfmt_ok c F,
    dsfmt_vec c F = fixc A (dsfmt_vec c cst) q b b', (a * f + b * q = 1)%R & (a' * f + b' * ('X + 1) = 1)%R].
Proof.
move=> Hg c1 c2 Ec. have [g' [E' Hcst _]] := ds_setConst_ok Hc w2 Hg. have Eg : g' = cst by move: Ec; rewrite E' => -[]. rewrite Eg in E' Hcst. clear Eg g' Ec.
rewrite /calc_fixpoint. case E1 : (XGCD f q) => [[d a] b]. rewrite (xgcd_coprime HX E1) c1. rewrite E'. cbn [bind negb].
case E2 : (XGCD f ('X + 1)%R) => [[d' a'] b']. rewrite (xgcd_coprime HX E2) c2. cbn [negb].
have [O1 B1] := annihilate_spec (dsfmt_lin Hc) (b * q)%R Hcst. have [O2 B2] := annihilate_spec (dsfmt_lin Hc) b' O1.
have ab := xgcd_one HX E1 c1. have ab' := xgcd_one HX E2 c2.
eexists _, a, b, a', b'; split; [exact: erefl|exact: O2| |exact: ab|exact: ab'].
by rewrite B2 B1.
Qed.
Lemma ds_fix_ok g cst : dsfmt_ok c g -> coprimep f q -> coprimep f ('X + 1)%R -> ds_setConst g = Ret cst ->
  (dsfmt_vec c cst *m poly_mx A (f * q) = 0)%R ->
  exists F, [/\ calc_fixpoint XGCD g f q = Ret (ds_getParity F), dsfmt_ok c F & is_fixpoint A (dsfmt_vec c cst) f q (dsfmt_vec c F)].
Proof.
move=> Hg c1 c2 Ec K. have [F [a [b [a' [b' [E1 E2 EF ab ab']]]]]] := ds_fix_raw Hg c1 c2 Ec. rewrite -pact_mx in K.
exists F; split=> //. rewrite EF. exists (pact A (b * q)%R (dsfmt_vec c cst)), (pact A (a * f)%R (dsfmt_vec c cst)).
have KF := kill_f b K. have ST := fix_step b ab' K.
split; [|by rewrite -pact_mx| |by rewrite -pact_mx /fixc pact_comm KF pact_v0|exact: ST].
- by rewrite -pactD addrC ab pact1.
- by rewrite -pact_mx -(pactM A q) mulrCA [(q * f)%R]mulrC (pactM A a) K pact_v0.
Qed.
End Fix.

(** * The two inner products *)
Lemma odd_F2 m : (m%:R : 'F_2)%R = (if Nat.odd m then 1 else 0)%R.
Proof.
elim: m => [//|m IH]. rewrite mulrS IH Nat.odd_succ -Nat.negb_odd. by case: (Nat.odd m); apply/val_inj.
Qed.
Lemma inner_link x y : ParitySpec.inner 128 x y = (if W128Spec.inner y x then 1 else 0)%R.
Proof.
rewrite /ParitySpec.inner /W128Spec.inner /popcount -odd_F2.
rewrite -[N.to_nat 128]/128%N -(big_mkord xpredT (fun i => (N.testbit x (N.of_nat i) && N.testbit y (N.of_nat i))%:R : 'F_2)%R).
rewrite -[index_iota 0 128]/(List.seq 0 128). elim: (List.seq 0 128) => [|i l IH]; first by rewrite big_nil.
rewrite big_cons IH. cbn [List.filter]. rewrite N.land_spec [(N.testbit y _) && _]andbC.
case: (_ && _); last by rewrite add0r. by cbn [length]; rewrite mulrS.
Qed.

(** * The members that the recursion does not use *)
Section Par2.
Variable c : dsc.
Hypothesis Hc : dsc_ok c.
Variables (fx pr : N).
Notation c' := (with_cert fx pr c).
Lemma cert_ok' : dsc_ok c'.
Proof. by case: Hc => [[? ? ?] ? ? ?]. Qed.
Definition tr (s : dsfmt) : dsfmt := ((c', s.1.2), s.2).
Lemma tr_ok s : dsfmt_ok c s -> dsfmt_ok c' (tr s).
Proof. by move=> [E R W L P]; split. Qed.
Lemma tr_vec s : dsfmt_vec c' (tr s) = dsfmt_vec c s.
Proof. by []. Qed.
Lemma tr_nexts s : ds_nexts c' (tr s) = tr (ds_nexts c s).
Proof. by []. Qed.
Lemma cert_A : dsfmt_A c' = dsfmt_A c.
Proof.
have vg := ds_vg Hc. have vg' := ds_vg cert_ok'.
apply/row_matrixP => i. have [s Hs Es] := vl_sur vg (delta_mx 0%R i).
have E1 := vl_gen_vec vg Hs. have E2 := vl_gen_vec vg' (tr_ok Hs).
rewrite (ds_gen2 Hc Hs) in E1. rewrite (ds_gen2 cert_ok' (tr_ok Hs)) tr_nexts in E2.
rewrite !rowE -Es. apply: etrans E1. exact: (esym E2).
Qed.
End Par2.

(** * The object in use *)
Lemma lo_mod x : lo64 x = x mod 2 ^ 64.
Proof. exact: erefl. Qed.
Lemma hi_div x : hi64 x = x / 2 ^ 64.
Proof. exact: N.shiftr_div_pow2. Qed.
Lemma two_real x : two_doubles x <-> real_word x.
Proof. by rewrite real_halves lo_mod hi_div. Qed.
Section Live.
Variable c : dsc.
Hypothesis Hc : dsc_ok c.
Hypothesis w2 : e_weight c = 2%coqZ.
Notation size := (e_size c).
Notation A := (dsfmt_A c).
Lemma live_real s : ds_live c s <-> ds_real c s.
Proof.
split.
- move=> [E [H1 H2] W [L P]]. have K j : (j < size)%N -> real_word (List.nth j (rr_arr s.1.2) 0).
    by move=> Hj; apply/two_real/W/List.nth_In; rewrite H2; lia.
  split=> //. split; [exact: H1|split; [exact: H2|]] => j. case: (ltnP j size) => Hj; first exact: (real_lt (K j Hj)).
  rewrite List.nth_overflow; [exact: (pow2_pos 128)|rewrite H2; lia].
- move=> [E [H1 [H2 _]] W L P]. split=> // x /(List.In_nth _ _ 0) [j [Hj <-]]. apply/two_real/W. rewrite -H2. lia.
Qed.
Variables (g cst : dsfmt).
Hypothesis Hg : dsfmt_ok c g.
Hypothesis Hcst : ds_setConst g = Ret cst.
Lemma steps_aff k s : ds_real c s -> exists t, [/\ ds_steps k s = Ret t, ds_real c t &
  dsfmt_vec c (strip c t) = aff A (dsfmt_vec c cst) k (dsfmt_vec c (strip c s))].
Proof.
elim: k s => [|k IH] s Hs; first by exists s.
have [x [E _ Hn _]] := real_generate Hc w2 Hs. have [t [Et Ht V]] := IH _ Hn. exists t; split=> //.
- by cbn [ds_steps]; rewrite E.
- by rewrite V (real_affine Hc w2 Hs Hg Hcst) /aff iterSr.
Qed.
Lemma eq_loop_win a b cnt i : (rr_idx a < size)%N -> (rr_idx b < size)%N ->
  ds_eq_loop size cnt i (rr_idx a) (rr_arr a) (rr_idx b) (rr_arr b) = true <->
  forall j, (i <= j < i + cnt)%N -> rr_at size (rr_arr a) (rr_idx a + j) = rr_at size (rr_arr b) (rr_idx b + j).
Proof.
move=> Ha Hb. elim: cnt i => [|m IH] i; cbn [ds_eq_loop].
  by split=> // _ j; rewrite addn0 leqNgt => /andP [] /negPf ->.
case: N.eqb_spec => E.
- rewrite IH. split=> H j Hj; last by apply: H; lia.
  case: (j =P i) => [->//|Nj]. apply: H. lia.
- split=> // H. case: E. apply: H. lia.
Qed.
Lemma equals_strip s t : ds_real c s -> ds_real c t -> ds_equals s t = true -> dsfmt_vec c (strip c s) = dsfmt_vec c (strip c t).
Proof.
move=> Hs Ht. have [Es [Is _] _ Ls _] := Hs. have [Et [It _] _ Lt _] := Ht. have s2 := dc_size Hc.
have Eq : ds_equals s t = true -> ds_lung s = ds_lung t /\ ds_eq_loop size size 0 (rr_idx s.1.2) (rr_arr s.1.2) (rr_idx t.1.2) (rr_arr t.1.2) = true.
  move: Es Et Ls Lt. clear. case: s => [[c1 s] [l q]]. case: t => [[c2 t] [l' q']]. cbn [fst snd ds_lung ds_equals] => -> _ Ls Lt.
  cbn [e_size cH]. case: N.eqb_spec => // E1; case: N.eqb_spec => // E2. cbn [negb orb]. split=> //. by rewrite -[l]join_lohi // -[l']join_lohi // E1 E2.
move/Eq => [EL]. move/eq_loop_win => K. have {}K := K (introT ltP Is) (introT ltP It).
apply/(vl_state (ds_vg Hc)); [exact: strip_ok|exact: strip_ok|].
move=> k Hk. rewrite /ds_view. case: (ltnP k size) => Kk; last by rewrite w2; cbn [strip snd fst ds_lung]; rewrite EL.
rewrite (strip_win0 Hc) // (strip_win0 Hc) //. congr ds_pref_word.
case: (k =P (size - 1)%N) => [->|Nk].
- have := K 0%N. rewrite !addn0 => K0.
  have e s' : (rr_idx s' < size)%coq_nat -> rr_at size (rr_arr s') (rr_idx s') = win size s' (size - 1).
    move=> Hi. rewrite /rr_at /win. have -> : Nat.add (Nat.add (rr_idx s') 1) (size - 1) = Nat.add (rr_idx s') (Nat.mul 1 size) by lia.
    by rewrite Nat.mod_add; lia || by [].
  rewrite -!e //. apply: K0. lia.
- have := K k.+1. have R s' := @at_win size (ltac:(lia)) s' k.+1. rewrite -!plusE !R; try lia.
  have -> : Nat.sub k.+1 1 = k by lia. move=> -> //. lia.
Qed.
End Live.
