(** Class dSFMT in any start mode and weight mode as a mode_gen: array and lung are
    the state, the block kept from the call before is beside them. *)
From Coq Require Import NArith ZArith List Bool Lia.
From mathcomp Require Import all_ssreflect all_algebra.
From mathcomp Require Import zify.
From Verif Require Import Base WordLemmas WordVec UtilModel GenModel PolyF2 LinSpec LinLemmas LinInst LinOut PeriodModel PeriodSpec PolyAct
  PeriodProofs4 ArrayModel ArrayWin ArrayLin ArrayOut ViewLin W128Model W128Spec W128Proofs ParityModel ParitySpec
  DsfmtModel DsfmtLin DsfmtProofs DsfmtPar DsfmtEquiSpec DsfmtEquiProofs SearchLin AnniModel AnniProofs ModeAnni.
Set Implicit Arguments.
Unset Strict Implicit.
Unset Printing Implicit Defensive.
Import GRing.Theory.
Local Open Scope ring_scope.
Delimit Scope Z_scope with coqZ.

Section DsfmtMode.
Variable c : dsc.
Hypothesis Hc : dsc_ok c.
Notation size := (e_size c).
(** The same object in weight mode 2. *)
Definition dc2 : dsc := ds_cfg (e_start c) 2%coqZ c.
Notation n := (dn dc2).
Definition dcast (s : dsfmt) : dsfmt := ((dc2, s.1.2), s.2).
Lemma dc2_ok : dsc_ok dc2. Proof. exact: ds_cfg_ok. Qed.
Let Hc2 := dc2_ok.
Let vg := ds_vg Hc2.
Lemma dnE : n = (size * 104 + 128)%N.
Proof. exact: dn2. Qed.
Lemma dcast_ok s : dsfmt_ok c s -> dsfmt_ok dc2 (dcast s).
Proof. by move=> [E R W L P]; split. Qed.

Definition dm_vec (s : dsfmt) : 'rV['F_2]_n := dsfmt_vec dc2 s.
Definition dm_A : 'M['F_2]_n := dsfmt_A dc2.
Definition dm_col (f : (nat -> N) -> N) (b : nat) : 'cV['F_2]_n := vl_col n (ds_view dc2) (ds_mk dc2) f b.
(** Bit p of the block made by the start mode, of word 0. *)
Definition dm_R (p : nat) : 'cV['F_2]_n := dm_col (vR dc2) p.
Definition dm_word (b : nat) : 'cV['F_2]_n := dm_col (fun a => a 0%N) b.
Definition dm_pb (s : dsfmt) (p : nat) : 'F_2 := (N.testbit (ds_prev s) (N.of_nat p))%:R.
Definition dm_lo (p : nat) : bool := wt2 (e_weight c) || (p < 64)%N.

Lemma dm_colE f b s : vfun size.+2 ds_small f -> dsfmt_ok c s -> (dm_vec s *m dm_col f b) 0 0 = (N.testbit (f (ds_view dc2 s)) (N.of_nat b))%:R.
Proof. by move=> Hf Hs; have := vl_colE vg b Hf (dcast_ok Hs); rewrite /obit. Qed.
Lemma view2 s k : (k <= size)%N -> ds_view c s k = ds_view dc2 s k.
Proof. by move=> Hk; rewrite /ds_view /=; case: ltnP => // L; have -> : k == size by move: Hk L; clear; lia. Qed.
Lemma vL2 s : vL c (ds_view c s) = vL dc2 (ds_view dc2 s).
Proof.
have s2 := dc_size Hc. have q := ds_pos_lt Hc.
rewrite /vL !view2 ?[ds_pos dc2]/(ds_pos c) //; move: s2 q; clear; lia.
Qed.
Lemma vN2 s : vN c (ds_view c s) = vN dc2 (ds_view dc2 s).
Proof. by rewrite /vN vL2 view2. Qed.
Lemma vR2 s : vR c (ds_view c s) = vR dc2 (ds_view dc2 s).
Proof. by rewrite /vR vN2 view2 //; have := dc_size Hc; clear; lia. Qed.
Lemma nexts2 s : dcast (ds_nexts c s) = ds_nexts dc2 (dcast s).
Proof. by rewrite /ds_nexts vL2 vN2 vR2. Qed.
Lemma dm_stepE s : dsfmt_ok c s -> g_generate ds_ops s = (vO c (ds_view c s), ds_nexts c s).
Proof. by move=> Hs; cbn [g_generate ds_ops]; rewrite (ds_generateE Hc). Qed.
Lemma dm_RE s p : dsfmt_ok c s -> (dm_vec s *m dm_R p) 0 0 = (N.testbit (vR c (ds_view c s)) (N.of_nat p))%:R.
Proof. by move=> Hs; rewrite dm_colE ?vR2 //; exact: (vR_vf Hc2). Qed.
Lemma dm_next s : dsfmt_ok c s -> dm_vec (ds_nexts c s) = dm_vec s *m dm_A.
Proof.
move=> Hs. have H2 := dcast_ok Hs. have := vl_gen_vec vg H2. rewrite (ds_gen2 Hc2) // -nexts2. by [].
Qed.
Lemma dm_one g i : dsfmt_ok c g -> (i < n)%N -> exists g', ds_setOneBit i g = Ret g' /\ dsfmt_ok c g' /\ dm_vec g' = ds_e dc2 i.
Proof.
move=> Hg Hi0. have Hi : (i < size * 104 + 128)%N by rewrite -dnE.
have [g' [E H V]] := ds_setOneBit_vec Hc Hg Hi. exists g'; split=> //; split=> //.
apply/rowP => j. have Hj' : (j < size * 104 + 128)%N by rewrite -dnE.
have Hj : (j < dn c)%N by rewrite /dn; apply: leq_trans Hj' _; exact: leq_addr.
have := congr1 (fun x : 'rV_(dn c) => x 0 (Ordinal Hj)) V. rewrite !mxE => E'. apply: etrans E'.
congr (f2 _). rewrite /vl_bits /ds_posn /=.
case: ifP => L; [|rewrite Hj']; cbn [fst snd]; congr N.testbit; rewrite view2 //.
by apply: ltnW; rewrite ltn_divLR.
Qed.
Theorem dm_mode : mode_gen ds_ops ds_par_ops (dsfmt_ok c) dm_vec dm_A dm_R dm_pb dm_lo (ds_e dc2) (ds_Q dc2).
Proof.
have s2 := dc_size Hc. split.
- by [].
- by move=> s Hs; rewrite dm_stepE //; exact: (ds_nexts_ok Hc).
- by move=> s Hs; rewrite dm_stepE //; exact: dm_next.
- move=> s p Hs Hp. rewrite dm_stepE // [in LHS]/= dm_RE // /dm_lo /dm_pb /vO. case W: (wt2 _) => //=.
  rewrite join_bit; last exact: lo64_lt. rewrite lo64_bit.
  case: ltnP => L; first by have -> : (N.of_nat p <? 64)%num by move: L; clear; lia.
  have -> : (N.of_nat p <? 64)%num = false by move: L; clear; lia.
  rewrite /ds_view W. have -> : (size.+1 < size)%N = false by clear; lia. have -> : (size.+1 == size) = false by clear; lia.
  by rewrite hi64_bit (_ : (N.of_nat p - 64 + 64 = N.of_nat p)%num) //; move: L; clear; lia.
- by move=> s p Hs Hp; rewrite dm_stepE // dm_RE.
- by move=> s t Hs Ht; cbn [g_add ds_ops]; rewrite (ds_addE Hs Ht); exact: (ds_addS_ok Hc).
- move=> s t Hs Ht; cbn [g_add ds_ops]; rewrite (ds_addE Hs Ht).
  have := lin_add_abs (vl_lin' vg) (dcast_ok Hs) (dcast_ok Ht). by [].
- move=> s t p Hs Ht Hp; cbn [g_add ds_ops]; rewrite (ds_addE Hs Ht) /dm_pb; cbn [ds_addS ds_prev snd].
  by rewrite N.lxor_spec; case: (N.testbit _ _); case: (N.testbit _ _) => //=; apply/eqP.
- by move=> s Hs; exact: (vg_zero_ok (ds_vg Hc)).
- move=> s Hs; apply/(vl_vec_zero vg (dcast_ok (vg_zero_ok (ds_vg Hc) Hs))) => k Hk.
  have := vg_zero vg (dcast_ok Hs) Hk. have [E _ _ _ _] := Hs. by case: s E {Hs} => [[c' r] l] /= ->.
- move=> [[c' r] l] p Hs Hp; rewrite /dm_pb; cbn [g_setZero ds_ops ds_setZero ds_prev fst snd]. by rewrite N.bits_0.
- by rewrite /dm_lo orbT.
- move=> [[c' s] q] [E _ _ _ _]; apply: etrans (esym dnE). by rewrite /= in E *; rewrite E.
- exact: dm_one.
- have K k : k = (size * 104 + 128)%N -> row_full (\matrix_(i < k) ds_e dc2 i) by move=> ->; exact: (ds_e_full Hc2).
  exact: (K _ dnE).
- by move=> s [_ _ _ L _].
- by move=> s j Hs Hj; exact: (ds_Q_ok (dcast_ok Hs) Hj).
- exact: dsfmt_unit.
Qed.

(** * The words of the sequence *)
Notation cs := (cseq dm_A).
Lemma dm_unit : dm_A \in unitmx. Proof. exact: dsfmt_unit. Qed.
Lemma dm_iter s i : dsfmt_ok c s -> dsfmt_ok c (ds_it c s i) /\ st dm_A i (dm_vec s) = dm_vec (ds_it c s i).
Proof.
move=> Hs; elim: i => [//|i [H IH]]. rewrite /ds_it iterS -/(ds_it c s i). split; first exact: (ds_nexts_ok Hc).
by rewrite dm_next // -IH /st iterS.
Qed.
Lemma dm_bitW s b i : dsfmt_ok c s -> cs (dm_vec s) (dm_word b) i = (N.testbit (ds_W c s i) (N.of_nat b))%:R.
Proof.
move=> Hs. have [H E] := dm_iter i Hs. have s2 := dc_size Hc. have z0 : (0 < size)%N by move: s2; clear; lia.
have Vf : vfun size.+2 ds_small (fun a : nat -> N => a 0%N) by split=> [a b' _ _|a b' E'] //; apply: E'.
rewrite /cseq E dm_colE //. by rewrite view_arr // /ds_W.
Qed.
(** The bit of the word that bit p of the block is. *)
Definition dm_pos (p : nat) : nat := if (e_start c =? 0)%coqZ then p else ((p + 64) %% 128)%N.
Definition dm_lag (p : nat) : nat := if (e_start c =? 0)%coqZ || (64 <= p)%N then size else (size - 1)%N.
Lemma dm_bitR s p i : dsfmt_ok c s -> (p < 128)%N -> cs (dm_vec s) (dm_R p) i = (N.testbit (ds_W c s (i + dm_lag p)) (N.of_nat (dm_pos p)))%:R.
Proof.
move=> Hs Hp. have [H E] := dm_iter i Hs. have s2 := dc_size Hc.
have z1 : (size - 1 < size)%N by move: s2; clear; lia.
rewrite /cseq E dm_RE // /vR view_arr // (ds_it_win Hc) //.
have -> : vN c (ds_view c (ds_it c s i)) = ds_W c s (i + size)%N.
  rewrite (ds_W_rec Hc i Hs) ds_U_rec // /vN /vL view_lung !view_arr; try (move: s2 (ds_pos_lt Hc); clear; lia).
  by rewrite !(ds_it_win Hc) ?addn0 //; move: s2 (ds_pos_lt Hc); clear; lia.
rewrite /ds_start /dm_pos /dm_lag.
have J : (N.testbit (join (hi64 (ds_W c s (i + (size - 1))%N)) (lo64 (ds_W c s (i + size)%N))) (N.of_nat p))%:R =
    (N.testbit (ds_W c s (i + (if 64 <= p then size else size - 1))%N) (N.of_nat ((p + 64) %% 128)%N))%:R :> 'F_2.
  rewrite join_bit; last by apply: hi64_lt; apply: w52_lt; exact: (ds_W_52 Hc).
  case: (leqP 64 p) => L.
    have -> : (N.of_nat p <? 64)%num = false by move: L; clear; lia.
    rewrite lo64_bit. have -> : (N.of_nat p - 64 <? 64)%num by move: L Hp; clear; lia.
    rewrite (_ : N.of_nat ((p + 64) %% 128) = N.of_nat p - 64)%num //.
    rewrite (_ : p + 64 = p - 64 + 128)%N; last by move: L; clear; lia. rewrite modnDr modn_small; move: L Hp; clear; lia.
  have -> : (N.of_nat p <? 64)%num by move: L; clear; lia.
  rewrite hi64_bit modn_small; last by move: L; clear; lia. by rewrite (_ : N.of_nat (p + 64) = N.of_nat p + 64)%num //; clear; lia.
by case: (e_start c) => [|q|q]; rewrite /= -?J //.
Qed.
Lemma dm_R_min s p mu : dsfmt_ok c s -> (p < 128)%N ->
  is_minpoly (cs (dm_vec s) (dm_R p)) mu <-> is_minpoly (cs (dm_vec s) (dm_word (dm_pos p))) mu.
Proof.
move=> Hs Hp. rewrite -(cs_min dm_unit (dm_vec s) (dm_word (dm_pos p)) (dm_lag p) mu).
have E i : cs (dm_vec s) (dm_R p) i = cs (st dm_A (dm_lag p) (dm_vec s)) (dm_word (dm_pos p)) i.
  by rewrite dm_bitR // -dm_bitW // /cseq -st_add addnC.
by split; apply: cs_ext => i; rewrite E.
Qed.
Notation mD' := (mD dm_A dm_R dm_lo).
Lemma dm_mD_min s p mu : dsfmt_ok c s -> (p < 128)%N ->
  is_minpoly (cs (dm_vec s) (mD' p)) mu <-> is_minpoly (cs (dm_vec s) (dm_word (dm_pos p))) mu.
Proof.
move=> Hs Hp; rewrite -dm_R_min // /mD; case: (dm_lo p) => //.
by rewrite -(cs_minA dm_unit (dm_vec s) (invmx dm_A *m dm_R p) mu) mulmxA mulmxV ?mul1mx //; exact: dm_unit.
Qed.
End DsfmtMode.
