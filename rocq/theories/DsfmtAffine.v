(** The class dSFMT with the prefix 0x3ff: it is affine; setConst computes the
    constant, calc_fixpoint a fixed point. *)
From Coq Require Import NArith ZArith Lia Bool List.
From mathcomp Require Import all_ssreflect all_algebra.
From mathcomp Require Import zify.
From Verif Require Import Base WordLemmas WordVec UtilModel UtilSpec UtilProofs GenModel PolyF2 LinSpec LinLemmas PolyAct PeriodModel PeriodSpec PeriodProofs4 XorshiftProofs TinyLin
  ArrayModel ArrayWin ArrayLin ArrayOut MtdcLin W128Model W128Spec W128Proofs W128Cert ParityModel
  SfmtModel SfmtLin ViewLin DsfmtModel DsfmtLin DsfmtProofs DsfmtPar DsfmtFixModel AffineFix.
Set Implicit Arguments.
Unset Strict Implicit.
Unset Printing Implicit Defensive.
Import GRing.Theory.
Local Open Scope N_scope.
Delimit Scope Z_scope with coqZ.

(** The word with the prefix in both halves. *)
Definition HH : N := join ds_high ds_high.
Definition m52 (x : N) : N := N.land x 0xfffffffffffff.
Lemma m52_bit x i : N.testbit (m52 x) i = (i <? 52) && N.testbit x i.
Proof.
rewrite /m52 N.land_spec (_ : 0xfffffffffffff = N.ones 52) // andbC. congr andb.
case: N.ltb_spec => L; [exact: N.ones_spec_low|exact: N.ones_spec_high].
Qed.
Lemma m52_small x : x < 2 ^ 52 -> m52 x = x.
Proof. by move=> H; rewrite /m52 (_ : 0xfffffffffffff = N.ones 52) // N.land_ones N.mod_small. Qed.
Lemma m52_add x y : m52 (N.lxor x y) = N.lxor (m52 x) (m52 y).
Proof. exact: land_lin. Qed.
Lemma high_bit i : N.testbit ds_high i = (52 <=? i) && (i <? 62).
Proof.
rewrite (_ : ds_high = N.shiftl (N.ones 10) 52) //. case: N.leb_spec => L.
- rewrite N.shiftl_spec_high' //. case: N.ltb_spec => M; [apply: N.ones_spec_low|apply: N.ones_spec_high]; lia.
- by rewrite N.shiftl_spec_low.
Qed.
Lemma m52_high : m52 ds_high = 0. Proof. by []. Qed.
Lemma lor_high x : N.lor (m52 x) ds_high = N.lxor (m52 x) ds_high.
Proof.
apply: N.bits_inj => i. rewrite N.lor_spec N.lxor_spec m52_bit high_bit.
case: N.ltb_spec => L; case: N.leb_spec => M; try lia; by case: (N.testbit x i); case: (_ <? _).
Qed.
Lemma pref0E x : ds_pref_word 0 x = join (m52 (lo64 x)) (m52 (hi64 x)).
Proof. by []. Qed.
Lemma m52_lt64 x : m52 x < 2 ^ 64.
Proof. apply: lt52_64. exact: land52. Qed.
Lemma prefHE x : ds_pref_word ds_high x = N.lxor (ds_pref_word 0 x) HH.
Proof.
rewrite pref0E /HH -join_add //; last exact: m52_lt64. rewrite -!lor_high. by [].
Qed.
Lemma pref0_add x y : ds_pref_word 0 (N.lxor x y) = N.lxor (ds_pref_word 0 x) (ds_pref_word 0 y).
Proof. rewrite !pref0E lo64_add hi64_add !m52_add join_add //; exact: m52_lt64. Qed.
Lemma pref0_H : ds_pref_word 0 HH = 0. Proof. by []. Qed.
Lemma pref0_small x : w52 x -> ds_pref_word 0 x = x.
Proof. by move=> [A B]; rewrite pref0E !m52_small // join_lohi. Qed.
Lemma HH_lt : HH < 2 ^ 128. Proof. by []. Qed.
(** Words with the prefix. *)
Definition real_word (x : N) : Prop := exists2 w, w52 w & x = N.lxor w HH.
Lemma real_pref x : real_word x <-> ds_pref_word ds_high x = x.
Proof.
split=> [[w W ->]|E]; first by rewrite prefHE pref0_add pref0_H N.lxor_0_r pref0_small.
exists (ds_pref_word 0 x); [exact: pref0_52|by rewrite -prefHE].
Qed.
Lemma real_lt x : real_word x -> x < 2 ^ 128.
Proof. move=> [w W ->]. apply: (lxor_lt 128); [exact: w52_lt|exact: HH_lt]. Qed.
Lemma real_strip x : real_word x -> x = N.lxor (ds_pref_word 0 x) HH.
Proof. by move/real_pref => E; rewrite -prefHE. Qed.
(** Each half is a number between 0x3ff0... and 0x3fff...: as an IEEE double it
    is in [1, 2). *)
Lemma real_halves x : real_word x <-> x < 2 ^ 128 /\ N.shiftr (lo64 x) 52 = 0x3ff /\ N.shiftr (hi64 x) 52 = 0x3ff.
Proof.
have SB y : y < 2 ^ 52 -> N.shiftr (N.lxor y ds_high) 52 = 0x3ff.
  move=> Hy. rewrite N.shiftr_lxor (_ : N.shiftr y 52 = 0) //. apply: N.bits_inj => i. rewrite N.bits_0 N.shiftr_spec'. apply: (bits_above 52) => //. lia.
split=> [R|[L [E1 E2]]].
- split; first exact: real_lt. have [w [W1 W2] ->] := R. rewrite lo64_add hi64_add /HH lo_join // hi_join //. by split; exact: SB.
- apply/real_pref. rewrite prefHE pref0E -[RHS]join_lohi /HH -join_add //; last exact: m52_lt64.
  have K y : N.shiftr y 52 = 0x3ff -> N.lxor (m52 y) ds_high = y.
    move=> E. apply: N.bits_inj => i. rewrite N.lxor_spec m52_bit high_bit. case: (N.ltb_spec i 52) => M.
    + have -> : (52 <=? i) = false by lia. by rewrite xorb_false_r.
    + have -> : (52 <=? i) by lia. rewrite andTb xorb_false_l.
      have -> : N.testbit y i = N.testbit (N.shiftr y 52) (i - 52) by rewrite N.shiftr_spec'; congr N.testbit; lia.
      rewrite E (_ : 0x3ff = N.ones 10) //. case: N.ltb_spec => Q; symmetry; [apply: N.ones_spec_low|apply: N.ones_spec_high]; lia.
  by rewrite !K.
Qed.

Section Real.
Variable c : dsc.
Hypothesis Hc : dsc_ok c.
Hypothesis w2 : e_weight c = 2%coqZ.
Notation size := (e_size c).
Notation p := (e_par c).
Let vg := ds_vg Hc.
(** The same object with the prefix. *)
Definition cH : dsc := DSC p size (e_start c) (e_weight c) ds_high (e_fixed c) (e_fixedSL1 c).
Definition ds_real (s : dsfmt) : Prop :=
  [/\ s.1.1 = cH, rr_ok 128 size s.1.2, forall j, (j < size)%N -> real_word (List.nth j (rr_arr s.1.2) 0), ds_lung s < 2 ^ 128 &
      ds_prev s < 2 ^ 128].
(** Its state without the prefix. *)
Definition strip (s : dsfmt) : dsfmt := ((c, RR (rr_idx s.1.2) (List.map (ds_pref_word 0) (rr_arr s.1.2))), (ds_lung s, 0)).
Lemma strip_ok s : ds_real s -> dsfmt_ok c (strip s).
Proof.
move=> [E R W L _]. have [Hi [Hl _]] := R. have s2 := dc_size Hc.
have W5 j : w52 (List.nth j (List.map (ds_pref_word 0) (rr_arr s.1.2)) 0).
  case: (Nat.ltb_spec j size) => K; first by rewrite nth_map_pref ?Hl //; exact: pref0_52.
  rewrite List.nth_overflow; [exact: w52_0|by rewrite List.map_length Hl].
split; cbn [strip fst snd ds_lung ds_prev]; [by []| |exact: W5|exact: L|exact: w52_0].
split; cbn [rr_idx rr_arr]; first exact: Hi. split; first by rewrite List.map_length.
move=> j. exact: w52_lt.
Qed.
Lemma real_win s k : ds_real s -> real_word (win size s.1.2 k).
Proof. move=> [_ _ W _ _]. have s2 := dc_size Hc. apply: W. have := Nat.mod_upper_bound (rr_idx s.1.2 + 1 + k) size. lia. Qed.
Lemma strip_win s k : ds_real s -> win size s.1.2 k = N.lxor (win size (strip s).1.2 k) HH.
Proof.
move=> Hs. have [_ [Hi [Hl _]] _ _ _] := Hs. have s2 := dc_size Hc. have R := real_win k Hs. rewrite {1}(real_strip R).
rewrite /win; cbn [strip fst snd rr_idx rr_arr]. rewrite nth_map_pref // Hl. apply: Nat.mod_upper_bound. lia.
Qed.
Lemma strip_win0 s k : ds_real s -> win size (strip s).1.2 k = ds_pref_word 0 (win size s.1.2 k).
Proof.
move=> Hs. have [_ [Hi [Hl _]] _ _ _] := Hs. have s2 := dc_size Hc.
rewrite /win; cbn [strip fst snd rr_idx rr_arr]. rewrite nth_map_pref // Hl. apply: Nat.mod_upper_bound. lia.
Qed.
(** The constant: lung and word made from a state whose words are the prefix. *)
Definition kL : N := dlung p HH HH 0.
Definition kN : N := dnew p 0 kL.
Lemma kL_lt : kL < 2 ^ 128.
Proof. apply: dlung_lt; [exact: HH_lt|exact: (pow2_pos 128)]. Qed.
Lemma kN_52 : w52 kN.
Proof. apply: dnew_52; [exact: (dc_par Hc)|exact: w52_0|exact: kL_lt]. Qed.
Lemma kNE : dnew p HH kL = N.lxor kN HH.
Proof. have := dnew_add p 0 kL HH 0. by rewrite N.lxor_0_l N.lxor_0_r dnew_0. Qed.
(** One step of the object with the prefix. *)
Definition realL (s : dsfmt) : N := N.lxor (vL c (ds_view c (strip s))) kL.
Definition realN (s : dsfmt) : N := N.lxor (N.lxor (vN c (ds_view c (strip s))) kN) HH.
Definition real_next (s : dsfmt) : dsfmt :=
  ((cH, rr_push size s.1.2 (realN s)), (realL s, ds_start (e_start c) (win size s.1.2 (size - 1)) (realN s))).
Lemma realLE s : ds_real s -> dlung p (win size s.1.2 0) (win size s.1.2 (ds_pos c)) (ds_lung s) = realL s.
Proof.
move=> Hs. have [_ _ _ L _] := Hs. have s2 := dc_size Hc. have q := ds_pos_lt Hc.
rewrite (strip_win 0 Hs) (strip_win (ds_pos c) Hs) -{1}[ds_lung s]N.lxor_0_r.
rewrite (dlung_add p _ _ _ _ L (pow2_pos 128)) /realL /vL view_lung.
rewrite (@view_arr c _ 0) ?(@view_arr c _ (ds_pos c)); [by []|exact: q|lia].
Qed.
Lemma realNE s : ds_real s -> dnew p (win size s.1.2 0) (realL s) = realN s.
Proof.
move=> Hs. have s2 := dc_size Hc. rewrite (strip_win 0 Hs) /realL dnew_add kNE /realN /vN view_arr; last lia. by rewrite N.lxor_assoc.
Qed.
Lemma vN_strip52 s : ds_real s -> w52 (N.lxor (vN c (ds_view c (strip s))) kN).
Proof. move=> Hs. apply: w52_add; [exact: (vN_52 Hc (strip_ok Hs))|exact: kN_52]. Qed.
Lemma realN_word s : ds_real s -> real_word (realN s).
Proof. move=> Hs. exists (N.lxor (vN c (ds_view c (strip s))) kN); [exact: vN_strip52|by []]. Qed.
Lemma realL_lt s : ds_real s -> realL s < 2 ^ 128.
Proof. move=> Hs. have S := ds_small_view (strip_ok Hs). apply: (lxor_lt 128); [exact: vL_lt|exact: kL_lt]. Qed.
Lemma start_real x y : real_word x -> real_word y -> real_word (ds_start (e_start c) x y).
Proof.
move=> /real_halves [X [X1 X2]] Hy. have [Y [Y1 Y2]] := (proj1 (real_halves y) Hy).
have J : real_word (join (hi64 x) (lo64 y)).
  have Hx := hi64_lt X. apply/real_halves; split; first by apply: join_lt => //; exact: lo64_lt.
  by rewrite lo_join // hi_join.
by rewrite /ds_start; case: (e_start c).
Qed.
Lemma real_generate s : ds_real s -> exists x, [/\ ds_generate s = Ret (x, real_next s), real_word x, ds_real (real_next s) &
  x = ds_start (e_start c) (win size s.1.2 (size - 1)) (realN s)].
Proof.
move=> Hs. have s2 := dc_size Hc. have s0 : (0 < size)%coq_nat by lia. have LE := realLE Hs. have NE := realNE Hs. have RN := realN_word Hs. have RL := realL_lt Hs.
have RW := @real_win s (size - 1) Hs. have [E R W L P] := Hs. have RS := start_real RW RN. have [Hi [Hl _]] := R.
exists (ds_start (e_start c) (win size s.1.2 (size - 1)) (realN s)); split=> //.
- case: s E R L P LE NE {Hs W RS RW RL} RN Hi Hl => [[c' s] [l q]]. cbn [fst snd ds_lung ds_prev] => -> R L P LE NE RN Hi Hl.
  rewrite /ds_generate. cbn [e_size cH].
  have -> : ds_next_state cH s l = ds_next_state c s l by [].
  rewrite (ds_nextE Hc R L) LE NE. cbn [bind]. set x := realN _ in RN NE *.
  have Hx : x < 2 ^ 128 := real_lt RN.
  set s' := rr_push _ _ _. have Hs' : rr_ok 128 size s' by apply: push_ok. have [I' [L' W']] := Hs'.
  have -> : (Z.of_nat (rr_idx s') + Z.of_nat size - 1)%coqZ = Z.of_nat (Nat.add (rr_idx s') (size - 1)) by lia.
  rewrite !sf_atE //; try lia. cbn [bind].
  have E1 : rr_at size (rr_arr s') (Nat.add (rr_idx s') (size - 1)) = win size s (size - 1).
    rewrite at_win; [|lia|lia|lia]. rewrite (win_push 128) //; try lia.
    case: Nat.eqb_spec => // K; first lia. congr win. lia.
  have E2 : rr_at size (rr_arr s') (rr_idx s') = x.
    have := @at_win size _ s' size. rewrite (win_push 128) //; try lia. rewrite Nat.eqb_refl => <-; [|lia|lia|lia].
    rewrite /rr_at. have -> : Nat.add (rr_idx s') size = Nat.add (rr_idx s') (Nat.mul 1 size) by lia. by rewrite Nat.mod_add //; lia.
  rewrite E1 E2 weightE2. cbn [e_weight e_start cH]. by rewrite w2.
- split; cbn [real_next fst snd ds_lung ds_prev]; [by []| | |exact: RL|exact: (real_lt RS)].
  + apply: push_ok => //. exact: real_lt.
  + move=> j Hj. rewrite /rr_push. cbn [rr_arr]. rewrite nth_put; last by rewrite Hl; apply: Nat.mod_upper_bound; lia.
    by case: Nat.eqb_spec => // _; exact: W.
Qed.
Lemma strip_next_view s k : ds_real s -> (k < size.+2)%N ->
  ds_view c (strip (real_next s)) k = N.lxor (vF c k (ds_view c (strip s))) (if k == (size - 1)%N then kN else if k == size then kL else 0).
Proof.
move=> Hs Hk. have s2 := dc_size Hc. have s0 : (0 < size)%coq_nat by lia. have [x [_ _ Hn _]] := real_generate Hs.
have [E R W L P] := Hs. have RN := realN_word Hs.
case: (ltnP k size) => K.
- rewrite view_arr // strip_win0 //. cbn [real_next fst snd]. rewrite (win_push 128) //; [|lia].
  rewrite /vF. case: Nat.eqb_spec => M.
  + have Ek : k = (size - 1)%N by lia. rewrite Ek ltnn eqxx. have -> : (size - 1 < size)%N by lia.
    rewrite /realN pref0_add pref0_H N.lxor_0_r pref0_small //. exact: vN_strip52.
  + have -> : (k < size - 1)%N by lia. have -> : (k == (size - 1)%N) = false by lia. have -> : (k == size) = false by lia.
    rewrite N.lxor_0_r view_arr; last lia. by rewrite strip_win0.
- have -> : (k == (size - 1)%N) = false by lia. rewrite /vF. have -> : (k < size - 1)%N = false by lia. have -> : (k < size)%N = false by lia.
  case: eqP => M; first by rewrite M view_lung.
  rewrite /ds_view. have -> : (k < size)%N = false by lia. have -> : (k == size) = false by lia. by rewrite w2.
Qed.
(** * setConst *)
Lemma map_repeat (f : N -> N) x m : List.map f (List.repeat x m) = List.repeat (f x) m.
Proof. by elim: m => [//|m IH] /=; rewrite IH. Qed.
Lemma nth_repeatk x m j : (j < m)%N -> List.nth j (List.repeat x m) 0 = x.
Proof. by elim: m j => [|m IH] [|j] //= Hj; exact: IH. Qed.
Lemma ds_setConst_ok g : dsfmt_ok c g -> exists g', [/\ ds_setConst g = Ret g', dsfmt_ok c g' &
  forall k, (k < size.+2)%N -> ds_view c g' k = if k == (size - 1)%N then kN else if k == size then kL else 0].
Proof.
case: g => [[c' s] [l q]] [E _ _ _ _]. cbn [fst] in E. rewrite {c'}E /ds_setConst. have s2 := dc_size Hc. have s0 : (0 < size)%coq_nat by lia.
cbn [ds_setZero ds_setPrefix ds_setup_prefix fst snd ds_lung ds_prev e_prefix e_size rr_idx rr_arr].
rewrite map_repeat. have -> : ds_pref_word ds_high 0 = HH by []. set r0 := RR 0 _.
have R0 : rr_ok 128 size r0.
  split; cbn [r0 rr_idx rr_arr]; first lia. split; first exact: List.repeat_length.
  move=> i. case: (ltnP i size) => K; first by rewrite nth_repeatk. rewrite List.nth_overflow; first exact: (pow2_pos 128). rewrite List.repeat_length. lia.
have W0 k : win size r0 k = HH.
  rewrite /win. cbn [r0 rr_idx rr_arr]. apply: nth_repeatk. have := Nat.mod_upper_bound (Nat.add (Nat.add 0 1) k) size. lia.
rewrite -/cH. have -> : ds_next_state cH r0 0 = ds_next_state c r0 0 by [].
rewrite (ds_nextE Hc R0 (pow2_pos 128)) !W0 -/kL kNE. cbn [bind]. 
set r1 := rr_push size r0 _. have LX : N.lxor kN HH < 2 ^ 128 by apply: (lxor_lt 128); [exact: (w52_lt kN_52)|exact: HH_lt].
have R1 : rr_ok 128 size r1 by apply: push_ok.
have W1 k : (k < size)%N -> win size r1 k = if k == (size - 1)%N then N.lxor kN HH else HH.
  move=> Hk. rewrite /r1 (win_push 128) //; last lia. case: Nat.eqb_spec => M; first by have -> : k == (size - 1)%N by lia.
  have -> : (k == (size - 1)%N) = false by lia. exact: W0.
eexists; split; first exact: erefl.
all: cbn [ds_add ds_setPrefix ds_lung ds_prev fst snd cH e_par e_size e_start e_weight e_prefix e_fixed e_fixedSL1].
all: have Z : w_of 0 = W128 0 0 by [].
all: have [V1 V1'] := w_of_ok kL_lt; have [V2 V2'] := w_of_ok (pow2_pos 128); have [_ EL'] := w_xor_ok _ _ V2 V1; have EL : wval (w_xor (w_of 0) (w_of kL)) = kL.
1,3: by apply: (etrans EL'); apply: V1'.
all: have EX := xor_ok 128 size s0 _ _ R0 R1.
all: have WX k : (k < size)%N -> win size (rr_xor size r0 r1) k = if k == (size - 1)%N then kN else 0.
1,3: move=> Hk; rewrite (win_xor 128 size s0 _ _ _ R0 R1) ?W0 ?W1 //; [|lia]; case: eqP => _; [by rewrite N.lxor_comm N.lxor_assoc N.lxor_nilpotent N.lxor_0_r|exact: N.lxor_nilpotent].
- have Ec : DSC p size (e_start c) (e_weight c) 0 (e_fixed c) (e_fixedSL1 c) = c by rewrite -(dc_pre Hc); case: (c).
  have [Hi [Hl _]] := EX.
  split; cbn [fst snd ds_lung ds_prev]; [exact: Ec|exact: EX| |rewrite EL; exact: kL_lt|exact: w52_0].
  move=> j. case: (ltnP j size) => K; last by rewrite List.nth_overflow; [exact: w52_0|rewrite Hl; lia].
  have [k Hk ->] : exists2 k, (k < size)%N & j = Nat.modulo (rr_idx (rr_xor size r0 r1) + 1 + k) size.
    exists (Nat.modulo (j + (size - 1)) size); first by have := Nat.mod_upper_bound (Nat.add j (size - 1)) size; lia.
    cbn [rr_xor rr_idx r0]. rewrite Nat.add_mod_idemp_r; last lia.
    have -> : Nat.add (Nat.add 0 1) (Nat.add j (size - 1)) = Nat.add j (Nat.mul 1 size) by lia.
    rewrite Nat.mod_add; last lia. rewrite Nat.mod_small; lia.
  have := WX k Hk. rewrite /win => ->. case: eqP => _; [exact: kN_52|exact: w52_0].
- move=> k Hk. rewrite /ds_view. cbn [fst snd ds_lung ds_prev].
  case: (ltnP k size) => K; first by rewrite WX //; case: eqP => // _; have -> : (k == size) = false by lia.
  have -> : (k == (size - 1)%N) = false by lia. rewrite EL. case: eqP => // _. by rewrite w2.
Qed.
(** One step is affine, with the constant of setConst. *)
Lemma real_affine s g g' : ds_real s -> dsfmt_ok c g -> ds_setConst g = Ret g' ->
  dsfmt_vec c (strip (real_next s)) = (dsfmt_vec c (strip s) *m dsfmt_A c + dsfmt_vec c g')%R.
Proof.
move=> Hs Hg E. have [h [E' Hh V]] := ds_setConst_ok Hg. move: E; rewrite E' => -[<-] {g'}.
have Hss := strip_ok Hs. have [x [_ _ Hn _]] := real_generate Hs.
have HN := ds_nexts_ok Hc Hss. rewrite -(vl_gen_vec vg Hss) (ds_gen2 Hc Hss).
rewrite -(lin_add_abs (dsfmt_lin Hc) HN Hh). cbn [g_add ds_ops]. rewrite (ds_addE HN Hh).
apply/(vl_state vg); [exact: strip_ok|exact: (ds_addS_ok Hc)|].
move=> k Hk. rewrite strip_next_view // (ds_addS_view Hc HN Hh Hk) (ds_nexts_view Hc Hss Hk) V //.
Qed.
End Real.
