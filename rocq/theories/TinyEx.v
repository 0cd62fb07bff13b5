(** TinyMT32 as a family of generators for AlgorithmRecursionAndTempering, the
    loss of the reverse flag in clone(), and concrete cases. *)
From Coq Require Import NArith ZArith Lia List Bool.
From mathcomp Require Import all_ssreflect all_algebra.
From mathcomp Require Import zify.
From Verif Require Import Base WordLemmas WordVec GenModel UtilModel PolyF2 LinSpec LinLemmas LinInst LinOut PeriodSpec PeriodModel
  EquiModel EquiProofs5 EquiProofs6 EquiEx PeriodProofs PeriodProofs2 PeriodProofs4 PeriodProofs5 PeriodProofs7 SequentialModel
  SampleSpec SampleProofs TemperModel TemperSpec RecTemperModel RecTemperSpec RecTemperProofs
  TinyModel TinyDcModel TinyLin TinySpec TinyProofs TinyDcProofs TinyPeriod.
Set Implicit Arguments.
Unset Strict Implicit.
Unset Printing Implicit Defensive.
Import GRing.Theory.
Local Open Scope ring_scope.
Delimit Scope Z_scope with coqZ.
Local Arguments tiny_next : simpl never.
Local Arguments tiny_temper : simpl never.

Lemma tiny_family : family tiny_ops tiny_ok (fun _ => tiny_vec) tiny_A tiny_C tiny_D tiny_legal tiny_setUp 1.
Proof.
split.
- exact: tiny_lin_all.
- exact: tiny_linout.
- by [].
- by move=> th g [E1 E2 P Q]; split; [rewrite E1|].
- move=> g b g' b' _; rewrite /tiny_setUp; case: (sq_getUint32 32 b) => [[num b1]||||] //; cbn [bind] => -[<- _].
  by exists (tm_par (tiny_setUpParam num g), tm_rev g); split; [| |exact: setUp_ok|].
- by [].
Qed.
Lemma tiny_rev_same (g g' : tiny) : tm_st g' = tm_st g -> tm_par g' = tm_par g -> same_recursion tiny_ok tiny_A g g'.
Proof.
move=> E1 E2 th [H1 H2 H3 H4]; exists (th.1, tm_rev g'); split; first by split=> //; rewrite ?E1 ?E2.
by apply: tiny_A_mat.
Qed.
Lemma tempered_same pos fuel veq0 lsb steps g g' : tempered tiny_set (tiny_cost pos fuel veq0) 32 lsb steps g g' ->
  tiny_legal g' -> same_recursion tiny_ok tiny_A g g'.
Proof.
move=> T [L1 L2] th [H1 H2 H3 H4]; have [S1 _ M1 N1 _] := tempered_par T.
by exists (tm_par g', tm_rev g'); split; [split|apply: tiny_A_mat; cbn [fst]; rewrite ?M1 ?N1 H1].
Qed.
Section Tempers.
Variables (pos : N -> res Z) (fuel sfuel : nat) (veq0 : list Z).
Hypothesis Hpos : pos_spec 32 pos.
Hypothesis Hfuel : (17000 <= N.of_nat fuel)%num.
Hypothesis Hveq : (32 <= length veq0)%N.
Hypothesis Hsf : (23 < sfuel)%N.
Lemma same_trans g h k : same_recursion tiny_ok tiny_A g h -> same_recursion tiny_ok tiny_A h k -> same_recursion tiny_ok tiny_A g k.
Proof. move=> H1 H2 th /H1 [th1 [/H2 [th2 [ok2 A2]] A1]]; exists th2; split; [exact: ok2|rewrite A2; exact: A1]. Qed.
Lemma st32_tempers : tempers tiny_ok tiny_A (st32 pos fuel veq0 sfuel).
Proof.
move=> g d g' E th okg; have [E1 E2 P Q] := okg.
have Lg : tiny_legal g by split; [rewrite E1|].
have [g1 [Eg [L1 [R1 T1]]]] := st32_ok Hpos Hfuel Hveq Hsf Lg.
move: E; rewrite Eg => -[_ <-].
exact: (same_trans (@tiny_rev_same g (TM (tm_st g) (tm_par g) false) (erefl _) (erefl _)) (tempered_same T1 L1)).
Qed.
Lemma stlsb32_tempers : tempers tiny_ok tiny_A (stlsb32 pos fuel veq0 sfuel).
Proof.
move=> g d g' E th okg; have [E1 E2 P Q] := okg.
have Lg : tiny_legal g by split; [rewrite E1|].
have Hsf9 : (9 < sfuel)%N by lia.
have [g1 [Eg [L1 [R1 T1]]]] := stlsb32_ok Hpos Hfuel Hveq Hsf9 Lg.
move: E; rewrite Eg => -[_ <-].
exact: (same_trans (@tiny_rev_same g (TM (tm_st g) (tm_par g) false) (erefl _) (erefl _)) (tempered_same T1 L1)).
Qed.
End Tempers.

(** * The reverse flag *)
Lemma clone_keeps g : tm_rev g = false -> tiny_clone g = g.
Proof. by case: g => st p r /= ->. Qed.
Lemma clone_loses : exists g, tiny_legal g /\ (tiny_generate_len 32 (tiny_clone g)).1 <> (tiny_generate_len 32 g).1.
Proof. by exists (TM (0, 0, 0, 1)%num tiny_pub true); split=> //; vm_compute. Qed.
Lemma defect_blind pos fuel veq0 g : tiny_defect pos fuel veq0 (t_setRev tiny_temper_ops g) = tiny_defect pos fuel veq0 g.
Proof. by []. Qed.
(** The reversed output of the generator with tmat = 0 has another defect than
    the one the search uses for it. *)
Definition tiny_raw : tiny_param := TP 0 0x8f7011ee 0xfc78ff1f 0.
Definition keep_ops : temper_ops tiny :=
  {| t_set := tiny_set; t_up := fun g => g; t_setRev := fun g => TM (tm_st g) (tm_par g) true;
     t_resetRev := fun g => TM (tm_st g) (tm_par g) false; t_clone := fun g => g |}.
Lemma rev_measured : tm_get_equidist tiny tiny_ops keep_ops pos32 (N.to_nat 17000) (List.repeat 0%coqZ 32) 32 (TM (0, 0, 0, 1)%num tiny_raw true) = Ret 207%coqZ.
Proof. by vm_compute. Qed.
Lemma rev_measured_pub : tm_get_equidist tiny tiny_ops keep_ops pos32 (N.to_nat 17000) (List.repeat 0%coqZ 32) 32 (TM (0, 0, 0, 1)%num tiny_pub true) = Ret 214%coqZ.
Proof. by vm_compute. Qed.
Lemma raw_measured : tiny_defect pos32 (N.to_nat 17000) (List.repeat 0%coqZ 32) (TM (0, 0, 0, 1)%num tiny_raw true) = Ret 6%coqZ.
Proof. by vm_compute. Qed.
Lemma rev_total_gen fuel veq0 g d : (17000 <= N.of_nat fuel)%num -> (32 <= length veq0)%N -> tiny_legal g ->
  tiny_maximal (tm_par g) -> tiny_vec g != 0 ->
  tm_get_equidist tiny tiny_ops keep_ops pos32 fuel veq0 32 g = Ret d ->
  total_defect (tiny_A (tm_par g, tm_rev g)) (tiny_C (tm_par g, tm_rev g)) 32 d.
Proof.
move=> Hfuel Hveq [P Q] Hm g0 E.
have okg : tiny_ok (tm_par g, tm_rev g) (t_clone keep_ops g) by split.
have Hf : ((4 * 127 + 2) * (N.to_nat (g_width tiny_ops)).+1 <= fuel)%N.
  have -> : N.to_nat (g_width tiny_ops) = 32%N by [].
  by move: Hfuel; lia.
have [|||dims [H1 [H2 E']]] := equidist_ok (T := keep_ops) (L := 32) (tiny_lin_all (tm_par g, tm_rev g)) _ pos32_ok Hf _ _ Hveq okg; try exact: isT.
- by move=> s _.
- by [].
have EA : tiny_A (tm_par g, tm_rev g) = tiny_A (tm_par g, false) by apply: tiny_A_mat.
move: E; rewrite E' => -[<-].
exists dims; split.
- move=> v x Hv x0.
  have F : full_period (tiny_A (tm_par g, tm_rev g)) (tiny_vec g) by rewrite EA; exact: (maxP Hm g0).
  exact: (proj1 (start_maximal (tiny_C (tm_par g, tm_rev g)) v _ F x0) (H1 v Hv)).
- rewrite /defect_of /defect_sum; have -> : List.seq 1 32 = List.map S (List.seq 0 32) by [].
  by rewrite List.map_map; congr (List.fold_right _ _ _).
Qed.
Lemma raw_max : tiny_maximal tiny_raw.
Proof. by apply: (max_eq _ tiny_pub_max); apply: tiny_A_mat. Qed.
Lemma n17 : (17000 <= N.of_nat (N.to_nat 17000))%num. Proof. by rewrite N2Nat.id. Qed.
Lemma start_rev p : p_ok p -> tiny_vec (TM (0, 0, 0, 1)%num p true) != 0.
Proof. exact: start_neq0. Qed.
Lemma rev_total : total_defect (tiny_A (tiny_raw, true)) (tiny_C (tiny_raw, true)) 32 207 /\
                  total_defect (tiny_A (tiny_pub, true)) (tiny_C (tiny_pub, true)) 32 214.
Proof.
split.
- have L : tiny_legal (TM (0, 0, 0, 1)%num tiny_raw true) by [].
  exact: (rev_total_gen n17 (veq0 := List.repeat 0%coqZ 32) isT L raw_max (start_rev (p := tiny_raw) isT) rev_measured).
- have L : tiny_legal (TM (0, 0, 0, 1)%num tiny_pub true) by [].
  exact: (rev_total_gen n17 (veq0 := List.repeat 0%coqZ 32) isT L tiny_pub_max (start_rev (p := tiny_pub) isT) rev_measured_pub).
Qed.

(** * A concrete search *)
Lemma pub_search M pos efuel sfuel ffuel veq0 verbose : minpolyseq_spec M -> pos_spec 32 pos ->
  (17000 <= N.of_nat efuel)%num -> (23 < sfuel)%N -> (32 <= length veq0)%N -> (0x7fffff90 < N.of_nat ffuel)%num ->
  exists r, td_search M pos efuel sfuel ffuel veq0 verbose (tiny_new 0) (sq_make_seed 0 0x7fffff8f) = Ret (true, r) /\
    tp_mat1 (tm_par (rt_rand r)) = 0x8f7011ee%num /\ tp_mat2 (tm_par (rt_rand r)) = 0xfc78ff1f%num.
Proof.
move=> HM Hpos He Hs Hv Hf.
have [k E] : exists k, 0x7fffff8f%num = N.of_nat k by exists (N.to_nat 0x7fffff8f); rewrite N2Nat.id.
have HS : stream (down k.+1) (sq_make_seed 0 0x7fffff8f).
  rewrite E; apply: (stream_down (k := k.+1)); move: E; lia.
have HL : (length (down k.+1) < ffuel)%N by rewrite down_len; lia.
have I0 : inv 0 (tiny_new 0) by [].
have := search_spec HM Hpos He Hs Hv (id := 0) verbose I0 HS HL.
case: (td_search _ _ _ _ _ _ _ _ _) => [[found r]||||]; [|by case| |by case|by case].
- case=> -> [l1 [v [l2 [El _ Hl1 [Hg _] [g0 [g1 [g2 [cost [P1 _ _ [T1 T2] [Ep _ _ _ _]]]]]]]]]].
  exists r; split; first by [].
  have Ev : v = 0x7fffff8f%num.
    move: El; case: l1 Hl1 => [|u l1] Hl1 [Eu _]; first by rewrite -Eu -E.
    case: (Hl1 u); first by left.
    by rewrite -Eu -E; exact: tiny_pub_params.
  have [_ _ M1 N1 _] := tempered_par T1.
  have [_ _ M2 N2 _] := tempered_par T2.
  move: Ep; cbn [tl_par] => ->; rewrite M2 N2 M1 N1 P1 Ev tiny_pub_from; by [].
- move=> H; case: (H 0x7fffff8f%num); last exact: tiny_pub_params.
  by left; rewrite -E.
Qed.

(** * The statements of the properties *)
Lemma land31 a : N.land a 0x7fffffff = (a mod 2 ^ 31)%num.
Proof. exact: (N.land_ones a 31). Qed.
Lemma tiny_state_eq g h : q_ok (tm_st g) -> q_ok (tm_st h) ->
  tiny_vec g = tiny_vec h <->
  let '(a0, a1, a2, a3) := tm_st g in let '(b0, b1, b2, b3) := tm_st h in
  (a0 mod 2 ^ 31 = b0 mod 2 ^ 31 /\ a1 = b1 /\ a2 = b2 /\ a3 = b3)%num.
Proof.
move=> Hg Hh; rewrite (tiny_vec_eq Hg Hh).
case: (tm_st g) => [[[a0 a1] a2] a3]; case: (tm_st h) => [[[b0 b1] b2] b3].
rewrite /q_norm; cbn [fst snd]; rewrite !land31.
by split=> [[-> -> -> ->]|[-> [-> [-> ->]]]].
Qed.
Lemma st32_thm pos fuel veq0 : pos_spec 32 pos -> (17000 <= N.of_nat fuel)%num -> (32 <= length veq0)%N ->
  exists cost, (forall g, tiny_legal g -> tiny_defect_is g (cost g)) /\
  forall f g, (23 < f)%N -> tiny_legal g -> exists g1, st32 pos fuel veq0 f g = Ret (0%coqZ, g1) /\ tiny_legal g1 /\ tm_rev g1 = false /\
    tempered tiny_set cost 32 false (step_list 23 6 1) (TM (tm_st g) (tm_par g) false) g1.
Proof.
move=> H1 H2 H3; exists (tiny_cost pos fuel veq0); split; last by move=> f g; exact: st32_ok.
by move=> g Hg; have [_ [H _]] := tiny_defect_ok H1 H2 H3 Hg.
Qed.
Lemma stlsb32_thm pos fuel veq0 : pos_spec 32 pos -> (17000 <= N.of_nat fuel)%num -> (32 <= length veq0)%N ->
  exists cost, (forall g, tiny_legal g -> tiny_defect_is g (cost g)) /\
  forall f g, (9 < f)%N -> tiny_legal g -> exists g1, stlsb32 pos fuel veq0 f g = Ret (0%coqZ, g1) /\ tiny_legal g1 /\ tm_rev g1 = false /\
    tempered tiny_set cost 32 true (step_list 9 5 1) (TM (tm_st g) (tm_par g) false) g1.
Proof.
move=> H1 H2 H3; exists (tiny_cost pos fuel veq0); split; last by move=> f g; exact: stlsb32_ok.
by move=> g Hg; have [_ [H _]] := tiny_defect_ok H1 H2 H3 Hg.
Qed.
Lemma lsb_defect : exists g d d', tiny_legal g /\ tm_rev g = true /\
  tiny_defect pos32 (N.to_nat 17000) (List.repeat 0%coqZ 32) g = Ret d /\
  total_defect (tiny_A (tm_par g, true)) (tiny_C (tm_par g, true)) 32 d' /\ (d < d')%coqZ.
Proof.
exists (TM (0, 0, 0, 1)%num tiny_raw true), 6%coqZ, 207%coqZ; split; first by [].
split; first by []. split; first exact: raw_measured.
by split; [exact: (proj1 rev_total)|].
Qed.
Lemma published : total_defect (tiny_A (tiny_pub, false)) (tiny_C (tiny_pub, false)) 32 0 /\
  forall q, q_ok q -> q_norm q <> q0 ->
    q_norm (iter (2 ^ 127 - 1) (tiny_next tiny_pub) q) = q_norm q /\
    forall i, (0 < i < 2 ^ 127 - 1)%N -> q_norm (iter i (tiny_next tiny_pub) q) <> q_norm q.
Proof. by split; [exact: tiny_pub_defect|exact: (tiny_period (p := tiny_pub) isT tiny_pub_max)]. Qed.
Lemma params_distinct id id' r r' : (id < 2 ^ 32)%num -> (id' < 2 ^ 32)%num -> (r < 2 ^ 31)%num -> (r' < 2 ^ 31)%num ->
  tp_mat1 (tiny_params id r) = tp_mat1 (tiny_params id' r') -> tp_mat2 (tiny_params id r) = tp_mat2 (tiny_params id' r') ->
  id = id' /\ r = r'.
Proof.
move=> H1 H2 H3 H4 E1 E2.
by have [] := setUp_inj (g := tiny_new id) (g' := tiny_new id') H3 H4 H1 H2 E1 E2.
Qed.
Lemma params_odd id r : N.odd (tp_mat2 (tiny_params id r)) = true.
Proof. exact: setUp_odd. Qed.
Lemma params_top_bit : exists id r r', (r < 2 ^ 32)%num /\ (r' < 2 ^ 32)%num /\ r <> r' /\ tiny_params id r = tiny_params id r'.
Proof. by exists 0%num, 1%num, 0x80000001%num; vm_compute. Qed.
