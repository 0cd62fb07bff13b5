(** TinyMT32: the zero test, invertibility, the parameters, the family of
    generators and the tempering. *)
From Coq Require Import NArith ZArith Lia Bool List.
From mathcomp Require Import all_ssreflect all_algebra.
From mathcomp Require Import zify.
From Verif Require Import Base WordLemmas WordVec UtilModel UtilSpec UtilProofs GenModel LinSpec LinLemmas LinInst LinOut PeriodSpec PeriodProofs5
  SequentialModel TemperModel TemperSpec TemperProofs EquiModel RecTemperProofs TemperEx XorshiftProofs TinyModel TinyLin TinySpec.
Set Implicit Arguments.
Unset Strict Implicit.
Unset Printing Implicit Defensive.
Local Open Scope N_scope.
Delimit Scope Z_scope with coqZ.
Local Arguments q_add : simpl never.
Local Arguments tiny_next : simpl never.
Local Arguments tiny_temper : simpl never.

(** * The zero test *)
Lemma tiny_isZeroE g : tiny_isZero g <-> q_norm (tm_st g) = q0.
Proof.
case: g => [[[[s0 s1] s2] s3] p r]; rewrite /tiny_isZero /q_norm /=; split.
- by case/andP=> /andP[/andP[/N.eqb_eq -> /N.eqb_eq ->] /N.eqb_eq ->] /N.eqb_eq ->.
- by case=> -> -> -> ->.
Qed.
Lemma norm0_bits q i : q_norm q = q0 -> (i < 127)%N -> q_bits q i = false.
Proof.
case: q => [[[s0 s1] s2] s3]; rewrite /q_norm /q_bits /= => -[E0 -> -> ->] Hi; rewrite !N.bits_0.
case: ifP => H; last by case: ifP => // _; case: ifP.
have : N.testbit (N.land s0 0x7fffffff) (N.of_nat i) = false by rewrite E0 N.bits_0.
rewrite N.land_spec mask_bit; have -> : (N.of_nat i <? 31) = true by lia. by rewrite andbT.
Qed.
Lemma tiny_isZero_vec th g : tiny_ok th g -> tiny_isZero g <-> tiny_vec g = 0%R.
Proof.
case=> _ _ _ Q; rewrite tiny_isZeroE -vec_zero; split=> [E i Hi|H]; first exact: norm0_bits.
exact: q_norm0.
Qed.
Lemma tiny_vec_eq g h : q_ok (tm_st g) -> q_ok (tm_st h) ->
  tiny_vec g = tiny_vec h <-> q_norm (tm_st g) = q_norm (tm_st h).
Proof.
move=> Qg Qh; split=> [/rowP E|E].
- apply: q_bits_norm => // i Hi; have := E (Ordinal Hi); rewrite !mxE; exact: f2_inj.
- apply/rowP => i; rewrite !mxE; congr f2; rewrite /tiny_bits.
  have Hn q : q_bits (q_norm q) i = q_bits q i.
    rewrite /q_bits /q_norm /=; case: ifP => // Hi; rewrite N.land_spec mask_bit.
    have -> : (N.of_nat i <? 31) = true by lia.
    by rewrite andbT.
  by rewrite -Hn E Hn.
Qed.

(** * Invertibility *)
Lemma lxor_eq a b : N.lxor a b = 0 -> a = b.
Proof. exact: N.lxor_eq. Qed.
Lemma next_inj0 p q : q_ok q -> q_norm (tiny_next p q) = q0 -> q_norm q = q0.
Proof.
move=> Hq; rewrite tiny_nextE /q_norm; cbn [fst snd] => -[E1 E2 E3 EY].
rewrite EY N.bits_0 /= N.lxor_0_r in E2; rewrite EY N.bits_0 /= N.lxor_0_r in E3.
have EX : tX q = 0 by move: E3; rewrite /tZ EY N.lxor_0_r.
have [H0 H1 H2 H3] := Hq.
have [_ [I _]] := bij_xshl 1 (erefl _).
have [_ [J _]] := bij_xshr 1 (erefl _).
have E0 : N.lxor (N.lxor (N.land q.1.1.1 0x7fffffff) q.1.1.2) q.1.2 = 0.
  apply: I => //; apply: (lxor_lt 32) => //; apply: (lxor_lt 32) => //; exact: land_lt.
have E4 : q.2 = 0 by apply: J => //; move: EY; rewrite /tY EX N.lxor_0_r.
rewrite E2 N.lxor_0_r in E0; move/lxor_eq: E0 => E0.
have E5 : q.1.1.2 = 0 by rewrite -E1 -E0 -N.land_assoc.
by rewrite E2 E4 E5 E0 E5.
Qed.
Lemma tiny_unit th : p_ok th.1 -> (tiny_A th \in unitmx)%R.
Proof.
move=> Pth.
apply/(@trans_unit tiny 127 (tiny_ok th) tiny_bits (tiny_mk th) tiny_add _ _ _ _ tiny_ops).
- by move=> f; split=> //; exact: q_mk_ok.
- by move=> f i Hi; exact: q_bits_mk.
- by move=> s t; exact: tiny_add_ok.
- by move=> s t i _ _ _; rewrite tiny_addE; exact: q_bits_add.
- move=> s t i [E1 _ _ _] [F1 _ _ _] Hi; rewrite tiny_addE /tiny_bits /= E1 F1 next_add. exact: q_bits_add.
- move=> s [E1 _ _ Q] H i Hi; rewrite /tiny_bits /= (next_zero _ (q_norm0 Q H)). exact: q_bits_0.
- move=> s [E1 _ P Q] H i Hi; apply: norm0_bits => //; apply: (next_inj0 (p := tm_par s)) => //.
  by apply: q_norm0 => //; rewrite E1; exact: next_ok.
Qed.

(** * What depends on what *)
Lemma tiny_next_mat p p' q : tp_mat1 p = tp_mat1 p' -> tp_mat2 p = tp_mat2 p' -> tiny_next p q = tiny_next p' q.
Proof. by move=> E1 E2; rewrite !tiny_nextE E1 E2. Qed.
Lemma tiny_A_mat th th' : tp_mat1 th.1 = tp_mat1 th'.1 -> tp_mat2 th.1 = tp_mat2 th'.1 -> tiny_A th = tiny_A th'.
Proof.
move=> E1 E2; apply/matrixP => i j; rewrite !mxE /tiny_bits; congr (_%:R)%R; congr (nat_of_bool (q_bits _ _)).
by exact: (tiny_next_mat _ E1 E2).
Qed.

(** * Output *)
Lemma tiny_full th s : th.2 = false -> tiny_ok th s -> (g_generate_len tiny_ops (Z.of_N 32) s).1 = (g_generate tiny_ops s).1.
Proof.
move=> Er Hs; have L := out_lt Hs; have [E1 E2 _ _] := Hs.
rewrite /= E2 Er; apply: (@word_ext 32) => //; first by apply: land_lt.
move=> i Hi; rewrite N.land_spec.
have -> : wshl 32 (wnot 32 0) (32 - Z.to_N 32) = N.ones 32 by [].
by rewrite N.ones_spec_low ?andbT.
Qed.
Definition tiny_D (th : tiny_th) : nat -> 'cV['F_2]_127 := full_col tiny_ops (tiny_C (th.1, false)).
Lemma tiny_linout th : linear_out tiny_ops (tiny_ok th) tiny_vec (tiny_D th).
Proof.
move=> s p [E1 E2 P Q] Hp.
have Hs' : tiny_ok (th.1, false) (TM (tm_st s) (tm_par s) false) by split.
by have := full_linear (tiny_lin_all (th.1, false)) (erefl _) (fun s => @tiny_full (th.1, false) s (erefl _)) Hs' Hp.
Qed.

(** * Parameters *)
Lemma lor_lt32 a b : a < 2 ^ 32 -> b < 2 ^ 32 -> N.lor a b < 2 ^ 32.
Proof. exact: lor_lt. Qed.
Lemma setUp_ok num g : p_ok (tm_par (tiny_setUpParam num g)).
Proof.
rewrite /tiny_setUpParam; cbn [tm_par]; rewrite /p_ok; cbn [tp_mat1 tp_mat2 tp_tmat].
have A m x k : m < 2 ^ 32 -> N.land (wshl 32 x k) m < 2 ^ 32 by move=> _; apply: (land_lt 32); exact: wshl_lt.
have B x m : m < 2 ^ 32 -> N.land x m < 2 ^ 32 by move=> H; rewrite N.land_comm; exact: (land_lt 32).
apply/and3P; split; apply/N.ltb_lt => //.
- by apply: (lxor_lt 32); [apply: (lor_lt32); [exact: A|exact: B]|apply: shiftr_lt; apply: (lor_lt32); [exact: A|exact: B]].
- apply: (lxor_lt 32) => //; apply: (lxor_lt 32); last exact: wshl_lt. by apply: (lor_lt32); [exact: A|exact: B].
Qed.
(** Lowest bits: the number is determined by what setUpParam makes of it. *)
Definition spread (num : N) : N := wshl 32 (N.lxor (N.lxor num (wshl 32 num 15)) (wshl 32 num 23)) 1.
Lemma spread_lin a b : spread (N.lxor a b) = N.lxor (spread a) (spread b).
Proof.
rewrite /spread -wshl_lin; congr (wshl _ _ _); rewrite !wshl_lin.
by rewrite [X in N.lxor X (N.lxor (wshl 32 a 23) _)]lxor_swap lxor_swap.
Qed.
Lemma spread0 c : c < 2 ^ 31 -> spread c = 0 -> c = 0.
Proof.
move=> Hc E; apply: (@word_ext 31) => // i Hi; rewrite N.bits_0.
have [k Hk] : exists k, (N.to_nat i < k)%N by exists (N.to_nat i).+1.
elim: k i Hi Hk => [//|k IH] i Hi Hk.
have Hk' j : j < i -> N.testbit c j = false by move=> Hj; apply: IH; lia.
have := N.bits_0 (i + 1); rewrite -E /spread wshl_spec !N.lxor_spec !wshl_spec.
have -> : (i + 1 <? 32) = true by lia.
have -> : (1 <=? i + 1) = true by lia.
have -> : i + 1 - 1 = i by lia.
have -> : (i <? 32) = true by lia.
rewrite !andTb.
have -> : (if 15 <=? i then N.testbit c (i - 15) else false) = false by case: N.leb_spec => // H; apply: Hk'; lia.
have -> : (if 23 <=? i then N.testbit c (i - 23) else false) = false by case: N.leb_spec => // H; apply: Hk'; lia.
by rewrite !xorb_false_r.
Qed.

Lemma split_hi a b : N.land (N.lor (N.land a 0xffff0000) (N.land b 0xffff)) 0xffff0000 = N.land a 0xffff0000.
Proof.
rewrite N.land_lor_distr_l -!N.land_assoc N.land_diag.
have -> : N.land 0xffff 0xffff0000 = 0 by []. by rewrite N.land_0_r N.lor_0_r.
Qed.
Lemma split_lo a b : N.land (N.lor (N.land a 0xffff0000) (N.land b 0xffff)) 0xffff = N.land b 0xffff.
Proof.
rewrite N.land_lor_distr_l -!N.land_assoc N.land_diag.
have -> : N.land 0xffff0000 0xffff = 0 by []. by rewrite N.land_0_r N.lor_0_l.
Qed.
Lemma join32 a : a < 2 ^ 32 -> N.lor (N.land a 0xffff0000) (N.land a 0xffff) = a.
Proof.
move=> H; rewrite -N.land_lor_distr_r. have -> : N.lor 0xffff0000 0xffff = N.ones 32 by [].
by rewrite N.land_ones N.mod_small.
Qed.
Lemma setUpE num g : tm_par (tiny_setUpParam num g) =
  let w := spread num in let id := tp_id (tm_par g) in
  let m1 := N.lor (N.land w 0xffff0000) (N.land id 0xffff) in
  let m2 := N.lor (N.land id 0xffff0000) (N.land w 0xffff) in
  TP id (N.lxor m1 (wshr m1 19)) (N.lxor (N.lxor m2 (wshl 32 m2 18)) 1) 0.
Proof. by rewrite /tiny_setUpParam; cbn [tm_par]; cbv zeta; rewrite -/(spread num) (N.lor_comm (N.land (spread num) 0xffff)). Qed.
Lemma half_lt a b : a < 2 ^ 32 -> b < 2 ^ 32 -> N.lor (N.land a 0xffff0000) (N.land b 0xffff) < 2 ^ 32.
Proof. by move=> H1 H2; apply: lor_lt32; apply: (land_lt 32). Qed.
Lemma spread_lt num : spread num < 2 ^ 32.
Proof. exact: wshl_lt. Qed.
(** Different (id, num) give different recursion parameters. *)
Lemma setUp_inj num num' g g' : num < 2 ^ 31 -> num' < 2 ^ 31 -> tp_id (tm_par g) < 2 ^ 32 -> tp_id (tm_par g') < 2 ^ 32 ->
  let p := tm_par (tiny_setUpParam num g) in let p' := tm_par (tiny_setUpParam num' g') in
  tp_mat1 p = tp_mat1 p' -> tp_mat2 p = tp_mat2 p' -> num = num' /\ tp_id (tm_par g) = tp_id (tm_par g').
Proof.
move=> Hn Hn' Hi Hi'; rewrite !setUpE; cbv zeta; cbn [tp_mat1 tp_mat2 tp_id].
move: (tp_id (tm_par g)) (tp_id (tm_par g')) Hi Hi' => id id' Hi Hi' E1 E2.
have [_ [I _]] := bij_xshr 19 (erefl _).
have [_ [J _]] := bij_xshl 18 (erefl _).
have {}E1 := I _ _ (half_lt (spread_lt _) Hi) (half_lt (spread_lt _) Hi') E1.
have {}E2 : N.lor (N.land id 0xffff0000) (N.land (spread num) 0xffff) = N.lor (N.land id' 0xffff0000) (N.land (spread num') 0xffff).
  apply: J; [exact: half_lt Hi (spread_lt _)|exact: half_lt Hi' (spread_lt _)|].
  have := f_equal (fun x => N.lxor x 1) E2. by rewrite !N.lxor_assoc N.lxor_nilpotent !N.lxor_0_r.
split.
- apply: lxor_eq; apply: spread0; first exact: (lxor_lt 31).
  rewrite spread_lin. suff -> : spread num = spread num' by rewrite N.lxor_nilpotent.
  rewrite -(join32 (spread_lt num)) -(join32 (spread_lt num')); congr N.lor.
  + by rewrite -(split_hi (spread num) id) E1 split_hi.
  + by rewrite -(split_lo id (spread num)) E2 split_lo.
- rewrite -(join32 Hi) -(join32 Hi'); congr N.lor.
  + by rewrite -(split_hi id (spread num)) E2 split_hi.
  + by rewrite -(split_lo (spread num) id) E1 split_lo.
Qed.
Lemma setUp_odd num g : N.odd (tp_mat2 (tm_par (tiny_setUpParam num g))).
Proof.
rewrite setUpE; cbv zeta; cbn [tp_mat2]; rewrite -N.bit0_odd !N.lxor_spec N.lor_spec !N.land_spec wshl_spec.
by rewrite /spread wshl_spec /= andbF.
Qed.

(** * Tempering *)
Lemma land_wnot m a : a < 2 ^ 32 -> N.land a (wnot 32 m) = N.ldiff a m.
Proof.
move=> Ha; apply: N.bits_inj => j; rewrite N.land_spec N.ldiff_spec.
case: (N.ltb_spec j 32) => Hj; first by rewrite wnot_spec.
by rewrite (bits_above 32 a).
Qed.

Lemma set_legal m q i g : m < 2 ^ 32 -> tiny_legal g -> tiny_legal (tiny_set m q i g).
Proof.
move=> Hm [/and3P[P1 P2 /N.ltb_lt P3] Q]; split=> //; apply/and3P; split=> //=; apply/N.ltb_lt.
rewrite land_wnot //; apply: lor_lt32.
- apply/lt_pow2_bits => j Hj; by rewrite N.ldiff_spec (bits_above 32).
- by rewrite N.land_comm; exact: (land_lt 32).
Qed.
Definition tiny_view (g : tiny) (j : nat) : N := if (j =? 0)%nat then tp_tmat (tm_par g) else 0.
Definition same_class (g h : tiny) : Prop := tm_par g = tm_par h /\ tm_st g = tm_st h.

Section Cost.
Variables (pos : N -> res Z) (fuel : nat) (veq0 : list Z).
Hypothesis Hpos : pos_spec 32 pos.
Hypothesis Hfuel : 17000 <= N.of_nat fuel.
Hypothesis Hveq : (32 <= length veq0)%N.
Notation defect := (tiny_defect pos fuel veq0).
Definition tiny_cost (g : tiny) : Z := match defect g with Ret d => d | _ => 0%coqZ end.
Lemma tiny_defect_ok g : tiny_legal g -> defect g = Ret (tiny_cost g) /\ tiny_defect_is g (tiny_cost g) /\ (tiny_cost g <= 127 * 32)%coqZ.
Proof.
move=> [P Q].
have Hc : tiny_ok (tm_par g, false) (tiny_clone g) by split.
have Hf : ((4 * 127 + 2) * (N.to_nat (g_width tiny_ops)).+1 <= fuel)%N.
  have -> : N.to_nat (g_width tiny_ops) = 32%N by [].
  by move: Hfuel; lia.
have [//|||dims [H1 [H2 E]]] := equidist_ok (T := tiny_temper_ops) (L := 32) (tiny_lin_all (tm_par g, false)) _ Hpos Hf _ _ Hveq Hc; try by [].
have ED : defect g = Ret (defect_of 127 32 dims) by [].
rewrite /tiny_cost ED; split=> //; split; last by have := @defect_of_le 127%nat 32%nat dims; lia.
exists dims; split; first exact: H1.
rewrite /defect_of /defect_sum; have -> : List.seq 1 32 = List.map S (List.seq 0 32) by [].
rewrite List.map_map; congr (List.fold_right _ _ _).
Qed.
Lemma tiny_cost_same g h : same_class g h -> tiny_cost g = tiny_cost h.
Proof. by move=> [E1 E2]; rewrite /tiny_cost /tiny_defect /tm_get_equidist /= /tiny_clone E1 E2. Qed.
Notation mk := (fun m q i s => t_up tiny_temper_ops (t_set tiny_temper_ops m q i s)).
Lemma tiny_laws : temper_laws mk (fun _ => 127%coqZ) tiny_cost 32 1 tiny_legal.
Proof.
split.
- by move=> m q i s Hm Hs _; exact: set_legal.
- move=> m q q' i s Hm Hs _; have [/and3P[_ _ /N.ltb_lt P3] _] := Hs; have [/and3P[_ _ /N.ltb_lt P3'] _] := set_legal q' i Hm Hs.
  rewrite /= /tiny_set; cbn [tm_st tm_par tm_rev tp_id tp_mat1 tp_mat2 tp_tmat]; congr (TM _ (TP _ _ _ _) _).
  rewrite land_wnot; last exact: P3'. rewrite land_wnot //; exact: mask_over.
- by [].
- by move=> s Hs; have [_ [_ H]] := tiny_defect_ok Hs.
Qed.
Lemma tiny_views : temper_view mk tiny_cost 32 1 tiny_legal tiny_view.
Proof.
split.
- move=> m q [|i] s j Hm [/and3P[_ _ /N.ltb_lt P3] _] Hi; last by lia.
  by case: j => [|j] //; rewrite /tiny_view /= land_wnot.
- move=> m [|i] s Hm [/and3P[_ _ /N.ltb_lt P3] _] Hi; last by lia.
  congr tiny_cost; rewrite /= /tiny_set /tiny_view [(0 =? 0)%nat]/= land_wnot // mask_same.
  by case: s P3 => st [? ? ? ?] r.
Qed.
Lemma tempered_rev lsb steps r s s' : tempered tiny_set tiny_cost 32 lsb steps s s' ->
  tempered tiny_set tiny_cost 32 lsb steps (TM (tm_st s) (tm_par s) r) (TM (tm_st s') (tm_par s') r).
Proof.
elim=> [{}s|p size i m q {}steps {}s {}s' Hm Lm [Hq1 Hq2] _ IH]; first by constructor.
by apply: (@tempered_cons _ _ _ _ _ _ _ _ m q).
Qed.
(** The two searches of the program. *)
Lemma tempered_par cost lsb steps s s' : tempered tiny_set cost 32 lsb steps s s' ->
  [/\ tm_st s' = tm_st s, tp_id (tm_par s') = tp_id (tm_par s), tp_mat1 (tm_par s') = tp_mat1 (tm_par s),
      tp_mat2 (tm_par s') = tp_mat2 (tm_par s) & tm_rev s' = tm_rev s].
Proof. by elim=> [{}s|p size i m q {}steps {}s {}s' Hm Lm _ _ [E1 E2 E3 E4 E5]]. Qed.
Lemma search_ok (lsb : bool) try step f g : (1 <= step <= 30)%N -> (try <= 32)%N -> (try < f)%N -> tiny_legal g ->
  exists g1, pb_call tiny tiny_temper_ops 32 count_bit32 (fun _ => 127%coqZ) defect 32 1 (Z.of_nat try) (Z.of_nat step) lsb f g = Ret (0%coqZ, g1) /\
    tiny_legal g1 /\ tm_rev g1 = false /\ tempered tiny_set tiny_cost 32 lsb (step_list try step 1) (TM (tm_st g) (tm_par g) false) g1.
Proof.
move=> Hs Ht Hf Hg.
have Hd s : tiny_legal s -> defect s = Ret (tiny_cost s) by move=> H; have [] := tiny_defect_ok H.
have Hr s : tiny_legal s -> tiny_legal (t_setRev tiny_temper_ops s) /\ tiny_legal (t_resetRev tiny_temper_ops s) by [].
have Hs1 : (1 <= step)%coq_nat by lia.
have Ht1 : N.of_nat try <= 32 by lia.
have H30 : (Nat.min step try <= 30)%coq_nat by lia.
have Hf1 : (try < f)%coq_nat by lia.
have [s1 [E [L1 T1]]] := @pbp_thm tiny tiny_temper_ops 32 count_bit32 (fun _ => 127%coqZ) defect tiny_cost 1 try step lsb tiny_legal
  tiny_laws Hd Hr count_bit32_ok Hs1 Ht1 f g H30 Hf1 Hg.
exists (TM (tm_st s1) (tm_par s1) false); split; first exact: E.
split=> //; split=> //.
by have := tempered_rev false T1; case: (lsb).
Qed.
Lemma st32_ok f g : (23 < f)%N -> tiny_legal g -> exists g1, st32 pos fuel veq0 f g = Ret (0%coqZ, g1) /\
    tiny_legal g1 /\ tm_rev g1 = false /\ tempered tiny_set tiny_cost 32 false (step_list 23 6 1) (TM (tm_st g) (tm_par g) false) g1.
Proof. by move=> Hf; exact: (@search_ok false 23 6). Qed.
Lemma stlsb32_ok f g : (9 < f)%N -> tiny_legal g -> exists g1, stlsb32 pos fuel veq0 f g = Ret (0%coqZ, g1) /\
    tiny_legal g1 /\ tm_rev g1 = false /\ tempered tiny_set tiny_cost 32 true (step_list 9 5 1) (TM (tm_st g) (tm_par g) false) g1.
Proof. by move=> Hf; exact: (@search_ok true 9 5). Qed.
End Cost.
