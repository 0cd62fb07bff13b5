(** TinyMT32 of test/: the floating point functions, the class Tiny32 and the
    program test_equidist. *)
From Coq Require Import NArith ZArith List Bool QArith Lia Lqa.
From mathcomp Require Import all_ssreflect all_algebra.
From mathcomp Require Import zify.
From Verif Require Import Base WordLemmas WordVec GenModel UtilModel LinSpec LinLemmas PeriodSpec EquiModel EquiProofs5 TemperModel TemperSpec
  RecTemperModel RecTemperProofs SampleSpec TinyModel TinyLin TinySpec TinyProofs TinyDcProofs TinyPeriod TmtModel TmtSpec TmtProofs.
Set Implicit Arguments.
Unset Strict Implicit.
Unset Printing Implicit Defensive.
Local Open Scope N_scope.
Delimit Scope Z_scope with coqZ.
Delimit Scope Q_scope with coqQ.
Local Arguments Nat.iter : simpl never.
Local Notation "a =q b" := (Qeq a b) (at level 70) : Q_scope.

(** * Floating point *)
Lemma convE one lin t : tmt_conv one lin t = f32_bits (N.lor (wshr (tmt_temper lin t) 9) one).
Proof. by rewrite /tmt_conv /tmt_temper; case: negb. Qed.
Lemma temper_lt lin t : words_ok t -> tmt_temper lin t < 2 ^ 32.
Proof.
move=> /ok_iff[Q /and3P[_ _ /N.ltb_lt P]].
have T1 : tmt_t1 lin t < 2 ^ 32.
  rewrite /tmt_t1; case: lin; last exact: wadd_lt.
  apply: (lxor_lt 32); first exact: st_get_lt. apply: shiftr_lt; exact: st_get_lt.
have T0 : N.lxor (st_get (t_status t) 3) (tmt_t1 lin t) < 2 ^ 32 by apply: (lxor_lt 32) => //; exact: st_get_lt.
by rewrite /tmt_temper; case: negb => //; apply: (lxor_lt 32).
Qed.
Lemma f32_one x e : x < 2 ^ 23 -> e < 2 ^ 23 ->
  (f32_bits (N.lor x (N.shiftl 127 23 + e)) =q 1 + inject_Z (Z.of_N (N.lor x e)) * (1 # 8388608))%coqQ.
Proof.
move=> Hx He; rewrite /f32_bits.
have Ee : N.shiftl 127 23 + e = N.lor (N.shiftl 127 23) e.
  have Z : N.land (N.shiftl 127 23) e = 0.
    apply: N.bits_inj_0 => i; rewrite N.land_spec.
    case: (N.lt_ge_cases i 23) => Hi; first by rewrite N.shiftl_spec_low.
    have -> : N.testbit e i = false; last by rewrite andbF.
    by rewrite -(N.mod_small _ _ He) N.mod_pow2_bits_high.
  by rewrite -N.lxor_lor // N.add_nocarry_lxor.
have -> : N.lor x (N.shiftl 127 23 + e) mod 2 ^ 23 = N.lor x e.
  rewrite Ee -!N.land_ones !N.land_lor_distr_l.
  rewrite !N.land_ones (N.mod_small x) // (N.mod_small e) //.
have -> : wshr (N.lor x (N.shiftl 127 23 + e)) 23 = 127.
  rewrite Ee /wshr !N.shiftr_lor !N.shiftr_div_pow2 (N.div_small x) // (N.div_small e) //.
rewrite -[(Z.of_N 127 - 150)%coqZ]/(-23)%coqZ inject_Z_plus.
have -> : Qpower (2 # 1) (-23) = (1 # 8388608)%coqQ by [].
by field.
Qed.
Lemma wshr9 u : u < 2 ^ 32 -> wshr u 9 = u / 2 ^ 9 /\ wshr u 9 < 2 ^ 23.
Proof.
move=> Hu; rewrite /wshr N.shiftr_div_pow2; split=> //.
by apply: N.div_lt_upper_bound.
Qed.
Lemma lor1 x : N.lor x 1 = 2 * (x / 2) + 1.
Proof.
apply: N.bits_inj => i; case: (N.eq_dec i 0) => [->|ni].
  by rewrite N.lor_spec N.testbit_odd_0 orbT.
have -> : i = N.succ (N.pred i) by rewrite N.succ_pred.
rewrite N.lor_spec N.testbit_odd_succ; last by apply: N.le_0_l.
rewrite -N.div2_div (N.testbit_succ_r_div2 _ _ (N.le_0_l _)).
by rewrite (N.bits_above_log2 1) ?orbF //; exact: N.lt_0_succ.
Qed.
Lemma lor0 x : N.lor x 0 = x. Proof. exact: N.lor_0_r. Qed.

Lemma floats_thm lin t : words_ok t ->
  let u := (tmt_uint32 lin t).1 in let t1 := tmt_next t in
  [/\ u < 2 ^ 32,
      ((tmt_float lin t).1 =q inject_Z (Z.of_N (u / 2 ^ 8)) * (1 # 16777216))%coqQ /\ (tmt_float lin t).2 = t1,
      ((tmt_float12 lin t).1 =q 1 + inject_Z (Z.of_N (u / 2 ^ 9)) * (1 # 8388608))%coqQ /\ (tmt_float12 lin t).2 = t1,
      ((tmt_float01 lin t).1 =q inject_Z (Z.of_N (u / 2 ^ 9)) * (1 # 8388608))%coqQ /\ (tmt_float01 lin t).2 = t1 &
      ((tmt_floatOO lin t).1 =q inject_Z (Z.of_N (2 * (u / 2 ^ 10) + 1)) * (1 # 8388608))%coqQ /\ (tmt_floatOO lin t).2 = t1 /\
      ((tmt_32double lin t).1 =q inject_Z (Z.of_N u) * (1 # 4294967296))%coqQ /\ (tmt_32double lin t).2 = t1].
Proof.
move=> Ht u t1; have Hu : u < 2 ^ 32 by exact: temper_lt (next_words Ht).
have [E9 L9] := wshr9 Hu.
split=> //.
- split; last by []. rewrite /tmt_float; cbn [fst]; rewrite -/t1 -[tmt_temper lin t1]/u /wshr N.shiftr_div_pow2.
  exact: Qeq_refl.
- split; last by []. rewrite /tmt_float12; cbn [fst]; rewrite -/t1 convE -[tmt_temper lin t1]/u.
  rewrite -[1065353216]/(N.shiftl 127 23 + 0); apply: Qeq_trans (f32_one L9 _) _ => //; rewrite lor0 E9; exact: Qeq_refl.
- split; last by []. rewrite /tmt_float01; cbn [fst]; rewrite -/t1 convE -[tmt_temper lin t1]/u.
  rewrite -[1065353216]/(N.shiftl 127 23 + 0).
  have H := f32_one (e := 0) L9 erefl; rewrite lor0 in H.
  apply: (Qeq_trans _ _ _ (Qplus_comp _ _ H _ _ (Qeq_refl (Qopp 1)))); rewrite E9; ring.
- split; last by split=> //; split=> //; exact: Qeq_refl.
  rewrite /tmt_floatOO; cbn [fst]; rewrite -/t1 convE -[tmt_temper lin t1]/u.
  rewrite -[1065353217]/(N.shiftl 127 23 + 1).
  have H := f32_one (e := 1) L9 erefl; rewrite lor1 {2}E9 N.div_div // -[2 ^ 9 * 2]/(2 ^ 10) in H.
  apply: (Qeq_trans _ _ _ (Qplus_comp _ _ H _ _ (Qeq_refl (Qopp 1)))); ring.
Qed.

(** The claimed intervals. *)
Local Notation "a <=q b" := (Qle a b) (at level 70) : Q_scope.
Local Notation "a <q b" := (Qlt a b) (at level 70) : Q_scope.
Lemma frac_lt z (d : positive) : (0 <= z < Zpos d)%coqZ -> (0 <=q inject_Z z * (1 # d))%coqQ /\ (inject_Z z * (1 # d) <q 1)%coqQ.
Proof. by rewrite /Qle /Qlt /Qmult /inject_Z /=; lia. Qed.
Lemma ranges_thm lin t : words_ok t ->
  ((0 <=q (tmt_float lin t).1)%coqQ /\ ((tmt_float lin t).1 <q 1)%coqQ) /\
  ((1 <=q (tmt_float12 lin t).1)%coqQ /\ ((tmt_float12 lin t).1 <q 2 # 1)%coqQ) /\
  ((0 <=q (tmt_float01 lin t).1)%coqQ /\ ((tmt_float01 lin t).1 <q 1)%coqQ) /\
  ((0 <q (tmt_floatOC lin t).1)%coqQ /\ ((tmt_floatOC lin t).1 <=q 1)%coqQ) /\
  ((0 <q (tmt_floatOO lin t).1)%coqQ /\ ((tmt_floatOO lin t).1 <q 1)%coqQ) /\
  ((0 <=q (tmt_32double lin t).1)%coqQ /\ ((tmt_32double lin t).1 <q 1)%coqQ).
Proof.
move=> Ht; have [Hu [F1 _] [F2 _] [F3 _] [F4 [_ [F5 _]]]] := floats_thm lin Ht.
have [Hu' [G1 _] _ _ _] := floats_thm lin (next_words Ht).
have FO : Qeq (tmt_floatOC lin t).1 (1 - (tmt_float lin (tmt_next t)).1)%coqQ by exact: Qeq_refl.
move: (tmt_uint32 lin t).1 Hu F1 F2 F3 F4 F5 => u Hu F1 F2 F3 F4 F5.
move: (tmt_uint32 lin (tmt_next t)).1 Hu' G1 => u' Hu' G1.
have B8 x : x < 2 ^ 32 -> (0 <= Z.of_N (x / 2 ^ 8) < 16777216)%coqZ.
  by move=> Hx; have : x / 2 ^ 8 < 16777216 by [apply: N.div_lt_upper_bound]; clear; lia.
have B9 : (0 <= Z.of_N (u / 2 ^ 9) < 8388608)%coqZ.
  by have : u / 2 ^ 9 < 8388608 by [apply: N.div_lt_upper_bound]; clear; lia.
have B10 : (0 < Z.of_N (2 * (u / 2 ^ 10) + 1) < 8388608)%coqZ.
  by have : u / 2 ^ 10 < 4194304 by [apply: N.div_lt_upper_bound]; clear; lia.
have A := frac_lt (B8 _ Hu); have A' := frac_lt (B8 _ Hu'); have D := frac_lt B9.
have E : (0 <q inject_Z (Z.of_N (2 * (u / 2 ^ 10) + 1)) * (1 # 8388608))%coqQ /\ (inject_Z (Z.of_N (2 * (u / 2 ^ 10) + 1)) * (1 # 8388608) <q 1)%coqQ.
  by move: B10; clear; rewrite /Qlt /Qmult /inject_Z /=; lia.
have B32 : (0 <= Z.of_N u < 4294967296)%coqZ by move: Hu; clear; lia.
have H := frac_lt B32.
move: (tmt_float lin t).1 (tmt_float12 lin t).1 (tmt_float01 lin t).1 (tmt_floatOC lin t).1 (tmt_floatOO lin t).1 (tmt_32double lin t).1
  (tmt_float lin (tmt_next t)).1 F1 F2 F3 F4 F5 FO G1.
move: (inject_Z (Z.of_N (u / 2 ^ 8)) * _)%coqQ (inject_Z (Z.of_N (u / 2 ^ 9)) * _)%coqQ (inject_Z (Z.of_N (u' / 2 ^ 8)) * _)%coqQ
  (inject_Z (Z.of_N (2 * (u / 2 ^ 10) + 1)) * _)%coqQ (inject_Z (Z.of_N u) * _)%coqQ A D A' E H.
clear=> a b c d e A D A' E H f1 f2 f3 f4 f5 f6 f7 F1 F2 F3 F4 F5 FO G1.
by repeat split; lra.
Qed.

(** * The class Tiny32 *)
Definition t32_ok (p : tiny_param) (t : tmt) : Prop := par t = p /\ words_ok t.
Definition t32_vec (t : tmt) : 'rV['F_2]_127 := tiny_vec (as_search t).
Lemma t32_search p t : t32_ok p t -> tiny_ok (p, false) (as_search t).
Proof. by move=> [<- /ok_iff[Q P]]. Qed.
Lemma t32_next p t : t32_ok p t -> t32_ok p (tmt_next t).
Proof. by move=> [E W]; split; [rewrite next_par|exact: next_words]. Qed.
Lemma len_search v t : (tiny32_generate_len v t).1 = (tiny_generate_len v (as_search t)).1 /\
  as_search (tiny32_generate_len v t).2 = (tiny_generate_len v (as_search t)).2.
Proof.
rewrite /tiny32_generate_len /tiny_generate_len.
have E1 := next_search t; have E2 := out_search t.
rewrite (surjective_pairing (tiny_generate (as_search t))) (surjective_pairing (tmt_uint32 true t)).
rewrite -E1 -E2; by [].
Qed.
Lemma add_search t u : as_search (tiny32_add t u) = tiny_add (as_search t) (as_search u).
Proof. by case: t => [[[[? ?] ?] ?] ? ? ?]; case: u => [[[[? ?] ?] ?] ? ? ?]. Qed.
Lemma tiny32_linear p : linear_gen tiny32_ops (t32_ok p) t32_vec (tiny_A (p, false)) (tiny_C (p, false)).
Proof.
have LG := tiny_lin_all (p, false).
split.
- by move=> t; exact: t32_next.
- by move=> t H; rewrite /t32_vec -(lin_generate_abs LG (t32_search H)) -next_search.
- by move=> v t H _; exact: t32_next.
- by move=> v t H Hv; rewrite /t32_vec -(lin_len_abs LG (t32_search H) Hv) -(len_search v t).2.
- by move=> v t H Hv; have := lin_len_lt LG (t32_search H) Hv; rewrite -[g_generate_len tiny_ops]/tiny_generate_len -(len_search v t).1.
- by move=> v t j H Hv Hj; have := lin_len_out LG (t32_search H) Hv Hj; rewrite -[g_generate_len tiny_ops]/tiny_generate_len -(len_search v t).1.
- move=> t u Ht Hu; have [E /ok_iff[_ P]] := Ht; split=> //; apply/ok_iff; split=> //.
  have [_ _ _ Q] := lin_add_ok LG (t32_search Ht) (t32_search Hu).
  by have := f_equal tm_st (add_search t u) => /= ->.
- by move=> t u Ht Hu; rewrite /t32_vec -(lin_add_abs LG (t32_search Ht) (t32_search Hu)) -[g_add tiny_ops]/tiny_add -add_search.
- by move=> t [E /ok_iff[_ P]]; split=> //; apply/ok_iff.
- by move=> t Ht; rewrite /t32_vec -(lin_zero_abs LG (t32_search Ht)).
Qed.
Lemma tiny32_zero p t : t32_ok p t -> tiny32_isZero t <-> t32_vec t = 0%R.
Proof.
move=> H; rewrite -(tiny_isZero_vec (t32_search H)).
by case: t H => [[[[? ?] ?] ?] ? ? ?].
Qed.
Definition pub0 : tmt := Tmt (0, 0, 0, 0) 0x8f7011ee 0xfc78ff1f 0x3793fdff.
Lemma new_ok seed : seed < 2 ^ 32 -> t32_ok tiny_pub (tiny32_new seed) /\ state127 (tiny32_new seed) <> (0, 0, 0, 0).
Proof.
move=> Hs; have P : p_ok (par pub0) by [].
have N : tiny32_new seed = tmt_init pub0 seed by rewrite /tiny32_new; reflexivity.
rewrite N; move: (tmt_init pub0 seed) (init_spec Hs P) => t [W [Z E]].
by split.
Qed.
Lemma state_vec p t : t32_ok p t -> state127 t <> (0, 0, 0, 0) -> (t32_vec t != 0)%R.
Proof.
move=> H Z; apply/eqP => /(tiny_isZero_vec (t32_search H)) /tiny_isZeroE /= E.
by apply: Z; rewrite -norm_state.
Qed.

Definition tops : temper_ops tmt :=
  {| t_set := fun _ _ _ g => g; t_up := fun g => g; t_setRev := fun g => g; t_resetRev := fun g => g; t_clone := fun g => g |}.
Lemma test_equidist_ok pos fuel veq0 seed : pos_spec 32 pos -> 17000 <= N.of_nat fuel -> (32 <= length veq0)%N -> seed < 2 ^ 32 ->
  test_equidist_main pos fuel veq0 seed = Ret 0%coqZ.
Proof.
move=> Hpos Hfuel Hveq Hs; rewrite /test_equidist_main; move: (tiny32_new seed) (new_ok Hs) => g [Hok Hz].
have Hf : ((4 * 127 + 2) * (N.to_nat (g_width tiny32_ops)).+1 <= fuel)%N.
  have -> : N.to_nat (g_width tiny32_ops) = 32%N by [].
  by move: Hfuel; clear; lia.
have [//|||dims [H1 [H2 E]]] := equidist_ok (T := tops) (L := 32) (tiny32_linear tiny_pub) _ Hpos Hf _ _ Hveq Hok; try by [].
move: E; rewrite /tm_get_equidist [t_clone _ _]/=.
case: get_all_equidist => [[[a veq] sum]| | | |]; cbn [bind] => //; move=> [->].
have [k [K1 K2]] := tiny_pub_defect.
have -> // : defect_of 127 32 dims = 0%coqZ.
rewrite K2 /defect_of /defect_sum; have -> : List.seq 1 32 = List.map S (List.seq 0 32) by [].
rewrite List.map_map; congr (List.fold_right _ _ _).
apply: List.map_ext_in => i /List.in_seq Hi.
have Hi' : (1 <= i.+1 <= 32)%N by move: Hi; clear; lia.
have <- : dims i.+1 = k i.+1 by exact: equidist_dim_unique (H1 _ Hi') (K1 _ _ Hi' (state_vec Hok Hz)).
congr (_ - _)%coqZ.
rewrite (List.nth_indep _ _ (Z.of_nat (dims 1%N))); last by rewrite List.map_length List.seq_length; move: Hi; clear; lia.
rewrite (List.map_nth (fun i => Z.of_nat (dims i.+1))) List.seq_nth //; move: Hi; clear; lia.
Qed.

Lemma published_thm a b : a < 2 ^ 32 -> b < 2 ^ 32 ->
  least_period (2 ^ 127 - 1) (tiny32_new a) /\ (state127 (tiny32_new a) = state127 (tiny32_new b) -> a = b).
Proof.
move=> Ha Hb; split.
- move: (tiny32_new a) (new_ok Ha) => t [[E W] Z]; apply: (period_of W Z); rewrite E; exact: tiny_pub_max.
- exact: (@seeds_distinct pub0 a b Ha Hb).
Qed.
Lemma floatOC_two : exists t, words_ok t /\ state127 (tmt_floatOC false t).2 <> state127 (tmt_next t) /\
  ~ Qeq (tmt_floatOC false t).1 (1 - (tmt_float false t).1)%coqQ.
Proof. exists (Tmt (1, 2, 3, 4) 0x8f7011ee 0xfc78ff1f 0x3793fdff); split; [|split]; by vm_compute. Qed.
Lemma overflow_exists t : exists key, tmt_init_by_array t key = Undef.
Proof.
exists (List.repeat 0 (N.to_nat (2 ^ 31 - 1))); apply: init_array_overflow.
by rewrite List.repeat_length N_nat_Z.
Qed.
