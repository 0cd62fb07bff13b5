(** AlgorithmDSFMTEquidistribution is AlgorithmSIMDEquidistribution on the words
    moved to the upper 52 bits. *)
From Coq Require Import NArith ZArith Lia Bool List.
From mathcomp Require Import all_ssreflect all_algebra.
From mathcomp Require Import zify.
From Verif Require Import Base WordLemmas UtilModel GenModel EquiModel LinSpec LinLemmas PeriodSpec
  W128Model W128Spec W128Proofs W128Cert SfmtModel SfmtLin SimdModel SimdPack DsfmtModel DsfmtLin DsfmtEquiModel.
Set Implicit Arguments.
Unset Strict Implicit.
Unset Printing Implicit Defensive.
Import GRing.Theory.
Local Open Scope N_scope.
Delimit Scope Z_scope with coqZ.

Definition up12 (x : N) : N := join (wshl 64 (lo64 x) 12) (wshl 64 (hi64 x) 12).
Lemma up_lt x : wshl 64 x 12 < 2 ^ 64.
Proof. exact: wshl_lt. Qed.
Lemma up12_lt x : up12 x < 2 ^ 128.
Proof. apply: join_lt; exact: up_lt. Qed.
(** bit b of half h of the moved word *)
Lemma up12_bit x h b : (h < 2)%N -> (b < 64)%N -> N.testbit (up12 x) (N.of_nat (64 * h + b)%N) =
  (12 <= b)%N && N.testbit x (N.of_nat (64 * h + b - 12)%N).
Proof.
move=> Hh Hb. rewrite /up12 join_bit; last exact: up_lt.
case: h Hh => [|[|//]] _.
- have -> : (N.of_nat (64 * 0 + b)%N <? 64) by lia. rewrite wshl_spec. have -> : (N.of_nat (64 * 0 + b)%N <? 64) by lia.
  case: (leqP 12 b) => H; last by have -> : (12 <=? N.of_nat (64 * 0 + b)%N) = false by lia.
  have -> : (12 <=? N.of_nat (64 * 0 + b)%N) by lia. rewrite !andTb lo64_bit.
  have -> : (N.of_nat (64 * 0 + b)%N - 12 <? 64) by lia. rewrite andTb. congr N.testbit. lia.
- have -> : (N.of_nat (64 * 1 + b)%N <? 64) = false by lia. rewrite wshl_spec. have -> : (N.of_nat (64 * 1 + b)%N - 64 <? 64) by lia.
  case: (leqP 12 b) => H; last by have -> : (12 <=? N.of_nat (64 * 1 + b)%N - 64) = false by lia.
  have -> : (12 <=? N.of_nat (64 * 1 + b)%N - 64) by lia. rewrite !andTb hi64_bit. congr N.testbit. lia.
Qed.
Notation i64 := (SI 128 64 2).
Notation i52 := (DI 128 2).
Lemma bits12 x : forall cnt b k next, (b + cnt <= 52)%N ->
  sv_bits cnt x (2 ^ N.of_nat (51 - b)%N) k next = sv_bits cnt (wshl 64 x 12) (2 ^ N.of_nat (63 - b)%N) k next.
Proof.
elim=> [//|cnt IH] b k next Hb. cbn [sv_bits]. rewrite !land_pow2 wshl_spec.
have -> : (N.of_nat (63 - b)%N <? 64) by lia. have -> : (12 <=? N.of_nat (63 - b)%N) by lia.
have -> : N.of_nat (63 - b)%N - 12 = N.of_nat (51 - b)%N by lia.
rewrite !andTb. case: (w_setBit _ _ _) => [n1||||] //. cbn [bind].
case: cnt IH Hb => [|cnt] IH Hb //.
have -> : wshr (2 ^ N.of_nat (51 - b)%N) 1 = 2 ^ N.of_nat (51 - b.+1)%N.
  rewrite /wshr N.shiftr_div_pow2. have -> : N.of_nat (51 - b)%N = N.of_nat (51 - b.+1)%N + 1 by lia.
  rewrite N.pow_add_r. exact: N.div_mul.
have -> : wshr (2 ^ N.of_nat (63 - b)%N) 1 = 2 ^ N.of_nat (63 - b.+1)%N.
  rewrite /wshr N.shiftr_div_pow2. have -> : N.of_nat (63 - b)%N = N.of_nat (63 - b.+1)%N + 1 by lia.
  rewrite N.pow_add_r. exact: N.div_mul.
apply: IH. lia.
Qed.
Lemma pack12 v x : (v <= 52)%N -> dv_pack i52 v (w_of x) = sv_pack i64 false v (w_of (up12 x)).
Proof.
move=> Hv. rewrite /dv_pack /sv_pack. cbn [di_elementNo di_bitSize si_elementNo si_bitSize].
have -> : sv_words i64 false (w_of (up12 x)) = [:: wshl 64 (lo64 x) 12; wshl 64 (hi64 x) 12].
  rewrite /sv_words. cbn [si_bitMode Z.eqb Pos.eqb List.map]. rewrite -/(lo64 (up12 x)) -/(hi64 (up12 x)) /up12 lo_join ?hi_join //; exact: up_lt.
rewrite -/(lo64 x) -/(hi64 x).
have B k next w : sv_bits v w 0x0008000000000000 k next = sv_bits v (wshl 64 w 12) (sv_mask i64) k next.
  exact: (@bits12 w v 0 k next).
cbn [dv_lanes sv_lanes List.nth_error Nat.add]. rewrite B. case: (sv_bits v _ _ _ _) => [[k1 n1]||||] //. cbn [bind].
by rewrite B.
Qed.

Section Wrap.
Variables (S : Type) (G : gen_ops S) (pos : N -> res Z).
Definition G12 : gen_ops S :=
  {| g_width := g_width G; g_generate := fun s => (up12 (g_generate G s).1, (g_generate G s).2);
     g_generate_len := g_generate_len G; g_add := g_add G; g_setZero := g_setZero G; g_isZero := g_isZero G;
     g_seed := g_seed G; g_bitSize := g_bitSize G |}.
Notation lvec := (lvec S).
Section V.
Variable v : nat.
Hypothesis Hv : (v <= 52)%N.
Lemma step12 b : dv_step G i52 v b = sv_step G12 i64 false v b.
Proof.
rewrite /dv_step /sv_step /dv_get_next /sv_get_next. cbn [g_generate G12].
case: (g_generate G (lv_rand b)) => w r. cbn [fst snd]. by rewrite pack12.
Qed.
Lemma ns_loop12 : forall rem b, dv_ns_loop G i52 v rem b = sv_ns_loop G12 i64 false v rem b.
Proof.
elim=> [//|rem IH] b. cbn [dv_ns_loop sv_ns_loop]. case: (w_isZero _) => //. rewrite step12.
case: (sv_step _ _ _ _ _) => [b1||||] //. exact: IH.
Qed.
Lemma next12 b : dv_next_state G i52 v b = sv_next_state G12 i64 false v b.
Proof.
rewrite /dv_next_state /sv_next_state. case: (lv_zero b) => //. rewrite step12.
case: (sv_step _ _ _ _ _) => [b1||||] //. exact: ns_loop12.
Qed.
Lemma units12 rand : forall cnt i, de_units G rand cnt i = se_units G12 rand cnt i.
Proof.
elim=> [//|cnt IH] i. cbn [de_units se_units]. rewrite IH.
have -> : dv_unit G rand i = sv_unit G12 rand i by []. by [].
Qed.
Lemma new12 rand : de_new G i52 rand v = se_new G12 i64 false rand v.
Proof. by rewrite /de_new /se_new units12 next12. Qed.
Lemma reduce12 bs : forall fuel basis p, de_reduce G pos i52 fuel v bs basis p = se_reduce G12 pos i64 false fuel v bs basis p.
Proof.
induction fuel as [|fuel IH]; intros basis p; [reflexivity|]. cbn [de_reduce se_reduce].
destruct (geti basis bs) as [bv| | | |]; cbn [bind]; [|reflexivity|reflexivity|reflexivity|reflexivity]. destruct (lv_zero bv); [reflexivity|].
destruct (geti basis p) as [bp| | | |]; cbn [bind]; [|reflexivity|reflexivity|reflexivity|reflexivity].
destruct (seti basis p _) as [b1| | | |]; cbn [bind]; [|reflexivity|reflexivity|reflexivity|reflexivity].
change (@dv_add S G) with (@sv_add S G12).
destruct (w_isZero _).
- rewrite next12. destruct (sv_next_state _ _ _ _ _) as [b3| | | |]; cbn [bind]; [|reflexivity|reflexivity|reflexivity|reflexivity].
  destruct (seti b1 bs _) as [b2| | | |]; cbn [bind]; [|reflexivity|reflexivity|reflexivity|reflexivity].
  destruct (pos _) as [q| | | |]; cbn [bind]; [|reflexivity|reflexivity|reflexivity|reflexivity]. apply IH.
- destruct (seti b1 bs _) as [b2| | | |]; cbn [bind]; [|reflexivity|reflexivity|reflexivity|reflexivity]. destruct (pos _) as [q| | | |]; cbn [bind]; [|reflexivity|reflexivity|reflexivity|reflexivity].
  destruct (bs <=? q)%coqZ; [reflexivity|]. destruct (p <=? q)%coqZ; [reflexivity|]. apply IH.
Qed.
Lemma min12 : forall cnt i basis m, de_min cnt i basis m = @se_min S cnt i basis m.
Proof. by elim=> [//|cnt IH] i basis m; cbn [de_min se_min]; case: (geti basis i) => [b||||] //; exact: IH. Qed.
Lemma get12 fuel sz basis : de_get_equidist G pos i52 fuel sz v basis = se_get_equidist G12 pos i64 false fuel sz v basis.
Proof.
rewrite /de_get_equidist /se_get_equidist. cbn [di_elementNo si_elementNo].
case: (geti basis _) => [bv||||]; cbn [bind]; [|reflexivity|reflexivity|reflexivity|reflexivity]. case: (pos _) => [p||||]; cbn [bind]; [|reflexivity|reflexivity|reflexivity|reflexivity]. rewrite reduce12.
case: (se_reduce _ _ _ _ _ _ _ _ _) => [b1||||]; cbn [bind]; [|reflexivity|reflexivity|reflexivity|reflexivity]. case: (geti b1 0) => [b0||||]; cbn [bind]; [|reflexivity|reflexivity|reflexivity|reflexivity]. by rewrite min12.
Qed.
End V.

Variables (setStart setWeight : Z -> S -> S).
Definition start12 (m : Z) : S -> S := setStart (Z.quot m 2).
Definition weight12 (m : Z) : S -> S := setWeight (Z.quot m 2).
Lemma one12 fuel mexp rand sm wm v vw : (v <= 52)%N ->
  d_one_v G pos i52 setStart setWeight fuel mexp rand (Z.quot sm 2) (Z.quot wm 2) v vw =
  one_v G12 pos i64 false fuel mexp rand (g_generate G12 (weight12 wm (start12 sm rand))).2 wm v vw.
Proof.
move=> Hv. rewrite /d_one_v /one_v new12 // /weight12 /start12. cbn [g_generate G12 snd].
case: (se_new _ _ _ _ _) => [b||||]; cbn [bind]; [|reflexivity|reflexivity|reflexivity|reflexivity]. by rewrite get12.
Qed.
Lemma v12 fuel mexp rand sm wm : forall cnt v vw, (v + cnt <= 53)%N ->
  d_v_loop G pos i52 setStart setWeight fuel mexp rand (Z.quot sm 2) (Z.quot wm 2) cnt v vw =
  v_loop G12 pos i64 false fuel mexp rand (g_generate G12 (weight12 wm (start12 sm rand))).2 wm cnt v vw.
Proof.
elim=> [//|cnt IH] v vw Hv. cbn [d_v_loop v_loop]. rewrite one12; last lia.
case: (one_v _ _ _ _ _ _ _ _ _ _ _) => [x||||]; cbn [bind]; [|reflexivity|reflexivity|reflexivity|reflexivity]. apply: IH. lia.
Qed.
Lemma wm12 fuel mexp rand bit_len sm : (bit_len <= 52)%N -> forall wms vw,
  d_wm_loop G pos i52 setStart setWeight fuel mexp rand bit_len (Z.quot sm 2) (List.map (fun m => Z.quot m 2) wms) vw =
  wm_loop G12 pos i64 false start12 weight12 fuel mexp rand bit_len sm wms vw.
Proof.
move=> Hb. elim=> [//|wm wms IH] vw. cbn [List.map d_wm_loop wm_loop]. rewrite v12; last lia.
case: (v_loop _ _ _ _ _ _ _ _ _ _ _ _) => [x||||]; cbn [bind]; [|reflexivity|reflexivity|reflexivity|reflexivity]. exact: IH.
Qed.
Lemma sm12 fuel mexp rand bit_len : (bit_len <= 52)%N -> forall sms veq,
  d_sm_loop G pos i52 setStart setWeight fuel mexp rand bit_len (List.map (fun m => Z.quot m 2) sms) veq =
  sm_loop G12 pos i64 false start12 weight12 fuel mexp rand bit_len sms veq.
Proof.
move=> Hb. elim=> [//|sm sms IH] veq. cbn [List.map d_sm_loop sm_loop].
case: (fill _ _ _ _) => [vw0||||]; cbn [bind]; [|reflexivity|reflexivity|reflexivity|reflexivity].
have -> : for_lt 1 (Z.of_nat (di_elementNo i52) + 1) 1 = List.map (fun m => Z.quot m 2) (for_lt (state_inc i64) (weight_max i64 + 1) (state_inc i64)) by [].
rewrite wm12 //. case: (wm_loop _ _ _ _ _ _ _ _ _ _ _ _ _) => [x||||]; cbn [bind]; [|reflexivity|reflexivity|reflexivity|reflexivity].
case: (min_veq _ _ _ _) => [y||||]; cbn [bind]; [|reflexivity|reflexivity|reflexivity|reflexivity]. exact: IH.
Qed.
Lemma calc12 fuel mexp rand bit_len veq : (bit_len <= 52)%N ->
  calc_DSFMT G pos i52 setStart setWeight fuel mexp rand bit_len veq =
  calc_SIMD G12 pos i64 false start12 weight12 fuel mexp rand bit_len veq.
Proof.
move=> Hb. rewrite /calc_DSFMT /calc_SIMD. case: (fill _ _ _ _) => [v0||||]; cbn [bind]; [|reflexivity|reflexivity|reflexivity|reflexivity].
have -> : for_lt 0 (Z.of_nat (di_elementNo i52)) 1 = List.map (fun m => Z.quot m 2) (for_lt 0 (weight_max i64) (state_inc i64)) by [].
by rewrite sm12.
Qed.
End Wrap.
