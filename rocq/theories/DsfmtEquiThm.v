(** The statements about calc_dSFMT_equidistribution. *)
From Coq Require Import NArith ZArith List Bool Lia.
From mathcomp Require Import all_ssreflect all_algebra.
From mathcomp Require Import zify.
From Verif Require Import Base GenModel LinSpec ArrayModel SimdModel SimdPack SimdSpec SimdSeq SimdBits SimdProofs SimdThm
  DsfmtModel DsfmtLin DsfmtEquiModel DsfmtEquiSpec DsfmtEqui DsfmtEquiProofs.
Set Implicit Arguments.
Unset Strict Implicit.
Unset Printing Implicit Defensive.
Local Open Scope nat_scope.
Delimit Scope Z_scope with coqZ.
Delimit Scope N_scope with num.

(** The call: the object s with the words W; mexp bounds the dimension of the
    span of W. *)
Definition dsfmt_call (c : dsc) (s : dsfmt) (W : nat -> N) (pos : N -> res Z) (fuel mexp bit_len : nat) : Prop :=
  [/\ dsc_ok c, dsfmt_ok c s & dsfmt_words s W] /\
  [/\ recurrent W mexp, (Z.of_nat mexp < 2 ^ 31)%coqZ, pos_spec 128 pos, (e_size c * 416 + 618) * 129 <= fuel & bit_len <= 52].

Lemma dcall_ok c s W pos fuel mexp bit_len veq : dsfmt_call c s W pos fuel mexp bit_len -> bit_len <= length veq ->
  exists veq' sum, [/\ calc_DSFMT ds_ops pos i52 ds_setStart ds_setWeight fuel (Z.of_nat mexp) s bit_len veq = Ret (veq', sum),
    sum = defect_sum mexp bit_len veq', length veq' = length veq, forall u, bit_len <= u -> List.nth u veq' 0%coqZ = List.nth u veq 0%coqZ &
    forall v, 1 <= v <= bit_len -> exists r : nat, [/\ List.nth (v - 1) veq' 0%coqZ = Z.of_nat r,
      forall phi, equid52 W phi v r, exists phi, equid52 W phi v (2 * ((r + 1) %/ 2)) & forall k, (forall phi, equid52 W phi v k) -> 2 * (k %/ 2) <= r]].
Proof. by move=> [[Hc Hs HW] [Hr Hm Hp Hf Hl]] Hv; apply: (ds_calc_ok Hc Hs HW Hr Hp Hf Hl). Qed.
Lemma dsfmt_thm c s W pos fuel mexp bit_len veq : dsfmt_call c s W pos fuel mexp bit_len -> bit_len <= length veq ->
  exists veq' sum,
    calc_DSFMT ds_ops pos i52 ds_setStart ds_setWeight fuel (Z.of_nat mexp) s bit_len veq = Ret (veq', sum) /\
    sum = defect_sum mexp bit_len veq' /\
    length veq' = length veq /\ (forall u, bit_len <= u -> List.nth u veq' 0%coqZ = List.nth u veq 0%coqZ) /\
    forall v, 1 <= v <= bit_len -> exists r : nat,
      List.nth (v - 1) veq' 0%coqZ = Z.of_nat r /\
      (forall phi, equid52 W phi v r) /\
      forall k, (forall phi, equid52 W phi v k) -> k <= r + 1 /\ (Nat.modulo k 2 = 0 -> k <= r).
Proof.
move=> HC Hv. have [veq' [sum [E1 E2 E3 E4 E5]]] := dcall_ok HC Hv. exists veq', sum. do 4 (split=> //).
move=> v Hv2. have [r [R1 R2 _ R3]] := E5 v Hv2. exists r. split=> //. split=> // k Hk.
have := R3 k Hk. have := divn_eq k 2. have := ltn_pmod k (ltn0Sn 1).
have -> : Nat.modulo k 2 = k %% 2.
  symmetry. apply: (Nat.mod_unique _ _ (k %/ 2)); first by have := ltn_pmod k (ltn0Sn 1); lia. have := divn_eq k 2. lia.
clear. move: (k %% 2) (k %/ 2) => a b; split; lia.
Qed.
Lemma dlimit_thm c s W pos fuel mexp bit_len veq veq' sum : dsfmt_call c s W pos fuel mexp bit_len -> bit_len <= length veq ->
  calc_DSFMT ds_ops pos i52 ds_setStart ds_setWeight fuel (Z.of_nat mexp) s bit_len veq = Ret (veq', sum) ->
  (forall v, 1 <= v <= bit_len -> (List.nth (v - 1) veq' 0 <= Z.of_nat (2 * (mexp %/ (2 * v))))%coqZ) /\
  (1 <= bit_len -> (Z.of_nat (mexp %% 2) <= sum)%coqZ).
Proof.
move=> HC Hv E. have [veq1 [sum1 [E1 E2 _ _ E5]]] := dcall_ok HC Hv. rewrite E in E1. case: E1 => V1 S1. rewrite -?V1 -?S1 in E2 E5.
have [[Hc Hs HW] [Hr Hm Hp Hf Hl]] := HC. have Hi : good_info i64 64 2 by right.
have K v : 1 <= v <= bit_len -> (List.nth (v - 1) veq' 0 <= Z.of_nat (2 * (mexp %/ (2 * v))))%coqZ.
  move=> Hv2. have [r [-> _ [phi R3] _]] := E5 v Hv2. have v1 : 1 <= v by case/andP: Hv2.
  have v52 : v <= 52 by move: Hv2 Hl; clear; lia.
  have R4 : exists phi, equid false 64 2 (W12 W) phi v (2 * ((r + (2 - 1)) %/ 2)) by exists phi; apply/equid12.
  have := @full_lim i64 64 2 false (W12 W) mexp Hi (recurrent12 Hr) v r v1 R4. clear; lia.
split=> // b1. rewrite E2 /defect_sum.
have T : forall l, (forall i, List.In i l -> i < bit_len) ->
    (0 <= List.fold_right Z.add 0 (List.map (fun i => Z.of_nat (mexp %/ i.+1) - List.nth i veq' 0) l))%coqZ.
  elim=> [|i l IH] H; cbn [List.map List.fold_right]; first by clear; lia.
  have Hi1 : i < bit_len by apply: H; left. have := IH (fun j Hj => H j (or_intror Hj)).
  have Hi2 : 1 <= i.+1 <= bit_len by move: Hi1; clear; lia.
  have := K i.+1 Hi2. rewrite subn1 /=.
  have : 2 * (mexp %/ (2 * i.+1)) <= mexp %/ i.+1.
    rewrite leq_divRL //. apply: (@leq_trans (mexp %/ (2 * i.+1) * (2 * i.+1))); last exact: leq_trunc_div.
    move: (mexp %/ _) => q; clear; nia.
  clear; lia.
case: bit_len b1 Hv K E5 T {HC E2 E Hl} => // b _ Hv K E5 T. cbn [List.seq List.map List.fold_right].
have T1 := T (List.seq 1 b). have := K 1 isT. rewrite muln1 divn1 subnn.
have := divn_eq mexp 2. have : (forall i, List.In i (List.seq 1 b) -> i < b.+1) by move=> i /List.in_seq; clear; lia.
move/T1. clear. move: (mexp %/ 2) (mexp %% 2) => q r. lia.
Qed.

(** * The counterexample: a constant sequence *)
Definition rd_p : dsp := DSP 521 3 11 0xffffffffffeff 0xdff7fefffdefe 0 0.
Definition rd_w : N := 0x000925b6fff6fa4b000905b4fff6da49.
Definition rd_u : N := 0x42e42e42f42f62f7bc0bc0bc0bc0bc0b.
Definition rd_c : dsc := DSC rd_p 4 0 2 0 false 0.
Definition rd_s : dsfmt := ((rd_c, RR 0 (List.repeat rd_w 4)), (rd_u, 0%num)).
Lemma rd_ok : dsc_ok rd_c /\ dsfmt_ok rd_c rd_s.
Proof.
split; first by split=> //; split.
split; [by []| | |by []|by []].
- split; first by cbn; lia. split; first by []. move=> i. cbn [rd_s rr_arr fst snd].
  do 4 (case: i => [//|i]). by case: i.
- move=> i. cbn [rd_s rr_arr fst snd]. do 4 (case: i => [//|i]). by case: i.
Qed.
Lemma rd_words : dsfmt_words rd_s (fun=> rd_w).
Proof.
split=> [k Hk|].
- cbn [rd_s rr_arr rr_idx fst snd]. do 4 (case: k Hk => [|k] Hk; first by vm_compute). exfalso. cbn [rd_s rd_c e_size fst] in Hk. lia.
- exists (fun=> rd_u). split; first by []. move=> k. by vm_compute.
Qed.
Lemma drefuted_thm : exists c s W, forall pos fuel, pos_spec 128 pos -> (e_size c * 416 + 618) * 129 <= fuel ->
  dsfmt_call c s W pos fuel 521 1 /\
  exists veq' sum, calc_DSFMT ds_ops pos i52 ds_setStart ds_setWeight fuel 521 s 1 [:: 0%coqZ] = Ret (veq', sum) /\
    List.nth 0 veq' 0%coqZ = 0%coqZ /\ forall phi, equid52 W phi 1 1.
Proof.
exists rd_c, rd_s, (fun=> rd_w) => pos fuel Hp Hf. have [Hc Hs] := rd_ok.
have HC : dsfmt_call rd_c rd_s (fun=> rd_w) pos fuel 521 1.
  split; first by split; [exact: Hc|exact: Hs|exact: rd_words].
  split; [|by []|exact: Hp|exact: Hf|by []].
  exists (fun j => j == 520) => k i. by rewrite (@xsum_pick 521 520 (fun=> N.testbit rd_w i)).
have B q : seqbit52 (fun=> rd_w) q 0 = true.
  rewrite /seqbit52. have : List.In (Nat.modulo q 2) [:: 0; 1].
    have := Nat.mod_upper_bound q 2. case: (Nat.modulo q 2) => [|[|?]] /=; try tauto. move=> H. exfalso. have : 2 <> 0 by []. move/H. lia.
  by case=> [<-|[<-|//]].
split=> //. have [//|veq' [sum [E1 _ _ _ E5]]] := @dcall_ok _ _ _ _ _ _ _ [:: 0%coqZ] HC.
exists veq', sum. split; first exact: E1. have [r [R1 _ [phi R3] _]] := E5 1 isT. split.
- rewrite R1. have -> : r = 0; last by []. move: R3. clear -B. case: r => [|r]; first by move=> _. rewrite addSn.
  have -> : (r + 1).+1 = 1 * 2 + r by lia. rewrite divnMDl //. move: (r %/ 2) => q E. exfalso.
  have [K [a H]] := E (fun i _ => i == 1). have H1 := H 1 0; have H0 := H 0 0.
  have X i : xsum K (fun j => a j && seqbit52 (fun=> rd_w) (phi + i + 2 * j)%coq_nat 0) = xsum K a.
    by apply: xsum_ext => j _; rewrite B andbT.
  rewrite X in H0. rewrite X in H1. have T1 : xsum K a = true by apply: H1; lia. have T0 : xsum K a = false by apply: H0; lia.
  by rewrite T1 in T0.
- move=> phi' y. exists 1, (fun=> y 0 0) => i b Hi Hb. have -> : i = 0 by lia. have -> : b = 0 by lia. by rewrite /= B andbT; case: (y 0 0).
Qed.
