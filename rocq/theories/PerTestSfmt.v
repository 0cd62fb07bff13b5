(** The program test_period of sfmtdc. *)
From Coq Require Import NArith ZArith List Bool Lia.
From mathcomp Require Import all_ssreflect all_algebra.
From mathcomp Require Import zify.
From Verif Require Import Base WordLemmas WordVec UtilModel GenModel PolyF2 LinSpec LinLemmas LinInst LinOut PeriodModel PeriodSpec PolyAct
  PeriodProofs4 ArrayModel ArrayWin ArrayLin ArrayOut DelayLin W128Model W128Spec W128Proofs ParityModel ParitySpec
  SfmtModel SfmtLin SfmtProofs SfmtParity SimdModel SimdPack SimdSpec SimdBits SimdProofs SimdThm SearchLin AnniModel AnniProofs
  ModeAnni ModeTable SfmtMode PerTestModel PerTestSpec PerTestRead.
Import ListNotations.
Set Implicit Arguments.
Unset Strict Implicit.
Unset Printing Implicit Defensive.
Import GRing.Theory.
Local Open Scope ring_scope.
Delimit Scope Z_scope with coqZ.

Lemma words_min c s W b mu : sfc_ok c -> (3 <= c_size c)%N -> (0 < sf_pos c)%N -> sfmt_ok c s -> sfmt_words s W -> (b < 128)%N ->
  is_minpoly (cseq (sm_A c) (sm_vec c s) (sm_word c 0 b)) mu <-> is_minpoly (bit_seq W b) mu.
Proof.
move=> Hc s3 p0 Hs HW Hb. have z0 : (0 < c_size c)%N by move: s3; clear; lia.
have E i : cseq (sm_A c) (sm_vec c s) (sm_word c 0 b) i = bit_seq W b i.
  by rewrite sm_bitW // addn0 /bit_seq (words_unique Hc Hs HW).
by split; apply: cs_ext => i; rewrite E.
Qed.
Lemma words_run c s W k : sfc_ok c -> sfmt_ok c s -> sfmt_words s W -> sfmt_words (run sf_ops k s) (fun t => W (t + k)%N).
Proof.
move=> Hc Hs HW. rewrite (sf_run Hc) //. have [H1 H2] := iter_next Hc k Hs. have Ec : s.1.1 = c by case: Hs => [[]].
have Ec' : (iter k (dl_next (c_size c) (sF c) (sR c)) s).1.1 = c by case: H1 => [[]].
have [W1 W2] := HW. rewrite Ec in W1 W2. split; rewrite Ec' => t.
  move=> Ht; rewrite (words_unique Hc Hs HW) addnC -(sf_win_W Hc) // -?H2 //. by move: Ht; clear; lia.
apply: (etrans (y := W (t + k + c_size c)%coq_nat)); first by apply: f_equal; clear; lia.
by rewrite W2; congr frec; apply: f_equal; clear; lia.
Qed.

Section Program.
Variable q : sfp.
Hypothesis Hq : sfp_ok q.
Hypothesis Hm : (256 <= f_mexp q < 2 ^ 31 - 128)%coqZ.
Hypothesis Hp : (0 <= f_pos1 q < 2 ^ 31)%coqZ.
Hypothesis Hp0 : (0 < f_pos1 q mod (f_mexp q / 128 + 1))%coqZ.
Variables (M : seq 'F_2 -> nat -> f2x) (fuel : nat) (junk : N).
Hypothesis HM : minpolyseq_spec M.
Notation d := (Z.to_nat (f_mexp q)).
Hypothesis Hfuel : (d + 128 < fuel)%N.
Let s0 := sf_seed (pt_seed junk) (sf_new q).
Let c0 := s0.1.1.
Variable W : nat -> N.
Hypothesis HW : sfmt_words s0 W.

Lemma seed_lt : (pt_seed junk < 2 ^ 128)%num.
Proof.
rewrite /pt_seed. have : (junk mod 2 ^ 96 < 2 ^ 96)%num by apply: N.mod_lt.
have -> : (2 ^ 128 = 2 ^ 32 * 2 ^ 96)%num by []. move: (junk mod 2 ^ 96)%num (2 ^ 96)%num => a b. clear; lia.
Qed.
Lemma c0_ok : sfc_ok c0 /\ sfmt_ok c0 s0.
Proof.
have M1 : (128 <= f_mexp q)%coqZ by move: Hm; clear; lia. have P1 : (0 <= f_pos1 q)%coqZ by move: Hp; clear; lia.
have [H1 H2] := sf_new_ok Hq M1 P1. split; first exact: H1.
exact: (@sf_seed_ok _ _ ((sf_new q).1.2, (sf_new q).2) H1 seed_lt).
Qed.
Lemma c0_size : Z.of_nat (c_size c0) = (f_mexp q / 128 + 1)%coqZ.
Proof. rewrite /c0 /=. have := Z.div_pos (f_mexp q) 128. move: Hm; clear; lia. Qed.
Lemma c0_facts : [/\ (3 <= c_size c0)%N, (0 < sf_pos c0)%N, (c_size c0 * 128 < 2 * d)%N, (Z.of_nat (c_size c0 * 128) < 2 ^ 31)%coqZ &
  (c_size c0 * 128 < fuel)%N].
Proof.
have E := c0_size. have D := Z.div_mod (f_mexp q) 128. have R := Z.mod_pos_bound (f_mexp q) 128.
split.
- move: E D R Hm. move: (c_size c0) (f_mexp q / 128)%coqZ (f_mexp q mod 128)%coqZ => a b c. clear. lia.
- rewrite /sf_pos. have P : Z.of_nat (Nat.modulo (Z.to_nat (f_pos1 (c_par c0))) (c_size c0)) = (f_pos1 q mod (f_mexp q / 128 + 1))%coqZ.
    rewrite (_ : c_par c0 = q) // Nat2Z.inj_mod E Z2Nat.id //. by move: Hp; clear; lia.
  by move: P Hp0; clear; lia.
- move: E D R Hm. move: (c_size c0) (f_mexp q / 128)%coqZ (f_mexp q mod 128)%coqZ => a b c. clear. lia.
- move: E D R Hm. move: (c_size c0) (f_mexp q / 128)%coqZ (f_mexp q mod 128)%coqZ => a b c. clear. lia.
- move: E D R Hm Hfuel. move: (c_size c0) (f_mexp q / 128)%coqZ (f_mexp q mod 128)%coqZ => a b c. clear. lia.
Qed.
Lemma in_sf_bits p : List.In p sf_bits <-> (p < 128)%N.
Proof. rewrite /sf_bits List.in_seq. clear; lia. Qed.
Lemma sf_before mu : (forall b, (b < 128)%N -> is_minpoly (bit_seq W b) (mu b)) ->
  exists m k, min_max_poly sf_ops M sf_bits s0 0 = Ret (m, run sf_ops k s0) /\ mm_spec sf_bits mu m.
Proof.
move=> Hmu. have [Hc Hs] := c0_ok. have [s3 p0 Hd n31 _] := c0_facts.
have n0 : (0 < c_size c0 * 128)%N by move: s3; clear; lia.
apply: (before_spec (sm_mode Hc s3 p0) HM n31) => //.
- split=> // p Hp'. by rewrite /sm_lo /= addn0 Hp'.
- move=> p /in_sf_bits Hp'; split=> //. apply/(sm_mD_min Hc s3 p0) => //.
  rewrite (_ : sm_pos c0 p = p); last by rewrite /sm_pos /= modnDr modn_small.
  by apply/(words_min _ Hc s3 p0 Hs HW) => //; exact: Hmu.
Qed.
Lemma sf_line k i j w : (0 <= i <= 3)%coqZ ->
  let s := sf_setWeight j (sf_setStart i (run sf_ops k s0)) in
  exists b s', [/\ anni_s sf_ops sf_par_ops M fuel s = Ret (b, s'), (b <-> large_bit d W (32 * Z.to_nat i)) &
  b -> exists m t, min_max_poly sf_ops M sf_bits s' w = Ret (m, t) /\
    row_spec d (forall b, (b < 128)%N -> large_bit d W b) (ROW i j (mm_min m) (mm_max m))].
Proof.
move=> Hi s. have [Hc Hs] := c0_ok. have [s3 p0 Hd n31 Hf] := c0_facts.
have n0 : (0 < c_size c0 * 128)%N by move: s3; clear; lia.
have H1 : sfmt_ok c0 (run sf_ops k s0) by exact: (run_ok (sfmt_lin Hc)).
have W1 := words_run k Hc Hs HW.
pose c := sf_cfg i j c0. have Hc' : sfc_ok c := cfg_ok _ _ Hc. have Hs' : sfmt_ok c s := mode_ok _ _ H1.
have W2 : sfmt_words s (fun t => W (t + k)%N) := words_mode _ _ W1.
have MG := sm_mode Hc' s3 p0.
(* the polynomials of the bits *)
have WM b mu : (b < 128)%N -> is_minpoly (cseq (sm_A c) (sm_vec c s) (sm_word c 0 b)) mu <-> is_minpoly (bit_seq W b) mu.
  move=> Hb. rewrite (words_min _ Hc' s3 p0 Hs' W2 Hb) -(words_min _ Hc s3 p0 H1 W1 Hb) -(words_min _ Hc s3 p0 Hs HW Hb).
  rewrite (sf_run Hc) // sm_iter //. exact: (cs_min (sm_unit Hc s3 p0)).
have LB b : (b < 128)%N -> large_col (sm_A c) d (sm_vec c s) (sm_word c 0 b) <-> large_bit d W b.
  by move=> Hb; split=> -[mu [f [Hmu Hf1 Hf2 Hf3]]]; exists mu, f; split=> //; apply/WM.
have LR p : (p < 128)%N -> large_col (sm_A c) d (sm_vec c s) (mD (sm_A c) (sm_R c) (sm_lo c) p) <-> large_bit d W (sm_pos c p).
  move=> Hp'; rewrite -LB; last by rewrite /sm_pos ltn_pmod.
  by split=> -[mu [f [Hmu Hf1 Hf2 Hf3]]]; exists mu, f; split=> //; apply/(sm_mD_min Hc' s3 p0).
have L0 : large_col (sm_A c) d (sm_vec c s) (sm_R c 0) <-> large_bit d W (32 * Z.to_nat i).
  have -> : sm_R c 0 = mD (sm_A c) (sm_R c) (sm_lo c) 0 by rewrite /mD (mg_lo MG).
  rewrite LR //.
  rewrite (_ : sm_pos c 0 = 32 * Z.to_nat i)%N //.
  have EI : (i = 0 \/ i = 1 \/ i = 2 \/ i = 3)%coqZ by move: Hi; clear; lia.
  by case: EI => [Ei|[Ei|[Ei|Ei]]]; rewrite /sm_pos /c Ei.
have HX t : sfmt_ok c t -> p_getMexp sf_par_ops t = Z.of_nat d.
  move=> [[E _] _]; rewrite [p_getMexp _ _]/(f_mexp (c_par t.1.1)) E (_ : c_par c = q) //. by rewrite Z2Nat.id //; move: Hm; clear; lia.
have AN := anni_s_mode MG HM n0 Hd HX (sm_obs Hc' s3 p0) Hs' Hf.
have b0 : List.In 0%N sf_bits by apply/in_sf_bits.
have bb p : List.In p sf_bits -> (p < 128)%N by move=> /in_sf_bits.
have [b [s' [E1 E2 E3]]] := line_spec MG HM n31 Hd AN b0 bb w.
exists b, s'; split=> //; first by rewrite E2.
move=> /E3 [m [t [F1 [F2 [F3 F4]]]]]. exists m, t; split=> //; split=> //=.
have K : (forall p, List.In p sf_bits -> large_col (sm_A c) d (sm_vec c s) (mD (sm_A c) (sm_R c) (sm_lo c) p)) <->
    (forall b, (b < 128)%N -> large_bit d W b).
  split=> [H b' Hb'|H p /bb Hp']; last by apply/LR => //; apply: H; rewrite /sm_pos ltn_pmod.
  have SB : (N.to_nat (sm_bits (c_start c)) <= 128)%N by rewrite /sm_bits; case: (c_start c) => [|[[?|?|]|[?|?|]|]|?].
  pose p := ((b' + (128 - N.to_nat (sm_bits (c_start c)))) %% 128)%N. have Hp' : (p < 128)%N by rewrite ltn_pmod.
  have -> : b' = sm_pos c p by rewrite /sm_pos /p modnDml -addnA subnK // modnDr modn_small.
  by apply/LR => //; apply: H; apply/in_sf_bits.
by split=> H; [apply: F3|apply: F4]; rewrite K.
Qed.
Theorem sf_program tail : (f_parity q < 2 ^ 128)%num ->
  exists out, [/\ sf_test_period M fuel junk (sf_text q ++ tail) = Ret out, pt_text out = sf_text q,
    forall mu, (forall b, (b < 128)%N -> is_minpoly (bit_seq W b) (mu b)) -> mm_spec sf_bits mu (pt_before out) &
    table_spec (fun m => large_bit d W (32 * Z.to_nat m.1)) (row_spec d (forall b, (b < 128)%N -> large_bit d W b))
      sf_modes (pt_rows out) (pt_code out)].
Proof.
move=> Hpar. have [Hc Hs] := c0_ok. have [s3 p0 Hd n31 _] := c0_facts.
rewrite /sf_test_period sf_parseE //; try (move: Hm; clear; lia). cbn [bind].
have -> : (f_mexp q <? 0)%coqZ = false by move: Hm; clear; lia.
rewrite -/s0.
have [mu0 Hmu0] : exists mu, forall b, (b < 128)%N -> is_minpoly (bit_seq W b) (mu b).
  exists (fun b => M (mkseq (cseq (sm_A c0) (sm_vec c0 s0) (sm_word c0 0 b)) (2 * (c_size c0 * 128))) (c_size c0 * 128)) => b Hb.
  apply/(words_min _ Hc s3 p0 Hs HW Hb). apply: (HM (h := char_poly (sm_A c0))); first exact: char_neq0; first by rewrite size_char_poly.
  exact: (out_char (sm_A c0) (fun=> sm_word c0 0 b) (sm_vec c0 s0) 0).
have [m [k [E1 _]]] := sf_before Hmu0. rewrite E1; cbn [bind].
set good := (fun m : Z * Z => _). set row := row_spec _ _.
have [|rows [code [E2 T]]] := @modes_spec _ sf_ops M (anni_s sf_ops sf_par_ops M fuel) (fun i j s => sf_setWeight j (sf_setStart i s)) sf_bits
   (run sf_ops k s0) good row sf_modes _ (mm_weight m).
  move=> i j w Hij. apply: sf_line. move: Hij. rewrite /sf_modes /=. 
  by repeat (case=> [[<- _]//|]).
rewrite E2; cbn [bind]. eexists; split; first exact: erefl.
- by [].
- move=> mu Hmu. have [m' [k' [E3 S3]]] := sf_before Hmu. by move: E3; rewrite E1 => -[-> _].
- exact: T.
Qed.
End Program.
(** The code. *)
Lemma table_code good row modes rows code : table_spec good row modes rows code ->
  (code = 0%coqZ <-> forall m, List.In m modes -> good m) /\ (code = 0%coqZ -> length rows = length modes) /\
  (code <> 0%coqZ -> code = (-1)%coqZ).
Proof.
elim: modes rows => [|[i j] modes IH] rows /=; first by move=> [-> ->]; split.
case=> [[ng [-> ->]]|[g [x [rows' [-> _ _ /IH [E1 [E2 E3]]]]]]].
  by split; [split=> // H; case: ng; apply: H; left|].
split; [|split=> //]; last by move=> /E2 /= ->.
by rewrite E1; split=> [H m [<-//|/H]|H m Hm] //; apply: H; right.
Qed.
Theorem sf_complete : forall q, sfp_ok q -> (256 <= f_mexp q < 2 ^ 31 - 128)%coqZ -> (0 <= f_pos1 q < 2 ^ 31)%coqZ ->
  (0 < f_pos1 q mod (f_mexp q / 128 + 1))%coqZ ->
  forall M fuel junk, minpolyseq_spec M -> (Z.to_nat (f_mexp q) + 128 < fuel)%N ->
  forall W, sfmt_words (sf_seed (pt_seed junk) (sf_new q)) W -> forall tail, (f_parity q < 2 ^ 128)%num ->
  exists out, sf_test_period M fuel junk (sf_text q ++ tail) = Ret out /\
    (pt_code out = 0%coqZ <-> forall i, (i < 4)%N -> large_bit (Z.to_nat (f_mexp q)) W (32 * i)) /\
    (pt_code out = 0%coqZ -> length (pt_rows out) = 16%N) /\ (pt_code out <> 0%coqZ -> pt_code out = (-1)%coqZ).
Proof.
move=> q Hq Hm Hp Hp0 M fuel junk HM Hf W HW tail Hpar.
have [out [E _ _ T]] := sf_program Hq Hm Hp Hp0 HM Hf HW tail Hpar. exists out; split=> //.
have [E1 [E2 E3]] := table_code T. split; [|split=> //]. rewrite E1. split=> [H i Hi|H m].
- have [Hz In] : Z.to_nat (Z.of_nat i) = i /\ List.In (Z.of_nat i, 4%coqZ) sf_modes.
    split; first exact: Nat2Z.id. by case: i Hi => [|[|[|[|]]]] //= _; rewrite /sf_modes /=; tauto.
  by have := H _ In; cbn [fst]; rewrite Hz.
- have K i : (i < 4)%N -> forall j, large_bit (Z.to_nat (f_mexp q)) W (32 * Z.to_nat (Z.of_nat i, j : Z).1)%N.
    by move=> Hi j; cbn [fst]; rewrite Nat2Z.id; exact: H.
  rewrite /sf_modes /=; repeat (case=> [<-|]) => //.
  + exact: (K 0%N). + exact: (K 0%N). + exact: (K 0%N). + exact: (K 0%N).
  + exact: (K 1%N). + exact: (K 1%N). + exact: (K 1%N). + exact: (K 1%N).
  + exact: (K 2%N). + exact: (K 2%N). + exact: (K 2%N). + exact: (K 2%N).
  + exact: (K 3%N). + exact: (K 3%N). + exact: (K 3%N). + exact: (K 3%N).
Qed.
