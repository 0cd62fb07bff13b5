(** The program calc_period of dSFMTdc. *)
From Coq Require Import NArith ZArith List Bool Lia.
From mathcomp Require Import all_ssreflect all_algebra.
From mathcomp Require Import zify.
From Verif Require Import Base WordLemmas WordVec UtilModel GenModel PolyF2 LinSpec LinLemmas LinInst LinOut PeriodModel PeriodSpec PolyAct
  PeriodProofs4 ArrayModel ArrayWin ArrayLin ArrayOut ViewLin W128Model W128Spec W128Proofs ParityModel ParitySpec
  DsfmtModel DsfmtLin DsfmtProofs DsfmtPar DsfmtEquiSpec DsfmtEquiProofs SearchLin AnniModel AnniProofs
  ModeAnni ModeTable DsfmtMode PerTestModel PerTestSpec PerTestRead PerTestSfmt.
Import ListNotations.
Set Implicit Arguments.
Unset Strict Implicit.
Unset Printing Implicit Defensive.
Import GRing.Theory.
Local Open Scope ring_scope.
Delimit Scope Z_scope with coqZ.

Lemma dwords_min c s W b mu : dsc_ok c -> dsfmt_ok c s -> dsfmt_words s W ->
  is_minpoly (cseq (dm_A c) (dm_vec c s) (dm_word c b)) mu <-> is_minpoly (bit_seq W b) mu.
Proof.
move=> Hc Hs HW.
have E i : cseq (dm_A c) (dm_vec c s) (dm_word c b) i = bit_seq W b i.
  by rewrite dm_bitW // /bit_seq (ds_words_unique Hc Hs HW).
by split; apply: cs_ext => i; rewrite E.
Qed.
Lemma dwords_run c s W k : dsc_ok c -> dsfmt_ok c s -> dsfmt_words s W -> dsfmt_words (run ds_ops k s) (fun t => W (t + k)%N).
Proof.
move=> Hc Hs HW. rewrite (ds_it_run Hc) //. have H1 := ds_it_ok Hc k Hs. have Ec : s.1.1 = c by case: Hs.
have Ec' : (ds_it c s k).1.1 = c by case: H1.
have [W1 [U [U0 UR]]] := HW. rewrite /= Ec in W1 UR. rewrite /dsfmt_words /= Ec'. split=> [t Ht|].
  rewrite (ds_words_unique Hc Hs HW) addnC -(ds_it_win Hc) //. by move: Ht; clear; lia.
exists (fun t => U (t + k)%N); split.
  have [W' HW'] := ds_words_exist Hc Hs.
  have : forall j, U j = ds_U c s j.
    elim=> [|j IH]; first by rewrite U0. have [R1 _] := UR j. move: R1. rewrite Nat.add_1_r => ->.
    rewrite ds_U_rec // -IH -!(ds_words_unique Hc Hs HW) //.
  by move=> ->; rewrite add0n.
move=> t. have [R1 R2] := UR (t + k)%N.
have A x : (t + x + k = (t + k + x)%coq_nat)%N by clear; lia.
by split; rewrite !A.
Qed.

Section Program.
Variable q : dsp.
Hypothesis Hq : dsp_ok q.
Hypothesis sl0 : (0 < d_sl1 q)%coqZ.
Hypothesis Hm : (232 <= d_mexp q < 2 ^ 31 - 128)%coqZ.
Hypothesis Hp : (0 <= d_pos1 q < 2 ^ 31)%coqZ.
Variables (M : seq 'F_2 -> nat -> f2x) (fuel : nat) (junk : N).
Hypothesis HM : minpolyseq_spec M.
Notation d := (Z.to_nat (d_mexp q)).
Hypothesis Hfuel : (d + 104 < fuel)%N.
Let s0 := ds_seed (pt_seed junk) (ds_new q).
Let c0 := s0.1.1.
Variable W : nat -> N.
Hypothesis HW : dsfmt_words s0 W.

Lemma dc0_ok : dsc_ok c0 /\ dsfmt_ok c0 s0.
Proof.
have M1 : (232 <= d_mexp q)%coqZ by move: Hm; clear; lia. have P1 : (0 <= d_pos1 q)%coqZ by move: Hp; clear; lia.
have [H1 H2] := ds_new_ok Hq M1 P1. split; first exact: H1.
have L := seed_lt junk. exact: (@ds_seed_ok _ _ L (ds_new q).1.2 (ds_new q).2 H1).
Qed.
Lemma dc0_size : Z.of_nat (e_size c0) = ((d_mexp q - 128) / 104 + 1)%coqZ.
Proof.
rewrite /c0 [e_size _]/(ds_words (d_mexp q)) /ds_words Z.quot_div_nonneg; move: Hm; clear; lia.
Qed.
Lemma dc0_facts : forall c, e_size c = e_size c0 -> [/\ (0 < dn (dc2 c))%N, (dn (dc2 c) < 2 * d)%N, (Z.of_nat (dn (dc2 c)) < 2 ^ 31)%coqZ & (dn (dc2 c) < fuel)%N].
Proof.
move=> c Ec. have E := dc0_size. have D := Z.div_mod (d_mexp q - 128) 104. have R := Z.mod_pos_bound (d_mexp q - 128) 104.
rewrite dnE Ec. move: E D R Hm Hfuel. move: (e_size c0) ((d_mexp q - 128) / 104)%coqZ ((d_mexp q - 128) mod 104)%coqZ => a b e.
clear. split; lia.
Qed.
Lemma in_ds_bits p : List.In p ds_bits -> (p < 128)%N.
Proof. rewrite /ds_bits => /in_cat [] /List.in_seq; clear; lia. Qed.
Lemma ds_before mu : (forall b, (b < 128)%N -> is_minpoly (bit_seq W b) (mu b)) ->
  exists m k, min_max_poly ds_ops M ds_bits s0 0 = Ret (m, run ds_ops k s0) /\ mm_spec ds_bits mu m.
Proof.
move=> Hmu. have [Hc Hs] := dc0_ok. have [n0 Hd n31 _] := dc0_facts (erefl (e_size c0)).
apply: (before_spec (dm_mode Hc) HM n31) => //.
move=> p /in_ds_bits Hp'; split=> //. apply/(dm_mD_min Hc _ Hs Hp').
  by apply/(dwords_min _ _ Hc Hs HW); exact: Hmu.
Qed.
Definition dpos (i : Z) (p : nat) : nat := ((p + 64 * Z.to_nat i) %% 128)%N.
Lemma ds_line k i j w : (0 <= i <= 1)%coqZ ->
  let s := ds_setWeight j (ds_setStart i (run ds_ops k s0)) in
  exists b s', [/\ anni_d ds_ops ds_par_ops M fuel s = Ret (b, s'), (b <-> large_bit d W (64 * Z.to_nat i)) &
  b -> exists m t, min_max_poly ds_ops M ds_bits s' w = Ret (m, t) /\
    row_spec d (forall p, List.In p ds_bits -> large_bit d W (dpos i p)) (ROW i j (mm_min m) (mm_max m))].
Proof.
move=> Hi s. have [Hc Hs] := dc0_ok. pose c := ds_cfg i j c0. have [n0 Hd n31 Hf] := dc0_facts (erefl (e_size c)).
have H1 : dsfmt_ok c0 (run ds_ops k s0) by exact: (run_ok (dsfmt_lin Hc)).
have W1 := dwords_run k Hc Hs HW.
have Hc' : dsc_ok c := ds_cfg_ok _ _ Hc. have Hs' : dsfmt_ok c s := ds_mode_ok _ _ H1.
have W2 : dsfmt_words s (fun t => W (t + k)%N) := ds_words_mode _ _ W1.
have MG := dm_mode Hc'.
have WM b mu : is_minpoly (cseq (dm_A c) (dm_vec c s) (dm_word c b)) mu <-> is_minpoly (bit_seq W b) mu.
  rewrite (dwords_min _ _ Hc' Hs' W2) -(dwords_min _ _ Hc H1 W1) -(dwords_min _ _ Hc Hs HW).
  rewrite (ds_it_run Hc) //. have [_ <-] := dm_iter Hc k Hs. exact: (cs_min (dm_unit Hc)).
have LR p : (p < 128)%N -> large_col (dm_A c) d (dm_vec c s) (mD (dm_A c) (dm_R c) (dm_lo c) p) <-> large_bit d W (dm_pos c p).
  by move=> Hp'; split=> -[mu [f [Hmu Hf1 Hf2 Hf3]]]; exists mu, f; split=> //; [apply/WM/(dm_mD_min Hc' _ Hs' Hp')|apply/(dm_mD_min Hc' _ Hs' Hp')/WM].
have EP p : (p < 128)%N -> dm_pos c p = dpos i p.
  move=> Hp'. have EI : (i = 0 \/ i = 1)%coqZ by move: Hi; clear; lia.
  by case: EI => Ei; rewrite /dm_pos /dpos /c Ei //= muln0 addn0 modn_small.
have L0 : large_col (dm_A c) d (dm_vec c s) (dm_R c 0) <-> large_bit d W (64 * Z.to_nat i).
  have -> : dm_R c 0 = mD (dm_A c) (dm_R c) (dm_lo c) 0 by rewrite /mD (mg_lo MG).
  rewrite LR // EP // /dpos add0n modn_small //. by move: Hi; clear; lia.
have HX t : dsfmt_ok c t -> p_getMexp ds_par_ops t = Z.of_nat d.
  move=> [E _ _ _ _]; rewrite [p_getMexp _ _]/(d_mexp (e_par t.1.1)) E (_ : e_par c = q) //. by rewrite Z2Nat.id //; move: Hm; clear; lia.
have OB : observable (dm_A c) (ds_Q (dc2 c)) 128 by apply: ds_observable => //; exact: dc2_ok.
have AN := anni_d_mode MG HM n0 Hd HX OB Hs' Hf.
have b0 : List.In 0%N ds_bits by left.
have [b [s' [E1 E2 E3]]] := line_spec MG HM n31 Hd AN b0 in_ds_bits w.
exists b, s'; split=> //; first by rewrite E2.
move=> /E3 [m [t [F1 [F2 [F3 F4]]]]]. exists m, t; split=> //; split=> //=.
have K : (forall p, List.In p ds_bits -> large_col (dm_A c) d (dm_vec c s) (mD (dm_A c) (dm_R c) (dm_lo c) p)) <->
    (forall p, List.In p ds_bits -> large_bit d W (dpos i p)).
  by split=> H p Hp'; have Hp2 := in_ds_bits Hp'; [rewrite -EP //; apply/LR|apply/LR; rewrite ?EP //] => //; exact: H.
by split=> H; [apply: F3|apply: F4]; rewrite K.
Qed.
Theorem ds_program tail : (d_fix q < 2 ^ 128)%num -> (d_parity q < 2 ^ 128)%num ->
  exists out, [/\ ds_calc_period M fuel junk (ds_text q ++ tail) = Ret out, pt_text out = ds_text q,
    forall mu, (forall b, (b < 128)%N -> is_minpoly (bit_seq W b) (mu b)) -> mm_spec ds_bits mu (pt_before out) &
    table_spec (fun m => large_bit d W (64 * Z.to_nat m.1))
      (fun x => row_spec d (forall p, List.In p ds_bits -> large_bit d W (dpos (row_start x) p)) x)
      ds_modes (pt_rows out) (pt_code out)].
Proof.
move=> Hfix Hpar. have [Hc Hs] := dc0_ok. have [n0 Hd n31 _] := dc0_facts (erefl (e_size c0)).
rewrite /ds_calc_period ds_parseE //; try (move: Hm; clear; lia). cbn [bind].
have -> : (d_mexp q <? 128)%coqZ = false by move: Hm; clear; lia.
rewrite -/s0.
have [mu0 Hmu0] : exists mu, forall b, (b < 128)%N -> is_minpoly (bit_seq W b) (mu b).
  exists (fun b => M (mkseq (cseq (dm_A c0) (dm_vec c0 s0) (dm_word c0 b)) (2 * dn (dc2 c0))) (dn (dc2 c0))) => b Hb.
  apply/(dwords_min _ _ Hc Hs HW). apply: (HM (h := char_poly (dm_A c0))); first exact: char_neq0; first by rewrite size_char_poly.
  exact: (out_char (dm_A c0) (fun=> dm_word c0 b) (dm_vec c0 s0) 0).
have [m [k [E1 _]]] := ds_before Hmu0. rewrite E1; cbn [bind].
set good := (fun m : Z * Z => _). set row := (fun x : pt_row => _).
have [|rows [code [E2 T]]] := @modes_spec _ ds_ops M (anni_d ds_ops ds_par_ops M fuel) (fun i j s => ds_setWeight j (ds_setStart i s)) ds_bits
   (run ds_ops k s0) good row ds_modes _ (mm_weight m).
  move=> i j w Hij. apply: ds_line. move: Hij. rewrite /ds_modes /=. 
  by repeat (case=> [[<- _]//|]).
rewrite E2; cbn [bind]. eexists; split; first exact: erefl.
- by [].
- move=> mu Hmu. have [m' [k' [E3 S3]]] := ds_before Hmu. by move: E3; rewrite E1 => -[-> _].
- exact: T.
Qed.
End Program.

Theorem ds_complete : forall q, dsp_ok q -> (0 < d_sl1 q)%coqZ -> (232 <= d_mexp q < 2 ^ 31 - 128)%coqZ -> (0 <= d_pos1 q < 2 ^ 31)%coqZ ->
  forall M fuel junk, minpolyseq_spec M -> (Z.to_nat (d_mexp q) + 104 < fuel)%N ->
  forall W, dsfmt_words (ds_seed (pt_seed junk) (ds_new q)) W ->
  forall tail, (d_fix q < 2 ^ 128)%num -> (d_parity q < 2 ^ 128)%num ->
  exists out, ds_calc_period M fuel junk (ds_text q ++ tail) = Ret out /\
    (pt_code out = 0%coqZ <-> large_bit (Z.to_nat (d_mexp q)) W 0 /\ large_bit (Z.to_nat (d_mexp q)) W 64) /\
    (pt_code out = 0%coqZ -> length (pt_rows out) = 4%N) /\ (pt_code out <> 0%coqZ -> pt_code out = (-1)%coqZ).
Proof.
move=> q Hq sl0 Hm Hp M fuel junk HM Hf W HW tail Hfix Hpar.
have [out [E _ _ T]] := ds_program Hq sl0 Hm Hp HM Hf HW tail Hfix Hpar. exists out; split=> //.
have [E1 [E2 E3]] := table_code T. split; [|split=> //]. rewrite E1. split=> [H|[H0 H1] m].
- split; first by apply: (H (0, 2)%coqZ); left.
  by apply: (H (1, 2)%coqZ); right; right; left.
- by rewrite /ds_modes /=; repeat (case=> [<-//|]).
Qed.
Lemma ds_bits_miss p : (104 <= p < 116)%N -> ~ List.In p ds_bits.
Proof. move=> Hp. rewrite /ds_bits => /in_cat [] /List.in_seq; move: Hp; clear; lia. Qed.
