(** The class dSFMT: seed, constructors, setOneBit, setUpParam and the parity
    search. *)
From Coq Require Import NArith ZArith Lia Bool List.
From mathcomp Require Import all_ssreflect all_algebra.
From mathcomp Require Import zify.
From Verif Require Import Base WordLemmas WordVec UtilModel UtilSpec UtilProofs GenModel PolyF2 LinSpec LinLemmas LinInst LinOut PeriodModel PeriodSpec PeriodProofs4 XorshiftProofs TinyLin
  EquiProofs6 MTSpec MTProofs2 ArrayModel ArrayWin ArrayLin ArrayOut MtdcLin MtdcProofs RmtLin RmtProofs RmtParity DelayLin W128Model W128Spec W128Proofs W128Cert
  ParityModel ParitySpec ParityProofs4 ParityProofs5 SfmtModel SfmtLin SfmtProofs SfmtParity ViewLin DsfmtModel DsfmtLin DsfmtProofs.
Set Implicit Arguments.
Unset Strict Implicit.
Unset Printing Implicit Defensive.
Local Open Scope N_scope.
Delimit Scope Z_scope with coqZ.

(** * seed *)
Lemma ds_group_len cnt : forall l, length (ds_group cnt l) = cnt.
Proof. by elim: cnt => [//|n IH] l; cbn [ds_group length]; rewrite IH. Qed.
Lemma nth_skip2 (l : list N) j : List.nth j (List.skipn 2 l) 0 = List.nth (S (S j)) l 0.
Proof. by case: l => [|x [|y l]]; cbn [List.skipn List.nth]; case: j. Qed.
Lemma ds_group_lt cnt : forall l, (forall j, List.nth j l 0 < 2 ^ 64) -> forall j, List.nth j (ds_group cnt l) 0 < 2 ^ 128.
Proof.
elim: cnt => [|n IH] l Hl j; first by case: j.
case: j => [|j]; cbn [ds_group List.nth]; first exact: join_lt.
apply: IH => i. rewrite nth_skip2. exact: Hl.
Qed.
Lemma land52 x : N.land x 0xfffffffffffff < 2 ^ 52.
Proof. rewrite (_ : 0xfffffffffffff = N.ones 52) // N.land_ones. exact: N.mod_upper_bound. Qed.
Lemma pref0_52 x : w52 (ds_pref_word 0 x).
Proof. rewrite /ds_pref_word N.eqb_refl. apply: w52_join; exact: land52. Qed.
Lemma nth_map_pref pr (l : list N) j : (j < length l)%coq_nat -> List.nth j (List.map (ds_pref_word pr) l) 0 = ds_pref_word pr (List.nth j l 0).
Proof.
move=> L. rewrite (List.nth_indep _ 0 (ds_pref_word pr 0)); last by rewrite List.map_length. exact: List.map_nth.
Qed.
Lemma nth_firstn0 (l : list N) k : (forall j, List.nth j l 0 < 2 ^ 128) -> forall j, List.nth j (List.firstn k l) 0 < 2 ^ 128.
Proof.
elim: k l => [|k IH] [|x l] Hl [|j]; cbn [List.firstn List.nth]; try exact: (pow2_pos 128).
- exact: (Hl 0%N).
- apply: IH => i. exact: (Hl i.+1).
Qed.
Section Seed.
Variables (c : dsc) (v : N).
Hypothesis Hv : v < 2 ^ 128.
Notation size := (e_size c).
Definition ds_sw : list N := lo64 v :: rr_fill ((size + 1) * 2 - 1) 1 (lo64 v) (ds_seed_word v).
Lemma ds_sw_lt j : List.nth j ds_sw 0 < 2 ^ 64.
Proof.
rewrite /ds_sw. case: j => [|j]; cbn [List.nth]; first exact: lo64_lt.
apply: rfill_small => i x. rewrite /ds_seed_word. apply: (lxor_lt 64); last exact: trunc_lt.
case: (i =? 1)%nat; [exact: hi64_lt|exact: pow2_pos].
Qed.
Lemma ds_seed_ok s l : dsc_ok c -> dsfmt_ok c (ds_seed v ((c, s), l)).
Proof.
move=> Hc. have s2 := dc_size Hc. rewrite /ds_seed -/ds_sw /ds_setup_prefix (dc_pre Hc).
have G j := @ds_group_lt (size + 1) ds_sw ds_sw_lt j.
have Ln : length (List.firstn size (ds_group (size + 1) ds_sw)) = size by rewrite List.firstn_length ds_group_len; lia.
have W j : w52 (List.nth j (List.map (ds_pref_word 0) (List.firstn size (ds_group (size + 1) ds_sw))) 0).
  case: (Nat.ltb_spec j size) => L; first by rewrite nth_map_pref ?Ln //; exact: pref0_52.
  rewrite List.nth_overflow; [exact: w52_0|by rewrite List.map_length Ln].
split; cbn [fst snd rr_idx rr_arr ds_lung ds_prev]; [by []| |exact: W|exact: G|exact: w52_0].
split; cbn [rr_idx rr_arr]; first lia. split; first by rewrite List.map_length.
move=> j. exact: w52_lt.
Qed.
End Seed.
Lemma ds_words_ge mexp : (232 <= mexp)%coqZ -> (2 <= ds_words mexp)%N.
Proof.
move=> H. rewrite /ds_words Z.quot_div_nonneg; [|lia|lia]. have : (1 <= (mexp - 128) / 104)%coqZ by apply: Z.div_le_lower_bound; lia. lia.
Qed.
Lemma ds_new_ok q : dsp_ok q -> (232 <= d_mexp q)%coqZ -> (0 <= d_pos1 q)%coqZ ->
  let g := ds_new q in dsc_ok g.1.1 /\ dsfmt_ok g.1.1 g.
Proof.
move=> Hq Hm Hp. have D := ds_words_ge Hm.
have H : dsc_ok (ds_new q).1.1 by split.
split=> //. split; [by []|apply: zero_rr; cbn [ds_new fst e_size]; lia|exact: (zero52 (ds_new q).1.1)|exact: (pow2_pos 128)|exact: w52_0].
Qed.

(** setUpParam. *)
Lemma ds_setUp_ok (u : nat -> N) g : (forall i, u i < 2 ^ 64) -> (3 <= e_size g.1.1)%N -> N.of_nat (e_size g.1.1) < 2 ^ 31 ->
  e_prefix g.1.1 = 0 -> (e_fixed g.1.1 -> (0 <= e_fixedSL1 g.1.1 < 64)%coqZ) ->
  exists g', [/\ ds_setUpParam u g = Ret g', dsc_ok g'.1.1 & (1 <= d_pos1 (e_par g'.1.1) <= Z.of_nat (e_size g.1.1) - 2)%coqZ] /\
    [/\ e_size g'.1.1 = e_size g.1.1, d_mexp (e_par g'.1.1) = d_mexp (e_par g.1.1), e_weight g'.1.1 = e_weight g.1.1 &
        e_start g'.1.1 = e_start g.1.1 /\ (g'.1.2, g'.2) = (g.1.2, g.2)] /\
    (if e_fixed g.1.1 then d_sl1 (e_par g'.1.1) = e_fixedSL1 g.1.1 else (1 <= d_sl1 (e_par g'.1.1) <= 51)%coqZ).
Proof.
move=> Hu. case: g => [[c s] q]. cbn [fst snd] => s3 sL pf Hf. rewrite /ds_setUpParam.
have EM : wsub 64 (N.of_nat (e_size c)) 2 = N.of_nat (e_size c) - 2.
  rewrite /wsub /trunc. have E32 : 2 ^ 64 = 2 ^ 33 * 2 ^ 31 by [].
  rewrite (N.mod_small 2 (2 ^ 64)); last by [].
  have -> : N.of_nat (e_size c) + (2 ^ 64 - 2) = (N.of_nat (e_size c) - 2) + 1 * 2 ^ 64 by lia.
  rewrite N.mod_add; last by []. apply: N.mod_small. lia.
rewrite EM. have -> : (N.of_nat (e_size c) - 2 =? 0) = false by lia.
have M0 := N.mod_upper_bound (u 0%N) (N.of_nat (e_size c) - 2).
have EP : to_signed 32 (trunc 32 (wadd 64 (u 0%N mod (N.of_nat (e_size c) - 2)) 1)) = Z.of_N (u 0%N mod (N.of_nat (e_size c) - 2) + 1).
  rewrite /wadd /trunc /to_signed. move: (u 0%N mod _) M0 => x M0.
  have E32 : 2 ^ 32 = 2 * 2 ^ 31 by []. have E64 : 2 ^ 64 = 2 ^ 33 * 2 ^ 31 by [].
  rewrite (N.mod_small (x + 1) (2 ^ 64)); last by lia. rewrite N.mod_small; last by lia.
  have -> : 32 - 1 = 31 by []. by have -> : (x + 1 <? 2 ^ 31) = true by lia.
rewrite EP. have M1 := N.mod_upper_bound (u 1%N) 51.
eexists; split; first split; first exact: erefl.
- split; cbn [fst e_par e_size d_pos1 e_prefix]; [split; cbn [d_sl1 d_msk1 d_msk2]; try exact: land52|lia|lia|by []].
  case: ifP Hf => // _ Hf; [exact: Hf|lia].
- cbn [fst e_par d_pos1]. lia.
- split; first by []. cbn [fst e_par d_sl1]. case: (e_fixed c); [by []|lia].
Qed.
Lemma ds_setUp_2 (u : nat -> N) g : e_size g.1.1 = 2%N -> ds_setUpParam u g = Undef.
Proof. by case: g => [[c s] q]; cbn [fst snd] => E; rewrite /ds_setUpParam E. Qed.

(** * setOneBit *)
Lemma divE a d : (0 < d)%N -> Nat.div a d = (a %/ d)%N.
Proof. move=> Hd. symmetry. have := divn_eq a d. have := ltn_pmod a Hd. move=> L E. apply: (Nat.div_unique _ _ _ (a %% d)%N); lia. Qed.
Lemma modE a d : (0 < d)%N -> Nat.modulo a d = (a %% d)%N.
Proof. move=> Hd. symmetry. have := divn_eq a d. have := ltn_pmod a Hd. move=> L E. apply: (Nat.mod_unique _ _ (a %/ d)%N); lia. Qed.
Section OneBit.
Variable c : dsc.
Hypothesis Hc : dsc_ok c.
Notation size := (e_size c).
Notation n := (e_size c * 104 + 128)%N.
(** Bit i of the state: 104 bits of each word of the array, then the lung. *)
Definition ds_bit (g : dsfmt) (i : nat) : bool :=
  if (i < size * 104)%N then N.testbit (List.nth (i %/ 104)%N (rr_arr g.1.2) 0) (ds_bitpos (i %% 104)%N)
  else N.testbit (ds_lung g) (N.of_nat (i - size * 104)%N).
Lemma shl1 r : (r < 64)%N -> wshl 64 1 (N.of_nat r) = 2 ^ N.of_nat r.
Proof. move=> L. rewrite /wshl N.shiftl_1_l /trunc N.mod_small //. apply: N.pow_lt_mono_r; lia. Qed.
Lemma join_pow0 r : (r < 64)%N -> join (2 ^ N.of_nat r) 0 = 2 ^ N.of_nat r.
Proof. by move=> L; rewrite /join /wval; cbn [u0 u1]; rewrite N.mul_0_l N.add_0_l. Qed.
Lemma join_pow1 r : join 0 (2 ^ N.of_nat r) = 2 ^ N.of_nat (64 + r)%N.
Proof. rewrite /join /wval; cbn [u0 u1]. rewrite N.add_0_r -N.pow_add_r. congr (2 ^ _). lia. Qed.
Lemma ds_setOneBit_ok g i : dsfmt_ok c g -> (i < n)%N -> exists g', [/\ ds_setOneBit i g = Ret g', dsfmt_ok c g',
  (forall j, (j < n)%N -> ds_bit g' j = (j == i)), ds_prev g' = 0 & rr_idx g'.1.2 = 0%N].
Proof.
move=> Hg Hi. have s2 := dc_size Hc.
case: g Hg => [[c' s] q] [E _ _ _ _]. cbn [fst] in E. rewrite E /ds_setOneBit /ds_setZero {q s c' E}. cbn [rr_idx rr_arr].
case: Nat.ltb_spec => L.
- have Hd : (i %/ 104 < size)%N by rewrite ltn_divLR //; lia.
  have M52 : (i %% 52 < 52)%N by rewrite ltn_pmod. have M2 : (i %/ 52 %% 2 < 2)%N by rewrite ltn_pmod.
  have D104 : (i %% 104 = i %/ 52 %% 2 * 52 + i %% 52)%N.
    by rewrite {1}(divn_eq i 52) {1}(divn_eq (i %/ 52) 2) mulnDl -addnA -mulnA modnMDl modn_small //; lia.
  rewrite !divE // !modE // nth_repeat0 lo64_0 hi64_0 shl1; last lia.
  have EW : (if (i %/ 52 %% 2 =? 0)%nat then join (2 ^ N.of_nat (i %% 52)%N) 0 else join 0 (2 ^ N.of_nat (i %% 52)%N)) = 2 ^ ds_bitpos (i %% 104)%N.
    rewrite /ds_bitpos D104. case: Nat.eqb_spec => K.
    + rewrite K join_pow0; last by apply: leq_trans M52 _. by rewrite mul0n add0n M52.
    + have K1 : (i %/ 52 %% 2 = 1)%N by move: M2 K; clear; case: (i %/ 52 %% 2)%N => [|[|?]]. rewrite K1 join_pow1. move: (i %% 52)%N => x. have -> : (1 * 52 + x < 52)%N = false by clear; lia. congr (2 ^ _). clear; lia.
  rewrite EW. have BP : ds_bitpos (i %% 104)%N < 116 by rewrite /ds_bitpos; have := ltn_pmod i (isT : 0 < 104)%N; clear; move: (i %% 104)%N => x; case: ifP; lia.
  have W2 : w52 (2 ^ ds_bitpos (i %% 104)%N).
    rewrite -EW; case: (_ =? 0)%nat; apply: w52_join; try exact: pow2_pos; apply: N.pow_lt_mono_r; lia.
  eexists; split; first exact: erefl.
  + split; cbn [fst snd ds_lung ds_prev rr_arr]; [by []| | |exact: (pow2_pos 128)|exact: w52_0].
    * split; cbn [rr_idx rr_arr]; first lia. split; first by rewrite put_len List.repeat_length.
      move=> j. rewrite nth_put; last by rewrite List.repeat_length; lia.
      case: (j =? _)%nat; last by rewrite nth_repeat0; exact: (pow2_pos 128). exact: w52_lt.
    * move=> j. rewrite nth_put; last by rewrite List.repeat_length; lia.
      case: (j =? _)%nat; last by rewrite nth_repeat0; exact: w52_0. exact: W2.
  + move=> j Hj. rewrite /ds_bit. cbn [fst snd ds_lung rr_arr]. case: ifP => Lj.
    * rewrite nth_put; last by rewrite List.repeat_length; lia.
      have Mi := ltn_pmod i (isT : 0 < 104)%N. have Mj := ltn_pmod j (isT : 0 < 104)%N.
      have Di := divn_eq i 104. have Dj := divn_eq j 104. 
      case: (Nat.eqb_spec (j %/ 104)%N (i %/ 104)%N) => E'.
      -- rewrite N.pow2_bits_eqb. apply/N.eqb_spec/eqP => [B|->] //. rewrite Di Dj E'. congr (_ + _)%N.
         move: B Mi Mj. rewrite /ds_bitpos. clear. by case: ifP; case: ifP; lia.
      -- rewrite nth_repeat0 N.bits_0. symmetry. apply/eqP => Eji. by apply: E'; rewrite Eji.
    * rewrite N.bits_0. symmetry. apply/eqP. lia.
  + by [].
  + by [].
- set k := (i - size * 104)%N. have Hk : (k < 128)%N by rewrite /k; lia.
  have D2 : (k %/ 64 < 2)%N by rewrite ltn_divLR.
  have M64 : (k %% 64 < 64)%N by rewrite ltn_pmod. have Dk := divn_eq k 64.
  rewrite !divE // !modE // -[(i - size * 104)%coq_nat]/k lo64_0 hi64_0 shl1 // (modn_small D2).
  have EW : (if (k %/ 64 =? 0)%nat then join (2 ^ N.of_nat (k %% 64)%N) 0 else join 0 (2 ^ N.of_nat (k %% 64)%N)) = 2 ^ N.of_nat k.
    case: Nat.eqb_spec => K; first by rewrite join_pow0 //; congr (2 ^ _); lia.
    rewrite join_pow1. congr (2 ^ _). lia.
  rewrite EW. eexists; split; first exact: erefl.
  + split; cbn [fst snd ds_lung ds_prev rr_arr]; [by []|apply: zero_rr; lia|exact: zero52| |exact: w52_0].
    apply: N.pow_lt_mono_r; lia.
  + move=> j Hj. rewrite /ds_bit. cbn [fst snd ds_lung rr_arr]. case: ifP => Lj.
    * rewrite nth_repeat0 N.bits_0. symmetry. apply/eqP. lia.
    * rewrite N.pow2_bits_eqb /k. clear -Lj L. lia.
  + by [].
  + by [].
Qed.
(** The position of bit i in the vector of the state. *)
Definition ds_idx (i : nat) : nat := if (i < size * 104)%N then ((i %/ 104 + size - 1) %% size * 104 + i %% 104)%N else i.
Lemma ds_idx_bit i j : (i < n)%N -> (j < n)%N ->
  ((if (j < size * 104)%N then ((1 + j %/ 104) %% size * 104 + j %% 104)%N else j) == i) = (j == ds_idx i).
Proof.
move=> Hi Hj. have s2 := dc_size Hc. rewrite /ds_idx.
have Mi := ltn_pmod i (isT : 0 < 104)%N. have Mj := ltn_pmod j (isT : 0 < 104)%N.
have Di := divn_eq i 104. have Dj := divn_eq j 104.
have Ki := ltn_pmod (i %/ 104 + size - 1) (leq_trans (isT : 0 < 2) s2)%N.
have Kj := ltn_pmod (1 + j %/ 104) (leq_trans (isT : 0 < 2) s2)%N.
case: (ltnP j (size * 104)) => Lj; case: (ltnP i (size * 104)) => Li; [|nia|nia|by []].
have Hdi : (i %/ 104 < size)%N by rewrite ltn_divLR.
have Hdj : (j %/ 104 < size)%N by rewrite ltn_divLR.
move: (i %/ 104)%N (j %/ 104)%N (i %% 104)%N (j %% 104)%N Mi Mj Di Dj Hdi Hdj {Ki Kj} => a b d e Md Me Di Dj Ha Hb.
have -> : ((a + size - 1) %% size = if a == 0 then size - 1 else a - 1)%N.
  case: eqP => Ea; first by rewrite Ea modn_small //; lia.
  have -> : (a + size - 1 = a - 1 + size)%N by lia. rewrite modnDr modn_small //. lia.
have -> : ((1 + b) %% size = if b == size - 1 then 0 else 1 + b)%N.
  case: eqP => Eb; first by rewrite Eb (_ : (1 + (size - 1) = size)%N) ?modnn //; lia. rewrite modn_small //. lia.
by clear -Md Me Di Dj Ha Hb s2; case: (b =P _) => A; case: (a =P _) => B; lia.
Qed.
Lemma ds_setOneBit_vec g i : dsfmt_ok c g -> (i < n)%N -> exists g', [/\ ds_setOneBit i g = Ret g', dsfmt_ok c g' &
  dsfmt_vec c g' = (\row_j (j == ds_idx i :> nat)%:R)%R].
Proof.
move=> Hg Hi. have s2 := dc_size Hc. have [g' [E H B Q I]] := ds_setOneBit_ok Hg Hi. exists g'; split=> //.
apply/rowP => j. rewrite !mxE /f2. congr ((nat_of_bool _)%:R)%R. rewrite /vl_bits /ds_posn.
have Hj := ltn_ord j. rewrite /dn in Hj.
case: (ltnP j n) => Ln; last first.
  have -> : (j < size * 104)%N = false by lia. cbn [fst snd].
  rewrite /ds_view. have -> : (size.+1 < size)%N = false by lia. have -> : (size.+1 == size) = false by lia.
  rewrite Q. have -> : (j == ds_idx i :> nat) = false.
    rewrite /ds_idx. have Mi := ltn_pmod i (isT : 0 < 104)%N. 
    have Ki := ltn_pmod (i %/ 104 + size - 1) (leq_trans (isT : 0 < 2) s2)%N. case: ifP => Li; apply/eqP; nia.
  case: ifP => _; exact: N.bits_0.
rewrite -(ds_idx_bit Hi Ln). case: ifP => L.
- have Mj := ltn_pmod j (isT : 0 < 104)%N. have Kj := ltn_pmod (1 + j %/ 104) (leq_trans (isT : 0 < 2) s2)%N.
  have LT : ((1 + j %/ 104) %% size * 104 + j %% 104 < size * 104)%N by nia.
  rewrite -B; last lia. rewrite /ds_bit LT divnMDl // (divn_small Mj) addn0 modnMDl modn_mod. cbn [fst snd].
  rewrite view_arr; last by rewrite ltn_divLR. rewrite /win I modE; last by lia. by [].
- cbn [fst snd]. rewrite view_lung -B; last lia. by rewrite /ds_bit L.
Qed.
End OneBit.

(** * Parity *)
Import GRing.Theory.
Section Par.
Variable c : dsc.
Hypothesis Hc : dsc_ok c.
Hypothesis w2 : e_weight c = 2%coqZ.
Hypothesis sl0 : (0 < d_sl1 (e_par c))%coqZ.
Notation size := (e_size c).
Notation p := (e_par c).
Notation n := (e_size c * 104 + 128)%N.
Let vg := ds_vg Hc.

Definition ds_e (i : nat) : 'rV['F_2]_(dn c) := (\row_j (j == ds_idx c i :> nat)%:R)%R.
(** Bit j (from the top) of the lung. *)
Definition ds_Q (j : nat) : 'cV['F_2]_(dn c) := (\col_(i < dn c) ((i == (size * 104 + 127 - j)%N :> nat) : bool)%:R)%R.
Lemma dn2 : dn c = n.
Proof. by rewrite /dn /dm w2 addn0. Qed.
Lemma ds_obit_Q x j (H : (size * 104 + 127 - j < dn c)%N) : (obit ds_Q x j = x 0 (Ordinal H))%R.
Proof.
rewrite /obit mxE (bigD1 (Ordinal H)) //= mxE eqxx mulr1 big1 ?addr0 // => i Hi.
rewrite mxE (_ : (_ == _ :> nat) = false) ?mulr0 //. by apply/negbTE; apply: contra Hi => /eqP E; apply/eqP/val_inj.
Qed.
Lemma ds_Q_ok g j : dsfmt_ok c g -> N.of_nat j < 128 -> msb 128 (ds_getParity g) j = obit ds_Q (dsfmt_vec c g) j.
Proof.
move=> Hg Hj. have H : (size * 104 + 127 - j < dn c)%N by rewrite /dn; lia.
rewrite ds_obit_Q /msb /dsfmt_vec /vl_vec mxE /f2 /vl_bits /ds_posn. cbn [nat_of_ord].
have -> : (size * 104 + 127 - j < size * 104)%N = false by lia.
have -> : (size * 104 + 127 - j < size * 104 + 128)%N by lia. cbn [fst snd]. rewrite view_lung /ds_getParity.
congr (N.testbit _ _)%:R%R. lia.
Qed.
Lemma ds_idx_lt i : (i < n)%N -> (ds_idx c i < n)%N.
Proof.
move=> Hi. have s2 := dc_size Hc. rewrite /ds_idx. have Mi := ltn_pmod i (isT : 0 < 104)%N.
have Ki := ltn_pmod (i %/ 104 + size - 1) (leq_trans (isT : 0 < 2) s2)%N. case: ifP => Li; [nia|exact: Hi].
Qed.
Lemma ds_e_full : row_full (\matrix_(i < n) ds_e i)%R.
Proof.
rewrite -sub1mx. apply/row_subP => j. have Hj : (j < n)%N by rewrite -dn2.
have s2 := dc_size Hc.
pose i := (if (j < size * 104)%N then ((1 + j %/ 104) %% size * 104 + j %% 104)%N else nat_of_ord j).
have Hi : (i < n)%N.
  rewrite /i. have Mj := ltn_pmod j (isT : 0 < 104)%N. have Kj := ltn_pmod (1 + j %/ 104) (leq_trans (isT : 0 < 2) s2)%N.
  case: ifP => L; [nia|exact: Hj].
have E := ds_idx_bit Hc Hi Hj. rewrite eqxx in E.
rewrite (_ : row j 1%:M = row (Ordinal Hi) (\matrix_(i < n) ds_e i))%R; first exact: row_sub.
apply/rowP => k. rewrite !mxE. congr ((nat_of_bool _)%:R)%R. cbn [nat_of_ord].
have /eqP <- : nat_of_ord j == ds_idx c i by rewrite -E. exact: eq_sym.
Qed.
Lemma ds_parity_gen : parity_gen ds_ops ds_par_ops (dsfmt_ok c) (dsfmt_vec c) n ds_e ds_Q.
Proof.
split.
- move=> s Hs. apply/idP/eqP => H; exact/(dsfmt_isZero Hc w2 Hs).
- by move=> s [E _ _ _ _]; cbn [g_bitSize ds_ops]; rewrite -[fst (fst s)]/(s.1.1) E.
- by move=> s i Hs Hi; right; exact: (ds_setOneBit_vec Hc Hs Hi).
- exact: ds_e_full.
- by move=> s [_ _ _ H _].
- by move=> s j Hs Hj; exact: ds_Q_ok.
Qed.
(** The states along the run. *)
Definition ds_it (s : dsfmt) (k : nat) : dsfmt := iter k (ds_nexts c) s.
Lemma ds_it_ok s k : dsfmt_ok c s -> dsfmt_ok c (ds_it s k).
Proof. by move=> Hs; elim: k => [//|k IH]; exact: (ds_nexts_ok Hc IH). Qed.
Lemma ds_it_run s k : dsfmt_ok c s -> run ds_ops k s = ds_it s k.
Proof.
move=> Hs. rewrite /run /ds_it. elim: k => [//|k IH]. rewrite !iterS IH.
exact: (ds_gen2 Hc (ds_it_ok k Hs)).
Qed.
Lemma ds_it_vec k s : dsfmt_ok c s -> dsfmt_vec c (ds_it s k) = st (dsfmt_A c) k (dsfmt_vec c s).
Proof.
move=> Hs. elim: k => [//|k IH]. rewrite /ds_it iterS /st iterS -/(st _ k _) -IH -(ds_gen2 Hc (ds_it_ok k Hs)).
exact: (vl_gen_vec vg (ds_it_ok k Hs)).
Qed.
(** The words and the lungs of the run. *)
Definition ds_W (s : dsfmt) (k : nat) : N := win size (ds_it s k).1.2 0.
Definition ds_U (s : dsfmt) (k : nat) : N := ds_lung (ds_it s k).
Lemma ds_it_win s k j : dsfmt_ok c s -> (k < size)%N -> win size (ds_it s j).1.2 k = ds_W s (j + k).
Proof.
move=> Hs. elim: k j => [|k IH] j Hk; first by rewrite addn0.
have := ds_nexts_view Hc (ds_it_ok j Hs) (_ : (k < size.+2)%N). rewrite view_arr; last lia.
rewrite -[ds_nexts c (ds_it s j)]/(ds_it s j.+1) IH; last lia. rewrite /vF.
have -> : (k < size - 1)%N by lia. rewrite view_arr // => <-; last lia. by rewrite addSnnS.
Qed.
Lemma ds_U_rec s k : dsfmt_ok c s -> ds_U s k.+1 = dlung p (ds_W s k) (ds_W s (k + ds_pos c)) (ds_U s k).
Proof.
move=> Hs. have s2 := dc_size Hc. have q := ds_pos_lt Hc. rewrite /ds_U -[ds_it s k.+1]/(ds_nexts c (ds_it s k)).
cbn [ds_nexts ds_lung fst snd]. by rewrite /vL view_lung !view_arr ?ds_it_win ?addn0 //; lia.
Qed.
Lemma ds_W_rec s k : dsfmt_ok c s -> ds_W s (k + size) = dnew p (ds_W s k) (ds_U s k.+1).
Proof.
move=> Hs. have s2 := dc_size Hc.
have := ds_nexts_view Hc (ds_it_ok k Hs) (_ : (size - 1 < size.+2)%N). rewrite view_arr; last lia.
rewrite -[ds_nexts c (ds_it s k)]/(ds_it s k.+1) ds_it_win //; last lia. rewrite /vF ltnn.
have -> : (size - 1 < size)%N by lia. have -> : (k.+1 + (size - 1) = k + size)%N by lia. move=> ->; last lia.
rewrite /vN view_arr; last lia. by rewrite ds_it_win ?addn0 //; lia.
Qed.
Lemma ds_W_52 s k : dsfmt_ok c s -> w52 (ds_W s k).
Proof. move=> Hs. exact: (win52 _ (ds_it_ok k Hs)). Qed.
Lemma ds_U_lt s k : dsfmt_ok c s -> ds_U s k < 2 ^ 128.
Proof. by move=> Hs; have [_ _ _ L _] := ds_it_ok k Hs. Qed.
Lemma lungw0 t b : lungw (d_sl1 p) t 0 b = 0 -> b = wshl 64 t (Z.to_N (d_sl1 p)).
Proof.
rewrite /lungw /wshr N.shiftr_0_l /wshl N.shiftl_0_l !N.lxor_0_r => /N.lxor_eq_0_iff. by move=> ->.
Qed.
(** With a lung that stays zero the words repeat and are shifts of each other. *)
Lemma ds_lung_zero s : dsfmt_ok c s -> (forall k, ds_U s k = 0) -> forall k, ds_W s k = 0.
Proof.
move=> Hs U0 k. have s2 := dc_size Hc.
have R j : ds_W s (j + size) = ds_W s j.
  rewrite ds_W_rec // U0 dnew_0 //. exact: (w52_lt (ds_W_52 _ Hs)).
have RM j m : ds_W s (j + m * size) = ds_W s j.
  by elim: m => [|m IH]; rewrite ?addn0 // mulSn addnCA addnC R.
have HS j : lo64 (ds_W s (j + ds_pos c)) = wshl 64 (lo64 (ds_W s j)) (Z.to_N (d_sl1 p)) /\
    hi64 (ds_W s (j + ds_pos c)) = wshl 64 (hi64 (ds_W s j)) (Z.to_N (d_sl1 p)).
  have := ds_U_rec j Hs. rewrite !U0 /dlung lo64_0 hi64_0 -join_0 => /esym E.
  have K : lungw (d_sl1 p) (lo64 (ds_W s j)) 0 (lo64 (ds_W s (j + ds_pos c))) < 2 ^ 64 by apply: lungw_lt; [exact: pow2_pos|exact: lo64_lt].
  have [E1 E2] := join_eq K (pow2_pos 64) E. by split; apply: lungw0.
have B m j i : i < N.of_nat m -> N.testbit (lo64 (ds_W s (j + m * ds_pos c))) i = false /\ N.testbit (hi64 (ds_W s (j + m * ds_pos c))) i = false.
  elim: m j i => [|m IH] j i Hi; first lia.
  have -> : (j + m.+1 * ds_pos c = j + m * ds_pos c + ds_pos c)%N by rewrite mulSn; lia.
  have [-> ->] := HS (j + m * ds_pos c)%N. rewrite !wshl_spec.
  case: (N.ltb_spec i 64) => _; last by []. case: N.leb_spec => L; last by [].
  cbn [andb]. apply: IH. lia.
have E : ds_W s k = ds_W s (k + (64 * size) * ds_pos c) by rewrite (mulnC 64) -mulnA mulnC RM.
have {}B i : i < 64 -> N.testbit (lo64 (ds_W s k)) i = false /\ N.testbit (hi64 (ds_W s k)) i = false.
  move=> Hi. rewrite E. apply: B. nia.
have [L1 L2] := ds_W_52 k Hs.
apply: lohi_0; apply: N.bits_inj => i; rewrite N.bits_0; case: (N.ltb_spec i 64) => Hi;
  [by case: (B i Hi)|by apply: (bits_above 64); [exact: lt52_64|]|by case: (B i Hi)|by apply: (bits_above 64); [exact: lt52_64|]].
Qed.
Lemma ds_observable : observable (dsfmt_A c) ds_Q 128.
Proof.
move=> x H. have s2 := dc_size Hc. have [s Hs Es] := vl_sur vg x.
have U0 k : ds_U s k = 0.
  apply: (@msb_inj0 128); first exact: ds_U_lt.
  move=> j Hj. rewrite [msb _ _ _](ds_Q_ok (ds_it_ok k Hs) Hj) -(H k j Hj). congr obit. rewrite -Es. exact: ds_it_vec.
rewrite -Es. apply/(dsfmt_zero Hc Hs). split; [|exact: (U0 0%N)|by move=> K; case: K].
move=> k Hk. rewrite -[s]/(ds_it s 0) ds_it_win //. exact: ds_lung_zero.
Qed.

Section Search.
Variables (pos : N -> res Z) (kernel : nat -> nat -> (nat -> nat -> bool) -> list (list bool)) (f : f2x) (d : nat).
Hypothesis Hpos : pos_spec 128 pos.
Hypothesis HK : kernel_spec kernel.
Hypothesis I : irreducible_poly f.
Hypothesis sf : seq.size f = d.+1.
Hypothesis D1 : (f %| char_poly (dsfmt_A c))%R.
Hypothesis D2 : ~~ (f ^+ 2 %| char_poly (dsfmt_A c))%R.
Lemma ds_setting : parity_setting ds_ops ds_par_ops (dsfmt_ok c) (dsfmt_vec c) (dsfmt_A c) (dsfmt_C c) pos kernel
  n ds_e ds_Q d f.
Proof. by split=> //; [exact: dsfmt_lin|exact: ds_parity_gen|exact: dsfmt_unit]. Qed.
Lemma ds_search junk fuel g : d_mexp p = Z.of_nat d -> (n < d + 128)%N -> (n <= fuel)%N -> dsfmt_ok c g ->
  exists v, [/\ searchParity ds_ops ds_par_ops pos kernel (Some junk) fuel g f = Ret (v, ds_setParity v g), 0 < v < 2 ^ 128 &
    forall s, dsfmt_ok c s -> inner 128 v (ds_getParity s) = 1%R ->
      (dsfmt_vec c s *m poly_mx (dsfmt_A c) (char_poly (dsfmt_A c) %/ f) != 0)%R /\
      (primitive f d -> forall k, dsfmt_vec c (run ds_ops k s) = dsfmt_vec c s -> 2 ^ d - 1 %| k)%N].
Proof.
move=> Ed Hn Hf Hg.
have Em : p_getMexp ds_par_ops g = Z.of_nat d by have [E _ _ _ _] := Hg; cbn [p_getMexp ds_par_ops]; rewrite -[fst (fst g)]/(g.1.1) E.
have := spec junk fuel ds_setting Hg Em.
have C := @certifies _ _ _ _ _ _ _ _ _ _ _ _ _ _ _ junk fuel g ds_setting Hg Em.
have T := @no_throw _ _ _ _ _ _ _ _ _ _ _ _ _ _ _ junk fuel g ds_setting Hg Em.
case E : searchParity => [[v g']|||//|] K.
- exists v. have [v0 Eg H] := C v g' E. split=> //. by rewrite Eg.
- case: K => s [i [H1 H2 H3]]. have [g' [H4 _ _]] := ds_setOneBit_vec Hc H1 H2. by move: H3; cbn [p_setOneBit ds_par_ops]; rewrite H4.
- by case: (T _ E); move: Hn; rewrite -dn2.
- case: K; split; first exact: ds_observable. by move: Hf; rewrite -dn2.
Qed.
End Search.
End Par.
