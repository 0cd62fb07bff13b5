(** The class dSFMT: the sequence of 52-bit words. *)
From Coq Require Import NArith ZArith Lia Bool List.
From mathcomp Require Import all_ssreflect all_algebra.
From mathcomp Require Import zify.
From Verif Require Import Base WordLemmas UtilModel GenModel LinSpec LinLemmas PeriodSpec PeriodProofs4 XorshiftProofs ArrayModel ArrayWin ArrayLin
  ViewLin W128Model SfmtModel DsfmtModel DsfmtLin DsfmtProofs DsfmtPar.
Set Implicit Arguments.
Unset Strict Implicit.
Unset Printing Implicit Defensive.
Local Open Scope N_scope.
Delimit Scope Z_scope with coqZ.

(** Half i of a word. *)
Definition half (i : nat) (x : N) : N := if i is 0%N then lo64 x else hi64 x.
Definition ds_phase (mode : Z) : nat := match mode with 0%coqZ => 2 | _ => 1 end%N.
Definition ds_words2 (mode : Z) : nat := match mode with 2%coqZ => 2 | _ => 1 end%N.

Section Seq.
Variable c : dsc.
Hypothesis Hc : dsc_ok c.
Notation size := (e_size c).
Notation p := (e_par c).
Definition ds_Y (s : dsfmt) (q : nat) : N := half (Nat.modulo q 2) (ds_W c s (Nat.div q 2)).
Lemma divmod2 k i : (i < 2)%N -> Nat.div (2 * k + i)%N 2 = k /\ Nat.modulo (2 * k + i)%N 2 = i.
Proof. move=> Hi. split; symmetry; [apply: (Nat.div_unique _ _ _ i)|apply: (Nat.mod_unique _ _ k)]; lia. Qed.
Lemma ds_YE s k i : (i < 2)%N -> ds_Y s (2 * k + i) = half i (ds_W c s k).
Proof. by move=> Hi; rewrite /ds_Y; have [-> ->] := divmod2 k Hi. Qed.
Lemma ds_R s j i : dsfmt_ok c s -> (i < 2)%N ->
  half i (vR c (ds_view c (ds_it c s j))) = ds_Y s (2 * (j + size - 1) + ds_phase (e_start c) + i).
Proof.
move=> Hs Hi. have s2 := dc_size Hc. have Hj := ds_it_ok Hc j Hs. have V := ds_small_view Hj.
have EN : vN c (ds_view c (ds_it c s j)) = ds_W c s (j + size).
  rewrite ds_W_rec // /vN view_arr; last lia. rewrite ds_it_win //; last lia. by rewrite addn0.
have HW := w52_lt (ds_W_52 Hc (j + (size - 1)) Hs).
rewrite /vR EN view_arr; last lia. rewrite ds_it_win //; last lia.
have K : ds_phase (e_start c) = 2%N /\ (forall x y, ds_start (e_start c) x y = y) \/
    ds_phase (e_start c) = 1%N /\ (forall x y, ds_start (e_start c) x y = join (hi64 x) (lo64 y)).
  by rewrite /ds_phase /ds_start; case: (e_start c) => [|?|?]; [left|right|right].
case: K => -[-> ES]; rewrite ES.
- have -> : (2 * (j + size - 1) + 2 + i = 2 * (j + size) + i)%N by lia. by rewrite ds_YE.
- case: i Hi => [|[|//]] _.
  + have -> : (2 * (j + size - 1) + 1 + 0 = 2 * (j + (size - 1)) + 1)%N by lia. rewrite ds_YE //. cbn [half]. by rewrite lo_join //; exact: hi64_lt.
  + have -> : (2 * (j + size - 1) + 1 + 1 = 2 * (j + size) + 0)%N by lia. rewrite ds_YE //. cbn [half]. by rewrite hi_join //; exact: hi64_lt.
Qed.
Lemma ds_blocks s j i : dsfmt_ok c s -> (e_weight c = 2%coqZ \/ (0 < j)%N) -> (i < 2)%N ->
  half i (g_generate ds_ops (run ds_ops j s)).1 =
  ds_Y s (2 * (j + size - 1) + ds_phase (e_start c) + i - (if (i < ds_words2 (e_weight c))%N then 0 else 2)%N).
Proof.
move=> Hs Hj Hi. have s2 := dc_size Hc. rewrite (ds_it_run Hc) //. have H := ds_it_ok Hc j Hs.
cbn [g_generate ds_ops]. rewrite (ds_generateE Hc H). cbn [ds_run fst]. rewrite /vO.
have K : wt2 (e_weight c) = true /\ ds_words2 (e_weight c) = 2%N \/ wt2 (e_weight c) = false /\ ds_words2 (e_weight c) = 1%N /\ (0 < j)%N.
  move: Hj. rewrite /wt2 /ds_words2. by case: (e_weight c) => [|[?|[?|?|]|]|?] [] //; auto.
case: K => [[-> ->]|[EW [-> j0]]]; first by rewrite Hi subn0 ds_R.
rewrite EW. case: i Hi => [|[|//]] _.
- cbn [half]. rewrite lo_join; last exact: lo64_lt. by rewrite subn0 -ds_R.
- cbn [half]. rewrite hi_join; last exact: lo64_lt. case: j j0 H {Hj} => // j _ H.
  have -> : (2 * (j.+1 + size - 1) + ds_phase (e_start c) + 1 - (if (1 < 1)%N then 0 else 2)%N = 2 * (j + size - 1) + ds_phase (e_start c) + 1)%N.
    rewrite ltnn. lia.
  rewrite -ds_R // {1}/ds_view. have -> : (size.+1 < size)%N = false by lia. have -> : (size.+1 == size) = false by lia. by rewrite EW.
Qed.
End Seq.

(** The recursion bit by bit: bit i of half h of the new lung and the new word. *)
Lemma lungw_bit sl t L b i : i < 64 -> L < 2 ^ 64 ->
  N.testbit (lungw sl t L b) i =
    xorb (xorb ((Z.to_N sl <=? i) && N.testbit t (i - Z.to_N sl)) (N.testbit L (if i <? 32 then i + 32 else i - 32))) (N.testbit b i).
Proof.
move=> Hi HL. rewrite /lungw !N.lxor_spec !wshl_spec wshr_spec. have -> : (i <? 64) by lia. rewrite !andTb.
case: (N.ltb_spec i 32) => M.
- have -> : (32 <=? i) = false by lia. by case: (_ <=? i); rewrite ?xorb_false_r.
- have -> : (32 <=? i) by lia. rewrite (bits_above 64 L (i + 32)) //; last lia. by case: (_ <=? i); rewrite ?xorb_false_r.
Qed.
Lemma new_bit m t l i : N.testbit (ds_new_word m t l) i = xorb (xorb (N.testbit l (i + 12)) (N.testbit l i && N.testbit m i)) (N.testbit t i).
Proof. by rewrite /ds_new_word !N.lxor_spec N.land_spec wshr_spec. Qed.
Lemma drec_bits p a b L i h : b < 2 ^ 128 -> L < 2 ^ 128 -> (h < 2)%N -> i < 64 ->
  let bit x k := N.testbit x (Z.to_N k) in
  let j := (64 * Z.of_nat h + Z.of_N i)%coqZ in
  let l := dlung p a b L in
  (bit l j = xorb (xorb ((d_sl1 p <=? Z.of_N i)%coqZ && bit a (j - Z.max 0 (d_sl1 p))%coqZ)
       (bit L (64 * (1 - Z.of_nat h) + (Z.of_N i + 32) mod 64)%coqZ)) (bit b j)) /\
  (bit (dnew p a l) j = xorb (xorb ((i <? 52) && bit l (j + 12)%coqZ) (bit l j && N.testbit (if h is 0%N then d_msk1 p else d_msk2 p) i)) (bit a j)).
Proof.
move=> Hb HL Hh Hi bit j l. rewrite /bit.
have Hbh := hi64_lt Hb.
have HLh := hi64_lt HL. have HLl := lo64_lt L.
have LW k : half h (dlung p a b L) = lungw (d_sl1 p) (half h a) (half (1 - h) L) (half h b) /\
   half h (dnew p a k) = ds_new_word (if h is 0%N then d_msk1 p else d_msk2 p) (half h a) (half h k).
  case: h Hh j l => [|[|//]] _ j l; cbn [half subn]; rewrite /dlung /dnew.
  - split; [rewrite lo_join //; apply: lungw_lt => //; exact: lo64_lt|rewrite lo_join //; apply: new_lt64; exact: lo64_lt].
  - split; [rewrite hi_join //; apply: lungw_lt => //; exact: lo64_lt|rewrite hi_join //; apply: new_lt64; exact: lo64_lt].
have HB x k : k < 64 -> N.testbit x (Z.to_N (64 * Z.of_nat h + Z.of_N k)) = N.testbit (half h x) k.
  move=> Hk. case: h Hh {j l LW} => [|[|//]] _; cbn [half].
  - rewrite lo64_bit. have -> : (k <? 64) by lia. rewrite andTb. congr N.testbit. lia.
  - rewrite hi64_bit. congr N.testbit. lia.
have HL' : half (1 - h) L < 2 ^ 64 by case: h Hh {j l LW HB} => [|[|//]] _.
have HB' x k : k < 64 -> N.testbit x (Z.to_N (64 * (1 - Z.of_nat h) + Z.of_N k)) = N.testbit (half (1 - h) x) k.
  move=> Hk. case: h Hh {j l LW HB HL'} => [|[|//]] _; cbn [half subn].
  - rewrite hi64_bit. congr N.testbit. lia.
  - rewrite lo64_bit. have -> : (k <? 64) by lia. rewrite andTb. congr N.testbit. lia.
have [LW1 _] := LW 0. have [_ LW2] := LW l. have Ej : j = (64 * Z.of_nat h + Z.of_N i)%coqZ by []. split.
- rewrite Ej !HB // LW1 lungw_bit //. congr xorb. congr xorb.
  + have -> : (Z.to_N (d_sl1 p) <=? i) = (d_sl1 p <=? Z.of_N i)%coqZ by lia. case: Z.leb_spec => K //. rewrite !andTb.
    rewrite -HB; last lia. congr N.testbit. lia.
  + have -> : ((Z.of_N i + 32) mod 64)%coqZ = Z.of_N (if i <? 32 then i + 32 else i - 32).
      case: N.ltb_spec => K; first by rewrite Z.mod_small; lia.
      symmetry. apply: (Z.mod_unique_pos _ _ 1); lia.
    by rewrite HB' //; case: N.ltb_spec; lia.
- have EE : l = dlung p a b L by []. rewrite Ej !HB // LW2 new_bit. congr xorb. congr xorb.
  have Hl : half h l < 2 ^ 64.
    rewrite EE LW1. case: h Hh HL' {j l LW HB HB' LW1 LW2 Ej EE} => [|[|//]] _ HL'; apply: lungw_lt => //; cbn [half] => //; exact: lo64_lt.
  case: N.ltb_spec => K.
  + rewrite andTb -HB; last lia. congr N.testbit. lia.
  + apply: (bits_above 64) => //. lia.
Qed.
