(** The class dSFMT: the state, isZero, invertibility, setOneBit, seed,
    setUpParam and the sequence. *)
From Coq Require Import NArith ZArith Lia Bool List.
From mathcomp Require Import all_ssreflect all_algebra.
From mathcomp Require Import zify.
From Verif Require Import Base WordLemmas WordVec UtilModel UtilProofs GenModel LinSpec LinLemmas LinInst LinOut PeriodSpec XorshiftProofs TinyLin
  ArrayModel ArrayWin ArrayLin ArrayOut MtdcLin ViewLin W128Model W128Spec W128Proofs W128Cert ParityModel SfmtModel SfmtLin SfmtProofs SfmtParity
  PeriodProofs4 DsfmtModel DsfmtLin.
Set Implicit Arguments.
Unset Strict Implicit.
Unset Printing Implicit Defensive.
Local Open Scope N_scope.
Delimit Scope Z_scope with coqZ.

Lemma lungw_swap0 sl L : L < 2 ^ 64 -> lungw sl 0 L 0 = 0 -> L = 0.
Proof.
move=> HL E. apply: N.bits_inj => i. rewrite N.bits_0.
have Z : wshl 64 0 (Z.to_N sl) = 0 by rewrite /wshl N.shiftl_0_l.
have B k : xorb (N.testbit (wshr L 32) k) (N.testbit (wshl 64 L 32) k) = false.
  by have := congr1 (fun x => N.testbit x k) E; rewrite /lungw Z N.lxor_0_l N.lxor_0_r N.lxor_spec N.bits_0.
case: (N.ltb_spec i 64) => L64; last exact: (bits_above 64).
case: (N.ltb_spec i 32) => M.
- have := B (i + 32). rewrite wshl_spec wshr_spec.
  have -> : (i + 32 <? 64) by lia. have -> : (32 <=? i + 32) by lia. have -> : i + 32 - 32 = i by lia.
  by rewrite (bits_above 64 L (i + 32 + 32)) ?xorb_false_l //; lia.
- have := B (i - 32). rewrite wshl_spec wshr_spec. have -> : i - 32 + 32 = i by lia.
  have -> : (32 <=? i - 32) = false by lia. by rewrite andb_false_r xorb_false_r.
Qed.
Lemma lohi_0 x : lo64 x = 0 -> hi64 x = 0 -> x = 0.
Proof. by move=> E1 E2; rewrite -(join_lohi x) E1 E2. Qed.
Lemma lo64_0 : lo64 0 = 0. Proof. by []. Qed.
Lemma hi64_0 : hi64 0 = 0. Proof. by []. Qed.
Lemma dlung_swap0 p L : L < 2 ^ 128 -> dlung p 0 0 L = 0 -> L = 0.
Proof.
move=> HL. rewrite /dlung lo64_0 hi64_0 => E. have HLh := hi64_lt HL. have HLl := lo64_lt L.
have K1 : lungw (d_sl1 p) 0 (hi64 L) 0 < 2 ^ 64 by apply: lungw_lt.
rewrite -join_0 in E. have [E1 E2] := join_eq K1 (pow2_pos 64) E.
by apply: lohi_0; [exact: (lungw_swap0 HLl E2)|exact: (lungw_swap0 HLh E1)].
Qed.
Lemma dnew_0 p a : a < 2 ^ 128 -> dnew p a 0 = a.
Proof.
move=> Ha. rewrite /dnew lo64_0 hi64_0 /ds_new_word /wshr N.shiftr_0_l !N.land_0_l !N.lxor_0_l. exact: join_lohi.
Qed.

Section Gen.
Variable c : dsc.
Hypothesis Hc : dsc_ok c.
Notation size := (e_size c).
Notation p := (e_par c).
Notation dn := (dn c).
Let vg := ds_vg Hc.

Lemma ds_gen2 s : dsfmt_ok c s -> (g_generate ds_ops s).2 = ds_nexts c s.
Proof. by move=> Hs; cbn [g_generate ds_ops]; rewrite (ds_generateE Hc). Qed.
Lemma dsfmt_state s t : dsfmt_ok c s -> dsfmt_ok c t -> dsfmt_vec c s = dsfmt_vec c t <->
  [/\ forall k, (k < size)%N -> win size s.1.2 k = win size t.1.2 k, ds_lung s = ds_lung t &
      e_weight c <> 2%coqZ -> hi64 (ds_prev s) = hi64 (ds_prev t)].
Proof.
move=> Hs Ht. rewrite (vl_state vg Hs Ht). split=> [E|[E1 E2 E3] k Hk].
- split.
  + move=> k Hk. have := E k. rewrite !view_arr //. apply. lia.
  + have := E size. rewrite !view_lung. apply. lia.
  + move=> W. have := E size.+1. rewrite /ds_view. have -> : (size.+1 < size)%N = false by lia.
    have -> : (size.+1 == size) = false by lia. have -> : wt2 (e_weight c) = false by rewrite /wt2; lia. by apply.
- rewrite /ds_view. case: ifP => K; first exact: E1. case: ifP => _; first exact: E2. case W: (wt2 _) => //. apply: E3. by move: W; rewrite /wt2; lia.
Qed.
(** isZero. *)
Lemma ds_isZeroE s : dsfmt_ok c s -> ds_isZero s = true <->
  [/\ forall k, (k < size)%N -> win size s.1.2 k = 0, ds_lung s = 0 & e_weight c <> 2%coqZ -> w32 (w_of (ds_prev s)) 1 = 0].
Proof.
case: s => [[c' s] [l q]] [E R W L P]. cbn [fst snd ds_lung ds_prev] in *. rewrite /ds_isZero E. have s2 := dc_size Hc.
have [Hi [Hl _]] := R.
have Z : rr_zero_loop size size 0 0 (rr_arr s) = true <-> forall k, (k < size)%N -> win size s k = 0.
  rewrite zero_loop_ok; last lia.
  rewrite -[forall k, _ -> win size s k = 0]/(forall k, (k < size)%N -> win size s k = 0) -zero_win //; [|lia|lia].
  by split=> Z j Hj; have := Z j; rewrite /rr_at Nat.add_0_l Nat.mod_small; (try apply); lia.
have ZL : (negb (lo64 l =? 0) || negb (hi64 l =? 0)) = false <-> l = 0.
  split; last by move=> ->. rewrite -negb_and => /negbFE/andP[/N.eqb_eq A /N.eqb_eq B]. exact: lohi_0.
case EZ: (rr_zero_loop _ _ _ _ _); last by split=> // -[A _ _]; move/Z: A; rewrite EZ.
case EL: (_ || _); first by split=> // -[_ A _]; move/ZL: A; rewrite EL.
have -> : (match e_weight c with 2%coqZ => true | _ => w32 (w_of q) 1 =? 0 end) = (wt2 (e_weight c) || (w32 (w_of q) 1 =? 0)).
  by rewrite /wt2; case: (e_weight c) => [|[?|[?|?|]|]|?].
split.
- move=> K. split; [exact/Z|exact/ZL|]. move=> Hw. move: K. have -> : wt2 (e_weight c) = false by rewrite /wt2; lia. by move/N.eqb_eq.
- move=> [_ _ K]. case W2: (wt2 _); first by []. rewrite orFb. apply/N.eqb_eq. apply: K. by move: W2; rewrite /wt2; lia.
Qed.
Lemma dsfmt_zero s : dsfmt_ok c s -> dsfmt_vec c s = 0%R <->
  [/\ forall k, (k < size)%N -> win size s.1.2 k = 0, ds_lung s = 0 & e_weight c <> 2%coqZ -> hi64 (ds_prev s) = 0].
Proof.
move=> Hs. rewrite (vl_vec_zero vg Hs). split=> [E|[E1 E2 E3] k Hk].
- split.
  + move=> k Hk. rewrite -view_arr //. apply: E. lia.
  + rewrite -(view_lung c). apply: E. lia.
  + move=> W. have := E size.+1. rewrite /ds_view. have -> : (size.+1 < size)%N = false by lia.
    have -> : (size.+1 == size) = false by lia. have -> : wt2 (e_weight c) = false by rewrite /wt2; lia. by apply.
- rewrite /ds_view. case: ifP => K; first exact: E1. case: ifP => _; first exact: E2. case W: (wt2 _) => //. apply: E3. by move: W; rewrite /wt2; lia.
Qed.
Lemma dsfmt_isZero s : e_weight c = 2%coqZ -> dsfmt_ok c s -> ds_isZero s = true <-> dsfmt_vec c s = 0%R.
Proof. by move=> w2 Hs; rewrite ds_isZeroE // dsfmt_zero //; split=> -[A B _]; split=> // K; case: K. Qed.

(** * Invertible *)
Lemma dsfmt_unit : e_weight c = 2%coqZ -> dsfmt_A c \in unitmx.
Proof.
move=> w2. apply: (vl_unit vg) => s Hs E. have s2 := dc_size Hc. have V := ds_small_view Hs. have q := ds_pos_lt Hc.
have {}E k : (k < size.+2)%N -> vF c k (ds_view c s) = 0.
  by move=> Hk; rewrite -(ds_nexts_view Hc Hs Hk) -ds_gen2 //; exact: E.
set a := ds_view c s in V E *.
have EA k : (0 < k < size)%N -> a k = 0.
  move=> Hk. have := E k.-1. rewrite /vF. have -> : (k.-1 < size - 1)%N by lia. have -> : k.-1.+1 = k by lia. apply. lia.
have EL : vL c a = 0.
  have := E size. rewrite /vF. have -> : (size < size - 1)%N = false by lia. rewrite ltnn eqxx. apply. lia.
have E0 : a 0%N = 0.
  have := E (size - 1)%N. rewrite /vF ltnn. have -> : (size - 1 < size)%N by lia. rewrite /vN EL dnew_0 //. apply. lia.
have EU : a size = 0.
  move: EL. rewrite /vL E0. have -> : a (ds_pos c) = 0 by case: (posnP (ds_pos c)) => [->|K] //; apply: EA; lia.
  exact: dlung_swap0.
move=> k Hk. case: (ltngtP k size) => K; last by rewrite K.
- case: (posnP k) => [->|K'] //. apply: EA. lia.
- rewrite /a /ds_view. have -> : (k < size)%N = false by lia. have -> : (k == size) = false by lia. by rewrite w2.
Qed.
Definition ds_sing_state : dsfmt := ((c, RR 0 (List.repeat 0 size)), (0, join 0 1)).
Lemma zero52 j : w52 (List.nth j (List.repeat 0 size) 0).
Proof. rewrite nth_repeat0. exact: w52_0. Qed.
Lemma zero_rr i : (i < size)%N -> rr_ok 128 size (RR i (List.repeat 0 size)).
Proof.
move=> Hi. split; cbn [rr_idx rr_arr]; first lia. split; first exact: List.repeat_length.
move=> j. rewrite nth_repeat0. exact: (pow2_pos 128).
Qed.
Lemma ds_sing_ok : dsfmt_ok c ds_sing_state.
Proof.
have s2 := dc_size Hc.
split; [by []|apply: zero_rr; lia|exact: zero52|exact: (pow2_pos 128)|apply: w52_join; [exact: pow2_pos|by []]].
Qed.
Lemma dsfmt_sing : e_weight c <> 2%coqZ -> dsfmt_A c \notin unitmx.
Proof.
move=> w2. have s2 := dc_size Hc. have W : wt2 (e_weight c) = false by rewrite /wt2; lia.
have Hs := ds_sing_ok.
have EV k : (k < size.+1)%N -> ds_view c ds_sing_state k = 0.
  move=> Hk. rewrite /ds_view. case: ifP => K; first by rewrite /win; cbn [ds_sing_state fst snd rr_arr]; rewrite nth_repeat0.
  have -> : k == size by lia. by [].
have q := ds_pos_lt Hc.
have EL : vL c (ds_view c ds_sing_state) = 0.
  rewrite /vL !EV; [|lia|lia|lia]. rewrite /dlung lo64_0 hi64_0.
  suff -> : lungw (d_sl1 p) 0 0 0 = 0 by []. have := lungw_add (d_sl1 p) 0 0 0 0 0 0. rewrite !N.lxor_nilpotent.  by [].
have EN : vN c (ds_view c ds_sing_state) = 0 by rewrite /vN EL EV // dnew_0.
apply: (vl_sing vg (s := ds_sing_state) (k := size.+1)) => //.
- move=> k Hk. rewrite ds_gen2 // ds_nexts_view // /vF. case: ifP => K; first by apply: EV; lia.
  case: ifP => _ //. case: ifP => _ //. rewrite W /vR EN EV; last lia.
  by rewrite /ds_start; case: (e_start c).
- rewrite /ds_view. have -> : (size.+1 < size)%N = false by lia. have -> : (size.+1 == size) = false by lia. by rewrite W.
Qed.
End Gen.
