(** MT19937 of mt1.cpp and MT32Search of mt2.cpp meet the contract of the
    toolbox: the state are the mexp bits that count. *)
From Coq Require Import NArith ZArith Lia Bool.
From mathcomp Require Import all_ssreflect all_algebra.
From mathcomp Require Import zify.
From Verif Require Import Base WordLemmas WordVec UtilModel UtilProofs GenModel LinSpec LinLemmas LinInst XorshiftProofs TinyLin
  MTSpec MTProofs2 ArrayModel ArrayWin ArrayLin MtdcModel.
Set Implicit Arguments.
Unset Strict Implicit.
Unset Printing Implicit Defensive.
Local Open Scope N_scope.
Delimit Scope Z_scope with coqZ.

(** The number of unused bits of the oldest word. *)
Definition m_r (p : mtp) : nat := (m_size p * 32 - m_mexp p)%N.
Definition mtp_ok (p : mtp) : Prop :=
  [/\ (1 < m_size p)%N /\ (m_mexp p < m_size p * 32)%N, (0 < m_r p < 32)%N,
      m_upper p = wshl 32 (wnot 32 0) (N.of_nat (m_r p)) /\ m_lower p = wnot 32 (m_upper p),
      (0 < m_pos p < m_size p)%N & [/\ m_mata p < 2 ^ 32, m_maskb p < 2 ^ 32 & m_maskc p < 2 ^ 32]].

(** The steps of the tempering. *)
Definition xr (k x : N) : N := N.lxor x (wshr x k).
Definition xl (w k m x : N) : N := N.lxor x (N.land (wshl w x k) m).
Lemma xr_add k a b : xr k (N.lxor a b) = N.lxor (xr k a) (xr k b).
Proof. by rewrite /xr wshr_lin lxor_swap. Qed.
Lemma xl_add w k m a b : xl w k m (N.lxor a b) = N.lxor (xl w k m a) (xl w k m b).
Proof. by rewrite /xl wshl_lin land_lin lxor_swap. Qed.

Section Words.
Variable p : mtp.
Hypothesis Hp : mtp_ok p.
Notation size := (m_size p).
Notation r := (m_r p).

Lemma upper_bit i : N.testbit (m_upper p) i = (N.of_nat r <=? i) && (i <? 32).
Proof.
have [_ Hr [-> _] _ _] := Hp. rewrite wshl_spec.
case: (N.leb_spec (N.of_nat r) i) => H1; case: (N.ltb_spec i 32) => H2 //; cbn [andb].
by rewrite wnot_spec ?N.bits_0 //; lia.
Qed.
Lemma lower_bit i : N.testbit (m_lower p) i = (i <? N.of_nat r).
Proof.
have [_ Hr [_ E] _ _] := Hp. case: (N.ltb_spec i 32) => H.
  rewrite E wnot_spec // upper_bit. case: (N.leb_spec (N.of_nat r) i); case: (N.ltb_spec i 32); case: (N.ltb_spec i (N.of_nat r)) => //=; lia.
rewrite (bits_above 32) //; last by rewrite E; apply: wnot_lt; have [_ _ [-> _] _ _] := Hp; exact: wshl_lt.
by symmetry; apply/N.ltb_ge; lia.
Qed.
Definition mY (a : nat -> N) : N := N.lor (N.land (a 0%N) (m_upper p)) (N.land (a 1%N) (m_lower p)).
Definition mF (a : nat -> N) : N :=
  N.lxor (N.lxor (a (m_pos p)) (wshr (mY a) 1)) (sel (N.testbit (mY a) 0) (m_mata p)).
Lemma mY_bit a i : a 0%N < 2 ^ 32 -> N.testbit (mY a) i = if i <? N.of_nat r then N.testbit (a 1%N) i else N.testbit (a 0%N) i.
Proof.
move=> Ha. rewrite /mY N.lor_spec !N.land_spec upper_bit lower_bit.
case: (N.ltb_spec i (N.of_nat r)); case: (N.leb_spec (N.of_nat r) i) => H1 H2; rewrite /= ?andbF ?andbT ?orbF //; try lia.
case: (N.ltb_spec i 32) => H3; first by rewrite andbT.
by rewrite andbF (bits_above 32).
Qed.
Lemma mY_add a b : a 0%N < 2 ^ 32 -> b 0%N < 2 ^ 32 -> mY (wxor a b) = N.lxor (mY a) (mY b).
Proof.
move=> Ha Hb. apply: N.bits_inj => i. have Hab : wxor a b 0%N < 2 ^ 32 by apply: (lxor_lt 32).
by rewrite N.lxor_spec !mY_bit // /wxor !N.lxor_spec; case: (i <? _).
Qed.
Lemma mY_lt a : a 0%N < 2 ^ 32 -> a 1%N < 2 ^ 32 -> mY a < 2 ^ 32.
Proof. by move=> Ha Hb; apply: (lor_lt 32); apply: (land_lt 32). Qed.
Lemma mY_ext a b : a 0%N < 2 ^ 32 -> b 0%N < 2 ^ 32 -> agree size r a b -> mY a = mY b.
Proof.
have [[s1 _] Hr _ _ _] := Hp.
move=> Ha Hb [E1 E2]. apply: N.bits_inj => i. rewrite !mY_bit //. case: N.ltb_spec => H; first by rewrite E2.
have -> : i = i - N.of_nat r + N.of_nat r by lia. by rewrite -!N.shiftr_spec' E1.
Qed.
Lemma mF_wf : wfun 32 size r mF.
Proof.
have [[s1 s2] Hr _ Hpos [P1 P2 P3]] := Hp.
have L a : small 32 size a -> a 0%N < 2 ^ 32 /\ a 1%N < 2 ^ 32 by move=> H; split; [apply: (H 0%N); lia|apply: (H 1%N); lia].
split.
- move=> a Ha. have [L0 L1] := L a Ha. rewrite /mF.
  apply: (lxor_lt 32); [apply: (lxor_lt 32)|].
  + apply: Ha; lia.
  + by apply: shiftr_lt; exact: mY_lt.
  + exact: sel_lt.
- move=> a b Ha Hb. have [A0 _] := L a Ha; have [B0 _] := L b Hb.
  by rewrite /mF mY_add // wshr_lin N.lxor_spec sel_add /wxor (lxor_swap (a (m_pos p))) lxor_swap.
- move=> a b Ha Hb E. have [A0 _] := L a Ha; have [B0 _] := L b Hb. rewrite /mF (mY_ext A0 B0 E).
  by rewrite (E.2 (m_pos p)) //; lia.
Qed.

(** * Tempering *)
Lemma temper_add a b : mtg_temper p (N.lxor a b) = N.lxor (mtg_temper p a) (mtg_temper p b).
Proof.
have E x : mtg_temper p x = xr 18 (xl 32 15 (m_maskc p) (xl 32 7 (m_maskb p) (xr (m_sh p) x))) by [].
by rewrite !E xr_add !xl_add xr_add.
Qed.
Lemma temper_lt a : a < 2 ^ 32 -> mtg_temper p a < 2 ^ 32.
Proof.
move=> Ha. have [_ _ _ _ [_ P2 P3]] := Hp. rewrite /mtg_temper.
set a1 := N.lxor a _. have H1 : a1 < 2 ^ 32 by apply: (lxor_lt 32) => //; exact: shiftr_lt.
set a2 := N.lxor a1 _. have H2 : a2 < 2 ^ 32 by apply: (lxor_lt 32) => //; apply: (land_lt 32); exact: wshl_lt.
set a3 := N.lxor a2 _. have H3 : a3 < 2 ^ 32 by apply: (lxor_lt 32) => //; apply: (land_lt 32); exact: wshl_lt.
by apply: (lxor_lt 32) => //; exact: shiftr_lt.
Qed.
Definition mRev (x : N) : N := if m_rev p then reverse_bit32 x else x.
Lemma rev_add a b : a < 2 ^ 32 -> b < 2 ^ 32 -> mRev (N.lxor a b) = N.lxor (mRev a) (mRev b).
Proof.
move=> Ha Hb. rewrite /mRev. case: (m_rev p) => //. apply: (@word_ext 32); [exact: reverse_bit32_lt|by apply: (lxor_lt 32); exact: reverse_bit32_lt|].
move=> i Hi. have H := lxor_lt 32 _ _ Ha Hb. by rewrite N.lxor_spec !reverse_bit32_ok // N.lxor_spec.
Qed.
Lemma rev_lt a : a < 2 ^ 32 -> mRev a < 2 ^ 32.
Proof. by rewrite /mRev; case: (m_rev p) => // _; exact: reverse_bit32_lt. Qed.
Definition mO (a : nat -> N) : N := mRev (mtg_temper p (mF a)).
Lemma mO_wf : wfun 32 size r mO.
Proof.
have W := mF_wf. split.
- by move=> a Ha; apply: rev_lt; apply: temper_lt; exact: (wf_lt W).
- move=> a b Ha Hb. have HA := wf_lt W Ha. have HB := wf_lt W Hb.
  by rewrite /mO (wf_add W) // temper_add rev_add //; exact: temper_lt.
- by move=> a b Ha Hb E; rewrite /mO (wf_ext W Ha Hb E).
Qed.
End Words.

Section Gen.
Variable p : mtp.
Hypothesis Hp : mtp_ok p.
Notation size := (m_size p).
Notation r := (m_r p).

Definition mtg_ok : mtg -> Prop := ar_ok p 32 size.
Definition mtg_win : mtg -> nat -> N := ar_win size.
Definition mtg_vec : mtg -> 'rV['F_2]_(m_mexp p) := @ar_vec mtp 32 size r (m_mexp p).
Definition mtg_A : 'M['F_2]_(m_mexp p) := ar_A p 32 size r (m_mexp p) mtg_ops.
Definition mtg_C : nat -> 'cV['F_2]_(m_mexp p) := ar_C p 32 size r (m_mexp p) (mO p).

Lemma mtg_generateE s : mtg_ok s -> mtg_generate s = (mtg_temper p (mF p (mtg_win s)), ar_step size (mF p) s).
Proof.
case: s => q s [/= -> [Hi [Hl _]]]. have [[s1 _] _ _ Hpos _] := Hp.
have E i : (i < size)%N -> rr_at size (rr_arr s) (Nat.modulo (rr_idx s + 1) size + i) = win size s i.
  by move=> H; apply: at_win_next; lia.
have E0 := E 0%N. rewrite addn0 in E0.
by rewrite /mtg_generate E0 ?(E 1%N) ?(E (m_pos p)) //; lia.
Qed.
Lemma mtg_step s : mtg_ok s -> (g_generate mtg_ops s).2 = ar_step size (mF p) s.
Proof. by move=> Hs; rewrite /= mtg_generateE. Qed.
Lemma mtg_len v s : mtg_ok s -> (1 <= v <= Z.of_nat 32)%coqZ -> g_generate_len mtg_ops v s =
  (N.land (mO p (mtg_win s)) (wshl (N.of_nat 32) (wnot (N.of_nat 32) 0) (N.of_nat 32 - Z.to_N v)), ar_step size (mF p) s).
Proof. by move=> Hs _; rewrite /= /mtg_generate_len mtg_generateE // Hs.1. Qed.
Lemma mtg_addE s t : mtg_ok s -> mtg_ok t -> g_add mtg_ops s t = (s.1, rr_xor size s.2 t.2).
Proof. by move=> Hs Ht; rewrite /= /mtg_add -[fst s]/(s.1) Hs.1. Qed.
Lemma nth_repeat0 k i : List.nth i (List.repeat 0 k) 0 = 0.
Proof. by elim: k i => [|k IH] [|i] //=. Qed.
Lemma mtg_zeroE s : mtg_ok s -> mtg_ok (g_setZero mtg_ops s) /\ forall k, (k < size)%N -> mtg_win (g_setZero mtg_ops s) k = 0.
Proof.
move=> [E _]; have [[s1 _] _ _ _ _] := Hp. rewrite /= /mtg_setZero -[fst s]/(s.1) E. split.
- split=> //; split=> /=; first lia. split; first exact: List.repeat_length.
  by move=> i; rewrite nth_repeat0.
- by move=> k _; rewrite /mtg_win /ar_win /win /= nth_repeat0.
Qed.
Lemma mtp_dim : m_mexp p = (size * 32 - r)%N.
Proof. have [[_ H] _ _ _ _] := Hp. rewrite /m_r. lia. Qed.
Lemma mtp_size0 : (0 < size)%N. Proof. have [[H _] _ _ _ _] := Hp. lia. Qed.
Lemma mtp_r32 : (r < 32)%N. Proof. have [_ H _ _ _] := Hp. lia. Qed.
Lemma mtg_ag : arr_gen p 32 size r (m_mexp p) (mF p) (mO p) mtg_ops.
Proof.
split.
- by [].
- exact: mtp_size0.
- exact: mtp_r32.
- exact: mtp_dim.
- exact: mF_wf.
- exact: mO_wf.
- by [].
- exact: mtg_step.
- exact: mtg_len.
- exact: mtg_addE.
- exact: mtg_zeroE.
Qed.
Lemma mtg_lin : linear_gen mtg_ops mtg_ok mtg_vec mtg_A mtg_C.
Proof. exact: (ag_lin mtg_ag). Qed.
(** Invertible exactly when the top bit of mata is set. *)
Lemma mtg_unit : (1 < m_pos p)%N -> mtg_A \in unitmx <-> N.testbit (m_mata p) 31.
Proof.
move=> pos2. have [[s1 s2] Hr _ Hpos [P1 _ _]] := Hp.
rewrite (ag_unit mtg_ag s1).
split=> [H|T a Ha E1 Ek EF].
- (* otherwise the window with mata undone is lost *)
  case T : (N.testbit (m_mata p) 31) => //. exfalso.
  (* y = 2 mata + 1 : y >> 1 = mata, y odd *)
  pose y := N.succ_double (m_mata p).
  have M31 : m_mata p < 2 ^ 31.
    apply: lt_pow2_bits => i Hi. case: (N.eq_dec i 31) => [-> //|Ne]. apply: (bits_above 32) => //. lia.
  have y32 : y < 2 ^ 32 by rewrite /y N.succ_double_spec; have -> : 2 ^ 32 = 2 * 2 ^ 31 by []; lia.
  pose a k := match k with 0%N => N.land y (m_upper p) | 1%N => N.land y (m_lower p) | _ => 0 end.
  have a0 : a 0%N < 2 ^ 32 by apply: (land_lt 32).
  have a1 : a 1%N < 2 ^ 32 by apply: (land_lt 32).
  have Y : mY p a = y.
    apply: N.bits_inj => i; rewrite mY_bit // /a. case: N.ltb_spec => Hi; rewrite N.land_spec ?(lower_bit Hp) ?(upper_bit Hp).
      have -> : (i <? N.of_nat r) by lia. by rewrite andbT.
    have -> : (N.of_nat r <=? i) by lia. case: (N.ltb_spec i 32) => H2; first by rewrite !andbT.
    by rewrite !andbF (bits_above 32).
  have small_a : small 32 size a by case=> [|[|k]] _ //; exact: pow2_pos.
  have [] : agree size r a (fun=> 0).
    apply: H => //.
    + apply: N.bits_inj => i. rewrite N.shiftr_spec' N.bits_0 /a N.land_spec (lower_bit Hp).
      have -> : (i + N.of_nat r <? N.of_nat r) = false by lia. by rewrite andbF.
    + by case=> [|[|k]].
    + rewrite /mF Y. have -> : wshr y 1 = m_mata p by rewrite /wshr -N.div2_spec /y N.div2_succ_double.
      have -> : N.testbit y 0 = true by rewrite /y N.succ_double_spec N.testbit_odd_0.
      by case: (m_pos p) pos2 => [|[|k]] // _; rewrite /= N.lxor_nilpotent.
  move=> E0 E1.
  have Y0 : y = 0.
    rewrite -Y. apply: N.bits_inj => i. rewrite mY_bit // N.bits_0. case: N.ltb_spec => Hi; first by rewrite E1 ?N.bits_0.
    have -> : i = i - N.of_nat r + N.of_nat r by lia. by rewrite -N.shiftr_spec' E0 N.shiftr_0_l N.bits_0.
  by move: Y0; rewrite /y N.succ_double_spec; lia.
- have a0 : a 0%N < 2 ^ 32 by apply: (Ha 0%N); lia.
  have a1 : a 1%N < 2 ^ 32 by apply: (Ha 1%N).
  have YL := mY_lt p a0 a1.
  move: EF; rewrite /mF (Ek (m_pos p)); last lia. rewrite N.lxor_0_l => EF.
  have Y0 : N.testbit (mY p a) 0 = false.
    have := congr1 (fun x => N.testbit x 31) EF. rewrite N.lxor_spec N.bits_0 wshr_spec (bits_above 32) //.
    by case: (N.testbit (mY p a) 0); rewrite /sel ?T.
  move: EF; rewrite Y0 /sel N.lxor_0_r => EF.
  have YZ i : N.testbit (mY p a) i = false.
    case: (N.eq_dec i 0) => [-> //|Ni]. have -> : i = (i - 1) + 1 by lia. by rewrite -wshr_spec EF N.bits_0.
  split.
  + apply: N.bits_inj => i. rewrite N.shiftr_0_l N.bits_0 N.shiftr_spec' -(YZ (i + N.of_nat r)) mY_bit //.
    by have -> : (i + N.of_nat r <? N.of_nat r) = false by lia.
  + move=> k /andP[k0 Hk]. case: (eqVneq k 1%N) => [->|k1]; last by apply: Ek; lia.
    apply: N.bits_inj => i. rewrite N.bits_0. case: (N.ltb_spec i (N.of_nat r)) => Hi.
      by rewrite -(YZ i) mY_bit //; have -> : (i <? N.of_nat r) by lia.
    have -> : i = i - N.of_nat r + N.of_nat r by lia. by rewrite -N.shiftr_spec' E1 N.bits_0.
Qed.
End Gen.
