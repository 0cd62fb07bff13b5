(** RMT64Search meets the contract of the toolbox: all size * 64 bits count. *)
From Coq Require Import NArith ZArith Lia Bool List.
From mathcomp Require Import all_ssreflect all_algebra.
From mathcomp Require Import zify.
From Verif Require Import Base WordLemmas WordVec UtilModel UtilProofs GenModel LinSpec LinLemmas LinInst PeriodSpec XorshiftProofs TinyLin
  MTSpec MTProofs2 ArrayModel ArrayWin ArrayLin ArrayOut MtdcLin MtdcProofs RmtModel.
Set Implicit Arguments.
Unset Strict Implicit.
Unset Printing Implicit Defensive.
Local Open Scope N_scope.
Delimit Scope Z_scope with coqZ.

Definition rmtp_ok (p : rmtp) : Prop :=
  [/\ (0 < r_size p)%N, (r_pos p < r_size p)%N & [/\ r_mata p < 2 ^ 64, r_maskb p < 2 ^ 64 & r_maskc p < 2 ^ 64]].

Section Gen.
Variable p : rmtp.
Hypothesis Hp : rmtp_ok p.
Notation size := (r_size p).
Notation n := (r_size p * 64)%N.

Definition rF (a : nat -> N) : N :=
  N.lxor (N.lxor (N.lxor (a (r_pos p)) (wshl 64 (a (r_pos p)) 17)) (wshr (a 0%N) 1)) (sel (N.testbit (a 0%N) 0) (r_mata p)).
Lemma agree0 m a b : (0 < m)%N -> agree m 0 a b -> forall k, (k < m)%N -> a k = b k.
Proof. by move=> m0 [E1 E2] [|k] Hk; [move: E1; rewrite !N.shiftr_0_r|exact: E2]. Qed.
Lemma rF_wf : wfun 64 size 0 rF.
Proof.
have [s0 Hpos [P1 P2 P3]] := Hp. split.
- move=> a Ha. have H0 : a 0%N < 2 ^ 64 by exact: (Ha 0%N). have H1 : a (r_pos p) < 2 ^ 64 by exact: Ha.
  apply: (lxor_lt 64); [apply: (lxor_lt 64); [apply: (lxor_lt 64) => //; exact: wshl_lt|exact: shiftr_lt]|by rewrite /sel; case: (N.testbit _ _)].
- move=> a b Ha Hb. rewrite /rF /wxor wshl_lin wshr_lin N.lxor_spec sel_add.
  by rewrite (lxor_swap (a (r_pos p))) (lxor_swap (N.lxor (a _) _)) lxor_swap.
- move=> a b Ha Hb /(agree0 s0) E. by rewrite /rF !E.
Qed.
Definition xrm (k m x : N) : N := N.lxor x (N.land (wshr x k) m).
Lemma xrm_add k m a b : xrm k m (N.lxor a b) = N.lxor (xrm k m a) (xrm k m b).
Proof. by rewrite /xrm wshr_lin land_lin lxor_swap. Qed.
Lemma rtemper_add a b : rmt_temper p (N.lxor a b) = N.lxor (rmt_temper p a) (rmt_temper p b).
Proof.
have E x : rmt_temper p x = xr 43 (xl 64 37 (r_maskc p) (xl 64 17 (r_maskb p) (xrm 29 0x5555555555555555 x))) by [].
by rewrite !E xrm_add !xl_add xr_add.
Qed.
Lemma rtemper_lt a : a < 2 ^ 64 -> rmt_temper p a < 2 ^ 64.
Proof.
move=> Ha. rewrite /rmt_temper.
set a1 := N.lxor a _. have H1 : a1 < 2 ^ 64 by apply: (lxor_lt 64) => //; apply: (land_lt 64); exact: shiftr_lt.
set a2 := N.lxor a1 _. have H2 : a2 < 2 ^ 64 by apply: (lxor_lt 64) => //; apply: (land_lt 64); exact: wshl_lt.
set a3 := N.lxor a2 _. have H3 : a3 < 2 ^ 64 by apply: (lxor_lt 64) => //; apply: (land_lt 64); exact: wshl_lt.
by apply: (lxor_lt 64) => //; exact: shiftr_lt.
Qed.
Definition rRev (x : N) : N := if r_rev p then reverse_bit64 x else x.
Lemma rrev_add a b : a < 2 ^ 64 -> b < 2 ^ 64 -> rRev (N.lxor a b) = N.lxor (rRev a) (rRev b).
Proof.
move=> Ha Hb. rewrite /rRev. case: (r_rev p) => //. apply: (@word_ext 64); [exact: reverse_bit64_lt|by apply: (lxor_lt 64); exact: reverse_bit64_lt|].
move=> i Hi. have H := lxor_lt 64 _ _ Ha Hb. by rewrite N.lxor_spec !reverse_bit64_ok // N.lxor_spec.
Qed.
Lemma rrev_lt a : a < 2 ^ 64 -> rRev a < 2 ^ 64.
Proof. by rewrite /rRev; case: (r_rev p) => // _; exact: reverse_bit64_lt. Qed.
Definition rT (a : nat -> N) : N := rmt_temper p (rF a).
Definition rO (a : nat -> N) : N := rRev (rT a).
Lemma rT_wf : wfun 64 size 0 rT.
Proof.
have W := rF_wf. split.
- by move=> a Ha; apply: rtemper_lt; exact: (wf_lt W).
- by move=> a b Ha Hb; rewrite /rT (wf_add W) // rtemper_add.
- by move=> a b Ha Hb E; rewrite /rT (wf_ext W Ha Hb E).
Qed.
Lemma rO_wf : wfun 64 size 0 rO.
Proof.
have W := rT_wf. split.
- by move=> a Ha; apply: rrev_lt; exact: (wf_lt W).
- by move=> a b Ha Hb; rewrite /rO (wf_add W) // rrev_add //; exact: (wf_lt W).
- by move=> a b Ha Hb E; rewrite /rO (wf_ext W Ha Hb E).
Qed.

Definition rmt_ok : rmt -> Prop := ar_ok p 64 size.
Definition rmt_win : rmt -> nat -> N := ar_win size.
Definition rmt_vec : rmt -> 'rV['F_2]_n := @ar_vec rmtp 64 size 0 n.
Definition rmt_A : 'M['F_2]_n := ar_A p 64 size 0 n rmt_ops.
Definition rmt_C : nat -> 'cV['F_2]_n := ar_C p 64 size 0 n rO.
Definition rmt_D : nat -> 'cV['F_2]_n := @ar_D rmtp p 64 size 0 n rT.

Lemma rmt_generateE s : rmt_ok s -> rmt_generate s = (rT (rmt_win s), ar_step size rF s).
Proof.
case: s => q s [/= -> [Hi [Hl _]]]. have [s0 Hpos _] := Hp.
have E i : (i < size)%N -> rr_at size (rr_arr s) (Nat.modulo (rr_idx s + 1) size + i) = win size s i.
  by move=> H; apply: at_win_next; lia.
have E0 := E 0%N. rewrite addn0 in E0.
by rewrite /rmt_generate E0 ?(E (r_pos p)) //; lia.
Qed.
Lemma rmt_ag : arr_gen p 64 size 0 n rF rO rmt_ops.
Proof.
have [s0 Hpos _] := Hp. split.
- by [].
- exact: s0.
- by [].
- by rewrite subn0.
- exact: rF_wf.
- exact: rO_wf.
- by [].
- by move=> s Hs; rewrite /= rmt_generateE.
- by move=> v s Hs _; rewrite /= /rmt_generate_len rmt_generateE // Hs.1.
- by move=> s t Hs Ht; rewrite /= /rmt_add -[fst s]/(s.1) Hs.1.
- move=> s [E _]; rewrite /= /rmt_setZero -[fst s]/(s.1) E. split.
  + split=> //; split=> /=; first lia. split; first exact: List.repeat_length.
    by move=> i; rewrite nth_repeat0.
  + by move=> k _; rewrite /ar_win /win /= nth_repeat0.
Qed.
Lemma rmt_lin : linear_gen rmt_ops rmt_ok rmt_vec rmt_A rmt_C.
Proof. exact: (ag_lin rmt_ag). Qed.
Lemma rmt_linout : linear_out rmt_ops rmt_ok rmt_vec rmt_D.
Proof. by apply: (ag_linout rmt_ag rT_wf) => s Hs; rewrite /= rmt_generateE. Qed.

(** isZero is right. *)
Lemma rmt_isZero_vec s : rmt_ok s -> rmt_isZero s = true <-> rmt_vec s = 0%R.
Proof.
move=> Hs. have [s0 _ _] := Hp. rewrite (ag_vec_zero rmt_ag Hs) /rmt_isZero -[fst s]/(s.1) Hs.1 zero_loop_ok; last lia.
have [_ [Hi [Hl _]]] := Hs. split=> [Z|E j Hj].
- split=> [|k Hk]; first rewrite N.shiftr_0_r N.shiftr_0_l.
  + have := Z (Nat.modulo (rr_idx s.2 + 1 + 0) size). rewrite /rr_at Nat.add_0_l Nat.mod_mod; last lia. apply.
    have := Nat.mod_upper_bound (rr_idx s.2 + 1 + 0) size. lia.
  + have := Z (Nat.modulo (rr_idx s.2 + 1 + k) size). rewrite /rr_at Nat.add_0_l Nat.mod_mod; last lia. apply.
    have := Nat.mod_upper_bound (rr_idx s.2 + 1 + k) size. lia.
- have E' := agree0 s0 E. have Hj' : (j < size)%N by lia.
  (* number j of the array is number (j - idx - 1) mod size of the window *)
  have [k [Hk Ek]] : exists k, (k < size)%N /\ Nat.modulo (rr_idx s.2 + 1 + k) size = j.
    case: (leqP (rr_idx s.2 + 1) j) => L.
    - exists (j - (rr_idx s.2 + 1))%N; split; first lia. rewrite Nat.mod_small; lia.
    - exists (j + size - (rr_idx s.2 + 1))%N; split; first lia.
      rewrite (_ : (_ + _)%N = Nat.add j (Nat.mul 1 size)); last lia.
      rewrite Nat.mod_add; last lia. rewrite Nat.mod_small; lia.
  have := E' k Hk. rewrite /ar_win /win Ek /rr_at Nat.add_0_l Nat.mod_small //; lia.
Qed.

(** Invertible exactly when the top bit of mata is set. *)
Lemma rmt_unit : (0 < r_pos p)%N -> rmt_A \in unitmx <-> N.testbit (r_mata p) 63.
Proof.
move=> pos1. have [s0 Hpos [P1 _ _]] := Hp. have s1 : (1 < size)%N by lia.
rewrite (ag_unit rmt_ag s1). split=> [H|T a Ha E1 Ek EF].
- case T : (N.testbit (r_mata p) 63) => //. exfalso.
  pose y := N.succ_double (r_mata p).
  have M63 : r_mata p < 2 ^ 63.
    apply: lt_pow2_bits => i Hi. case: (N.eq_dec i 63) => [-> //|Ne]. apply: (bits_above 64) => //. lia.
  have y64 : y < 2 ^ 64 by rewrite /y N.succ_double_spec; have -> : 2 ^ 64 = 2 * 2 ^ 63 by []; lia.
  pose a k := if k is 0%N then y else 0.
  have small_a : small 64 size a by case=> [|k] _ //; exact: pow2_pos.
  have [E0 _] : agree size 0 a (fun=> 0).
    apply: H => //.
    + by case.
    + rewrite /rF. have -> : a (r_pos p) = 0 by case: (r_pos p) pos1.
      rewrite /a. have -> : wshr y 1 = r_mata p by rewrite /wshr -N.div2_spec /y N.div2_succ_double.
      have -> : N.testbit y 0 = true by rewrite /y N.succ_double_spec N.testbit_odd_0.
      by rewrite /= N.lxor_nilpotent.
  move: E0; rewrite !N.shiftr_0_r /a /y N.succ_double_spec. lia.
- have a0 : a 0%N < 2 ^ 64 by apply: (Ha 0%N); lia.
  rewrite N.shiftr_0_r in E1.
  have K k : (0 < k < size)%N -> a k = 0 by move=> Hk; case: (eqVneq k 1%N) => [->//|k1]; apply: Ek; lia.
  move: EF; rewrite /rF (K (r_pos p)); last lia. have -> : wshl 64 0 17 = 0 by []. rewrite !N.lxor_0_l => EF.
  have Y0 : N.testbit (a 0%N) 0 = false.
    have := congr1 (fun x => N.testbit x 63) EF. rewrite N.lxor_spec N.bits_0 wshr_spec (bits_above 64) //.
    by case: (N.testbit (a 0%N) 0); rewrite /sel ?T.
  move: EF; rewrite Y0 /sel N.lxor_0_r => EF.
  have YZ : a 0%N = 0.
    apply: N.bits_inj => i. rewrite N.bits_0.
    case: (N.eq_dec i 0) => [-> //|Ni]. have -> : i = (i - 1) + 1 by lia. by rewrite -wshr_spec EF N.bits_0.
  by split=> [|k Hk]; [rewrite YZ|exact: K].
Qed.

(** The tempering is a bijection and every list of size numbers is reached. *)
Lemma xrm_bij k M m : 64 <= N.of_nat m * k -> bij 64 (xrm k M).
Proof.
move=> Hm. apply: (bij_ext _ _ _ _ (@bij_shr 64 k M m Hm)) => y Hy.
by rewrite /uni /shr_mask /xrm /wshr N.shiftr_div_pow2.
Qed.
Lemma rtemper_bij : bij 64 (rmt_temper p).
Proof.
apply: (bij_ext 64 (fun x => xrm 43 (N.ones 64) (xl 64 37 (r_maskc p) (xl 64 17 (r_maskb p) (xrm 29 0x5555555555555555 x))))).
  move=> y Hy. have E z : z < 2 ^ 64 -> xrm 43 (N.ones 64) z = xr 43 z.
    move=> Hz. rewrite /xrm /xr N.land_ones N.mod_small //. exact: shiftr_lt.
  have Hl z M k : z < 2 ^ 64 -> xl 64 k M z < 2 ^ 64.
    by move=> Hz; apply: (lxor_lt 64) => //; apply: (land_lt 64); exact: wshl_lt.
  rewrite E; first by [].
  by do 2 apply: (Hl _); apply: (lxor_lt 64) => //; apply: (land_lt 64); exact: shiftr_lt.
apply: (bij_comp 64 (fun x => xl 64 37 (r_maskc p) (xl 64 17 (r_maskb p) (xrm 29 0x5555555555555555 x)))); last by apply: (@xrm_bij 43 _ 2).
apply: (bij_comp 64 (fun x => xl 64 17 (r_maskb p) (xrm 29 0x5555555555555555 x))); last by apply: (@xl_bij 64 37 _ 2).
apply: (bij_comp 64 (fun x => xrm 29 0x5555555555555555 x)); last by apply: (@xl_bij 64 17 _ 4).
by apply: (@xrm_bij 29 _ 3).
Qed.
End Gen.
