(** RMT64Search: setOneBit, parity, constructors, reachable outputs. *)
From Coq Require Import NArith ZArith Lia Bool List.
From mathcomp Require Import all_ssreflect all_algebra.
From mathcomp Require Import zify.
From Verif Require Import Base WordLemmas WordVec UtilModel UtilProofs GenModel LinSpec LinLemmas LinInst PeriodSpec XorshiftProofs TinyLin
  MTSpec MTProofs2 ArrayModel ArrayWin ArrayLin ArrayOut MtdcLin MtdcProofs RmtModel RmtLin.
Set Implicit Arguments.
Unset Strict Implicit.
Unset Printing Implicit Defensive.
Import GRing.Theory.
Local Open Scope N_scope.
Delimit Scope Z_scope with coqZ.

Section Gen.
Variable p : rmtp.
Hypothesis Hp : rmtp_ok p.
Notation size := (r_size p).
Notation n := (r_size p * 64)%N.

(** Bit i of the array. *)
Definition rmt_bit (g : rmt) (i : nat) : bool :=
  N.testbit (List.nth (Nat.div i 64) (rr_arr g.2) 0) (N.of_nat (Nat.modulo i 64)).

Lemma rmt_state s t : rmt_ok p s -> rmt_ok p t ->
  (rmt_vec p s = rmt_vec p t <-> forall k, (k < size)%N -> rmt_win p s k = rmt_win p t k).
Proof.
move=> Hs Ht. have [s0 _ _] := Hp. rewrite (ag_state (rmt_ag Hp) Hs Ht). split=> [E|E]; first exact: agree0.
by split=> [|k /andP[_ Hk]]; [rewrite /ar_win; congr N.shiftr; exact: E|exact: E].
Qed.

Lemma one_bit (r : nat) : (r < 31)%N -> of_int 64 (if (r =? 31)%nat then (- 2 ^ 31)%coqZ else (2 ^ Z.of_nat r)%coqZ) = 2 ^ N.of_nat r.
Proof.
move=> Hr. have -> : (r =? 31)%nat = false by lia. rewrite /of_int Z.mod_small.
- rewrite Z2N.inj_pow; [|done|lia]. by rewrite -nat_N_Z N2Z.id.
- split; first by apply: Z.pow_nonneg. apply: Z.pow_lt_mono_r => //; lia.
Qed.

Lemma setOneBit_ok g i : rmt_ok p g -> (i < n)%N -> (Nat.modulo i 64 < 31)%N ->
  exists g', [/\ rmt_setOneBit i g = Ret g', rmt_ok p g' & forall j, rmt_bit g' j = (j == i)].
Proof.
move=> Hg Hi Hr. have [s0 _ _] := Hp. have [Z _] := ag_zero (rmt_ag Hp) Hg.
have Hd : (Nat.div i 64 < size)%N by suff : (Nat.div i 64 < size)%coq_nat; [lia|apply: Nat.div_lt_upper_bound; lia].
rewrite /rmt_setOneBit. move: Z. cbn [g_setZero rmt_ops]. rewrite /rmt_setZero -[fst g]/(g.1) Hg.1 => -[_ [Z1 [Z2 Z3]]].
have -> : (size <=? Nat.div i 64)%nat = false by lia. have -> : (32 <=? Nat.modulo i 64)%nat = false by lia.
rewrite one_bit //. cbn [rr_idx rr_arr].
eexists; split; [exact: erefl| |].
- split; first by []. split; cbn [snd rr_idx rr_arr]; first lia. split; first by rewrite put_len List.repeat_length.
  move=> j. rewrite nth_put; last by rewrite List.repeat_length; lia.
  case: (j =? _)%nat; first by apply: N.pow_lt_mono_r; [done|lia]. rewrite nth_repeat0. exact: pow2_pos.
- move=> j. rewrite /rmt_bit; cbn [snd rr_idx rr_arr]; rewrite nth_put; last by rewrite List.repeat_length; lia.
  have Di := Nat.div_mod i 64. have Dj := Nat.div_mod j 64.
  case: (Nat.eqb_spec (Nat.div j 64) (Nat.div i 64)) => E.
  + rewrite N.pow2_bits_eqb. case: (j =P i) => [->|Nji]; first exact: N.eqb_refl.
    apply/N.eqb_neq. lia.
  + rewrite nth_repeat0 N.bits_0. by case: (j =P i) => // Eji; case: E; rewrite Eji.
Qed.
(** As a vector: a unit vector. *)
Lemma rmt_vec_bit g : rmt_ok p g -> rr_idx g.2 = (size - 1)%N -> forall i : 'I_n, rmt_vec p g 0%R i = (rmt_bit g i)%:R%R.
Proof.
move=> Hg Ei i. have [s0 _ _] := Hp. rewrite /rmt_vec /ar_vec mxE /ar_bits /ar_win /win Ei addn0 /rmt_bit.
have Hd : (Nat.div i 64 < size)%coq_nat by apply: Nat.div_lt_upper_bound; have := ltn_ord i; lia.
have -> : (Nat.add (Nat.add (size - 1)%N 1) (Nat.div i 64)) = Nat.add (Nat.div i 64) (Nat.mul 1 size) by lia.
rewrite Nat.mod_add; last lia. by rewrite Nat.mod_small.
Qed.
Lemma setOneBit_idx g i g' : rmt_ok p g -> rmt_setOneBit i g = Ret g' -> rr_idx g'.2 = (size - 1)%N.
Proof.
move=> Hg. rewrite /rmt_setOneBit /rmt_setZero -[fst g]/(g.1) Hg.1. case: (_ <=? _)%nat; first by case=> <-.
by case: (_ <=? _)%nat => // -[<-].
Qed.
Lemma setOneBit_vec g (i : 'I_n) : rmt_ok p g -> (Nat.modulo i 64 < 31)%N ->
  exists g', [/\ rmt_setOneBit i g = Ret g', rmt_ok p g' & rmt_vec p g' = delta_mx 0%R i].
Proof.
move=> Hg Hr. have [g' [E H B]] := setOneBit_ok Hg (ltn_ord i) Hr. exists g'; split=> //.
apply/rowP => j. rewrite rmt_vec_bit //; last exact: (setOneBit_idx Hg E). by rewrite B mxE eqxx.
Qed.
(** For the 32nd bit of a word more bits are set, from the next on the shift
    is undefined. *)
Lemma setOneBit_31 g i : rmt_ok p g -> (i < n)%N -> Nat.modulo i 64 = 31%N ->
  exists g', rmt_setOneBit i g = Ret g' /\ forall j, rmt_bit g' j = (i <= j < i + 33)%N.
Proof.
move=> Hg Hi Hr. have [s0 _ _] := Hp.
have Hd : (Nat.div i 64 < size)%N by suff : (Nat.div i 64 < size)%coq_nat; [lia|apply: Nat.div_lt_upper_bound; lia].
rewrite /rmt_setOneBit /rmt_setZero -[fst g]/(g.1) Hg.1 Hr.
have -> : (size <=? Nat.div i 64)%nat = false by lia. cbn [Nat.leb Nat.eqb rr_idx rr_arr].
eexists; split; first exact: erefl.
move=> j. rewrite /rmt_bit; cbn [snd rr_idx rr_arr]; rewrite nth_put; last by rewrite List.repeat_length; lia.
have Di := Nat.div_mod i 64. have Dj := Nat.div_mod j 64. have Mj := Nat.mod_upper_bound j 64.
case: (Nat.eqb_spec (Nat.div j 64) (Nat.div i 64)) => E.
- have -> : of_int 64 (- 2 ^ 31)%coqZ = N.shiftl (N.ones 33) 31 by vm_compute.
  case: (N.ltb_spec (N.of_nat (Nat.modulo j 64)) 31) => H.
  + rewrite N.shiftl_spec_low //. lia.
  + rewrite N.shiftl_spec_high' // N.ones_spec_low; lia.
- rewrite nth_repeat0 N.bits_0. lia.
Qed.
Lemma setOneBit_undef g i : rmt_ok p g -> (i < n)%N -> (32 <= Nat.modulo i 64)%N -> rmt_setOneBit i g = Undef.
Proof.
move=> Hg Hi Hr.
have Hd : (Nat.div i 64 < size)%N by suff : (Nat.div i 64 < size)%coq_nat; [lia|apply: Nat.div_lt_upper_bound; lia].
rewrite /rmt_setOneBit /rmt_setZero -[fst g]/(g.1) Hg.1.
have -> : (size <=? Nat.div i 64)%nat = false by lia. by have -> : (32 <=? Nat.modulo i 64)%nat = true by lia.
Qed.

(** * Any size numbers are reached *)
Lemma rmt_iter_outputs m s : rmt_ok p s ->
  outputs rmt_ops m s = [seq rT p (rmt_win p (iter i (ar_step size (rF p)) s)) | i <- iota 0 m].
Proof.
move=> Hs. elim: m s Hs => [//|m IH] s Hs. rewrite /= (rmt_generateE Hp Hs) /=. congr (_ :: _).
have Hs' : rmt_ok p (ar_step size (rF p) s) by exact: (ag_step_ok (rmt_ag Hp) Hs).
rewrite IH // -(addn0 1%N) iotaDl -map_comp. apply: eq_map => i /=. by rewrite -iterSr.
Qed.
Lemma rmt_any_outputs (ys : seq N) : (0 < r_pos p)%N -> N.testbit (r_mata p) 63 ->
  length ys = size -> List.Forall (fun y => y < 2 ^ 64) ys ->
  exists s, rmt_ok p s /\ outputs rmt_ops size s = ys.
Proof.
move=> pos1 T Sy Hy. have UA : rmt_A p \in unitmx by apply/(rmt_unit Hp).
have [_ [_ O]] := rtemper_bij p.
have B i : (i < size)%N -> exists x, x < 2 ^ 64 /\ rmt_temper p x = nth 0 ys i.
  by move=> Hi; apply: O; elim: ys i {Sy Hi} Hy => [|y ys IH] [|i] H //=; inversion H; subst; auto.
have [z Hz] : exists z : nat -> N, forall i, (i < size)%N -> z i < 2 ^ 64 /\ rmt_temper p (z i) = nth 0 ys i.
  suff : forall m, (m <= size)%N -> exists z : nat -> N, forall i, (i < m)%N -> z i < 2 ^ 64 /\ rmt_temper p (z i) = nth 0 ys i.
    by move/(_ size); apply.
  elim=> [_|m IH Hm]; first by exists (fun=> 0).
  have [z Hz] := IH (ltnW Hm). have [x [Hx Ex]] := B m Hm.
  exists (fun i => if (i == m) then x else z i) => i Hi. case: eqP => [->//|/eqP Ni]. by apply: Hz; lia.
have [s [Hs E]] := ag_words_all (rmt_ag Hp) UA (fun i Hi => proj1 (Hz i Hi)).
exists s; split=> //. rewrite rmt_iter_outputs //.
apply: (@eq_from_nth _ 0); first by rewrite size_map size_iota.
move=> i; rewrite size_map size_iota => Hi. rewrite (nth_map 0%N) ?size_iota // nth_iota // add0n /rT E //.
by have [_ ->] := Hz i Hi.
Qed.
End Gen.

(** * Objects of the programs *)
Lemma rfill_small f c : (forall i v, f i v < 2 ^ 64) -> forall i v j, List.nth j (rr_fill c i v f) 0 < 2 ^ 64.
Proof. by move=> Hf; elim: c => [|c IH] i v [|j] //=. Qed.
Lemma rmt_seed_ok p s v : rmtp_ok p -> v < 2 ^ 64 -> rmt_ok p (rmt_seed v (p, s)).
Proof.
move=> [s0 _ _] Hv. split=> //; split; [|split]; cbn [rmt_seed fst snd rr_idx rr_arr].
- lia.
- rewrite /= fill_len. lia.
- case=> [//|j]. cbn [List.nth]. apply: rfill_small => i u. exact: trunc_lt.
Qed.
Lemma rmt_new_ok mexp pos mata mb mc v : (pos < Nat.div mexp 64 + 1)%N -> mata < 2 ^ 64 -> mb < 2 ^ 64 -> mc < 2 ^ 64 -> v < 2 ^ 64 ->
  rmtp_ok (rmt_new mexp pos mata mb mc v).1 /\ rmt_ok (rmt_new mexp pos mata mb mc v).1 (rmt_new mexp pos mata mb mc v).
Proof.
move=> H1 H2 H3 H4 H5.
have K : rmtp_ok (RMTP mexp (Nat.div mexp 64 + 1) false pos mata 0 mb mc).
  by split=> //; cbn [r_size r_pos]; move: (Nat.div mexp 64) H1 => d; lia.
by split; [exact: K|exact: (rmt_seed_ok _ K)].
Qed.
Lemma rmt_setUpParam_ok p s u1 u2 : rmtp_ok p -> rmt_ok p (p, s) -> u1 < 2 ^ 64 -> u2 < 2 ^ 64 ->
  let q := (rmt_setUpParam u1 u2 (p, s)).1 in rmtp_ok q /\ rmt_ok q (rmt_setUpParam u1 u2 (p, s)).
Proof.
move=> [s0 H2 [H3 H4 H5]] [_ Hs] Hu1 Hu2 q. split; last by split.
split=> //=. have := N.mod_lt u1 (N.of_nat (r_size p)). lia.
Qed.
(** getParamString clears bits of the masks that have no effect. *)
Lemma paramString_same g : rmt_generate g = (let g' := rmt_getParamString_effect g in
   let '(x, h) := rmt_generate g' in (x, (g.1, h.2))).
Proof.
case: g => p s. rewrite /rmt_getParamString_effect /rmt_generate.
have M k m x : N.land (wshl 64 x k) (wshl 64 (wshr m k) k) = N.land (wshl 64 x k) m.
  apply: N.bits_inj => i. rewrite !N.land_spec !wshl_spec.
  case: (N.ltb_spec i 64) => Hi //=. case: (N.leb_spec k i) => Hk //=. rewrite wshr_spec. by have -> : i - k + k = i by lia.
cbn [r_size r_pos r_mata fst snd]. set y := N.lxor (N.lxor _ _) _.
have -> : rmt_temper (RMTP (r_mexp p) (r_size p) (r_rev p) (r_pos p) (r_mata p) (r_par p)
     (wshl 64 (wshr (r_maskb p) 17) 17) (wshl 64 (wshr (r_maskc p) 37) 37)) y = rmt_temper p y; last by [].
by rewrite /rmt_temper; cbn [r_maskb r_maskc]; rewrite !M.
Qed.
