(** Correctness of the limb arithmetic. *)
From Coq Require Import ZArith List Bool Uint63 Lia Zpow_facts.
From Verif Require Import LimbMersenne.
Import ListNotations.
Local Open Scope Z_scope.

Definition bnd (b : Z) (l : list int) : Prop := Forall (fun x => to_Z x <= b) l.
Lemma wB63 : wB = 2 ^ 63. Proof. reflexivity. Qed.
Lemma tz_pos (x : int) : 0 <= to_Z x. Proof. apply to_Z_bounded. Qed.

Lemma lval_pos l : 0 <= lval l.
Proof. induction l as [|x l IH]; cbn [lval]; [lia|]. pose proof (tz_pos x). lia. Qed.

Lemma addmul_ok a A X Y : to_Z a <= A -> 0 <= X -> 0 <= Y -> A * X + Y < 2 ^ 63 ->
  forall l acc, bnd X l -> bnd Y acc ->
  lval (addmul a l acc) = lval acc + to_Z a * lval l /\ bnd (A * X + Y) (addmul a l acc).
Proof.
intros HA HX HY HB. pose proof (tz_pos a).
induction l as [|x l IH]; intros acc Hl Hacc; cbn [addmul lval].
- split; [lia|]. eapply Forall_impl; [|exact Hacc]. cbn. intros; nia.
- inversion Hl as [|? ? Hx Hl']; subst. pose proof (tz_pos x).
  assert (M : to_Z (a * x)%uint63 = to_Z a * to_Z x).
  { rewrite mul_spec, wB63, Z.mod_small; nia. }
  destruct acc as [|y acc]; cbn [lval].
  + destruct (IH [] Hl' (Forall_nil _)) as [E F]. split.
    * rewrite E, M. cbn [lval]. lia.
    * constructor; [rewrite M; nia|exact F].
  + inversion Hacc as [|? ? Hy Hacc']; subst. pose proof (tz_pos y).
    destruct (IH acc Hl' Hacc') as [E F].
    assert (S : to_Z (y + a * x)%uint63 = to_Z y + to_Z a * to_Z x).
    { rewrite add_spec, M, wB63, Z.mod_small; nia. }
    split.
    * rewrite E, S. lia.
    * constructor; [rewrite S; nia|exact F].
Qed.

Lemma sqr_ok X : 0 <= X -> forall l, bnd X l ->
  Z.of_nat (length l) * (2 * (X * X)) < 2 ^ 63 ->
  lval (sqr l) = lval l * lval l /\ bnd (Z.of_nat (length l) * (2 * (X * X))) (sqr l).
Proof.
intros HX. induction l as [|a l IH]; intros H1 HB; cbn [sqr lval].
- split; [lia|constructor].
- inversion H1 as [|? ? Ha H1']; subst. cbn [length] in *.
  rewrite Nat2Z.inj_succ, Z.mul_succ_l in *. pose proof (tz_pos a).
  assert (P1 : 0 <= Z.of_nat (length l) * (2 * (X * X))) by nia.
  assert (P2 : to_Z a * to_Z a <= X * X) by nia.
  assert (P3 : 0 <= to_Z a * to_Z a) by nia.
  assert (X31 : X < 2 ^ 32) by nia.
  destruct (IH H1') as [E F]; [lia|].
  assert (M : to_Z (a * a)%uint63 = to_Z a * to_Z a).
  { rewrite mul_spec, wB63, Z.mod_small; lia. }
  assert (S : to_Z (a + a)%uint63 = 2 * to_Z a).
  { rewrite add_spec, wB63, Z.mod_small; lia. }
  destruct (addmul_ok (a + a)%uint63 (2 * X) X (Z.of_nat (length l) * (2 * (X * X))))
    with (l := l) (acc := 0%uint63 :: sqr l) as [E' F'].
  { lia. } { exact HX. } { exact P1. } { lia. } { exact H1'. }
  { constructor; [change (to_Z 0%uint63) with 0; lia|exact F]. }
  destruct l as [|b l'] eqn:El.
  { cbn [lval]. split; [rewrite M; ring|constructor; [rewrite M; lia|constructor]]. }
  rewrite <- El in *. clear El b l'.
  split.
  + rewrite E', M, S. cbn [lval]. change (to_Z 0%uint63) with 0. rewrite E.
    set (y := lval l). set (x := to_Z a). ring.
  + constructor; [rewrite M; lia|]. eapply Forall_impl; [|exact F']. intros z Hz; cbv beta in *; lia.
Qed.

Lemma land24 (x : int) : to_Z (x land 0xffffff)%uint63 = to_Z x mod 2 ^ 24.
Proof.
rewrite land_spec'. change (to_Z 0xffffff%uint63) with (Z.ones 24).
rewrite Z.land_ones by lia. reflexivity.
Qed.
Lemma shr24 (x : int) : to_Z (x >> 24)%uint63 = to_Z x / 2 ^ 24.
Proof. rewrite lsr_spec. reflexivity. Qed.
Lemma shr48 (x : int) : to_Z (x >> 48)%uint63 = to_Z x / 2 ^ 48.
Proof. rewrite lsr_spec. reflexivity. Qed.

Lemma carry_ok l : forall c, to_Z c <= 2 ^ 40 -> bnd (2 ^ 61) l ->
  lval (carry c l) = lval l + to_Z c /\ bnd (2 ^ 24) (carry c l).
Proof.
induction l as [|x l IH]; intros c Hc Hl; cbn [carry lval].
- pose proof (tz_pos c). rewrite !land24, shr24, shr48.
  pose proof (Z.mod_pos_bound (to_Z c) (2 ^ 24)).
  pose proof (Z.mod_pos_bound (to_Z c / 2 ^ 24) (2 ^ 24)).
  pose proof (Z.div_mod (to_Z c) (2 ^ 24)).
  pose proof (Z.div_mod (to_Z c / 2 ^ 24) (2 ^ 24)).
  rewrite Z.div_div in * by lia. change (2 ^ 24 * 2 ^ 24) with (2 ^ 48) in *.
  assert (to_Z c / 2 ^ 48 = 0) by (apply Z.div_small; lia).
  split; [lia|].
  repeat constructor; rewrite ?land24, ?shr24, ?shr48; lia.
- inversion Hl as [|? ? Hx Hl']; subst.
  pose proof (tz_pos c). pose proof (tz_pos x).
  assert (T : to_Z (x + c)%uint63 = to_Z x + to_Z c).
  { rewrite add_spec, wB63, Z.mod_small; lia. }
  assert (Q : to_Z ((x + c) >> 24)%uint63 = (to_Z x + to_Z c) / 2 ^ 24) by (rewrite shr24, T; reflexivity).
  destruct (IH ((x + c) >> 24)%uint63) as [E F]; [|exact Hl'|].
  + rewrite Q. apply Z.div_le_upper_bound; lia.
  + rewrite E, Q, land24, T.
    pose proof (Z.div_mod (to_Z x + to_Z c) (2 ^ 24)).
    pose proof (Z.mod_pos_bound (to_Z x + to_Z c) (2 ^ 24)).
    split; [lia|]. constructor; [rewrite land24, T; lia|exact F].
Qed.

Lemma lval_split k : forall l, lval l = lval (firstn k l) + 2 ^ (24 * Z.of_nat (min k (length l))) * lval (skipn k l).
Proof.
induction k as [|k IH]; intros l; cbn [firstn skipn].
{ cbn [lval Nat.min]. change (24 * Z.of_nat 0) with 0. rewrite Z.pow_0_r. lia. }
destruct l as [|x l]; cbn [lval length Nat.min]; [rewrite Z.mul_0_r; reflexivity|].
rewrite (IH l) at 1. rewrite Nat2Z.inj_succ.
replace (24 * Z.succ (Z.of_nat (Nat.min k (length l)))) with (24 + 24 * Z.of_nat (Nat.min k (length l))) by lia.
rewrite Z.pow_add_r by lia. lia.
Qed.
Lemma bnd_firstn b k l : bnd b l -> bnd b (firstn k l).
Proof. revert l; induction k; intros [|x l] H; cbn; try constructor; inversion H; subst; auto. all: apply IHk; auto. Qed.
Lemma bnd_skipn b k l : bnd b l -> bnd b (skipn k l).
Proof. revert l; induction k; intros [|x l] H; cbn; auto. inversion H; subst; auto. all: apply IHk; auto. Qed.

Section Mod.
Variables (M : Z) (k : nat) (c : int).
Hypothesis M0 : M <> 0.
Hypothesis c24 : to_Z c <= 2 ^ 23.
Hypothesis ck : 2 ^ (24 * Z.of_nat k) mod M = to_Z c mod M.

Lemma fold_ok l : bnd (2 ^ 24) l -> lval (fold k c l) mod M = lval l mod M /\ bnd (2 ^ 48) (fold k c l).
Proof.
intros H. unfold fold.
destruct (addmul_ok c (2 ^ 23) (2 ^ 24) (2 ^ 24) c24 ltac:(lia) ltac:(lia) ltac:(lia) (skipn k l) (firstn k l))
  as [E F]; [apply bnd_skipn; auto|apply bnd_firstn; auto|].
split; [|eapply Forall_impl; [|exact F]; cbn; intros; lia].
rewrite E, (lval_split k l).
destruct (Nat.le_gt_cases k (length l)) as [L|L].
- rewrite (min_l _ _ L), <- Z.add_mod_idemp_r, <- Z.mul_mod_idemp_l, <- ck by auto.
  rewrite Z.mul_mod_idemp_l, Z.add_mod_idemp_r by auto. reflexivity.
- rewrite (skipn_all2 l) by lia. cbn [lval]. rewrite !Z.mul_0_r. reflexivity.
Qed.

Lemma step_ok sub l x : bnd (2 ^ 24) sub -> step k c sub l = Some x ->
  lval x mod M = (lval l * lval l + lval sub) mod M.
Proof.
intros Hs. unfold step.
destruct (small 33554432%uint63 l) eqn:S; [|discriminate].
destruct (Nat.leb (length l) 512) eqn:L; [|discriminate].
apply Nat.leb_le in L. cbn [andb].
assert (Bl : bnd (2 ^ 25) l).
{ unfold small in S. rewrite forallb_forall in S. apply Forall_forall. intros y Hy.
  specialize (S y Hy). apply leb_spec in S. exact S. }
destruct (sqr_ok (2 ^ 25) ltac:(lia) l Bl) as [E1 F1]; [lia|].
destruct (addmul_ok 1%uint63 1 (2 ^ 24) (2 ^ 60)) with (l := sub) (acc := sqr l) as [E2 F2];
  try lia; try exact Hs.
{ change (to_Z 1%uint63) with 1; lia. }
{ eapply Forall_impl; [|exact F1]. cbn. intros; nia. }
destruct (carry_ok (addmul 1 sub (sqr l)) 0%uint63) as [E3 F3].
{ change (to_Z 0%uint63) with 0; lia. }
{ eapply Forall_impl; [|exact F2]. cbn. intros; lia. }
set (x1 := carry 0 (addmul 1 sub (sqr l))) in *.
destruct (fold_ok x1 F3) as [E4 F4].
destruct (carry_ok (fold k c x1) 0%uint63) as [E5 F5].
{ change (to_Z 0%uint63) with 0; lia. }
{ eapply Forall_impl; [|exact F4]. cbn. intros; lia. }
set (x2 := carry 0 (fold k c x1)) in *.
destruct (fold_ok x2 F5) as [E6 F6].
destruct (carry_ok (fold k c x2) 0%uint63) as [E7 F7].
{ change (to_Z 0%uint63) with 0; lia. }
{ eapply Forall_impl; [|exact F6]. cbn. intros; lia. }
set (x3 := carry 0 (fold k c x2)) in *.
destruct (fold_ok x3 F7) as [E8 _].
intros [= <-]. change (to_Z 0%uint63) with 0 in *. change (to_Z 1%uint63) with 1 in *.
rewrite E8, E7, Z.add_0_r, E6, E5, Z.add_0_r, E4, E3, E2, E1. f_equal. lia.
Qed.

(** The sequence t, t^2 + d, ... *)
Fixpoint qseq (d t : Z) (n : nat) : Z :=
  match n with O => t | S m => qseq d t m * qseq d t m + d end.
Lemma steps_ok sub l d t : bnd (2 ^ 24) sub -> lval sub mod M = d mod M -> lval l mod M = t mod M ->
  forall n x, steps n k c sub l = Some x -> lval x mod M = qseq d t n mod M.
Proof.
intros Hs Hd Ht. induction n as [|n IH]; intros x; cbn [steps qseq].
- intros [= <-]; auto.
- destruct (steps n k c sub l) as [y|] eqn:E; [|discriminate]. intros H.
  rewrite (step_ok _ _ _ Hs H).
  rewrite <- Z.add_mod_idemp_r, Hd, Z.add_mod_idemp_r by auto.
  rewrite <- Z.add_mod_idemp_l, Z.mul_mod, (IH y eq_refl), <- Z.mul_mod, Z.add_mod_idemp_l by auto.
  reflexivity.
Qed.
End Mod.

Lemma limbs_ok n : forall z, 0 <= z < 2 ^ (24 * Z.of_nat n) -> lval (limbs n z) = z /\ bnd (2 ^ 24) (limbs n z).
Proof.
induction n as [|n IH]; intros z Hz; cbn [limbs lval].
- cbn in Hz. split; [lia|constructor].
- rewrite Nat2Z.inj_succ in Hz.
  replace (24 * Z.succ (Z.of_nat n)) with (24 + 24 * Z.of_nat n) in Hz by lia.
  rewrite Z.pow_add_r in Hz by lia.
  destruct (IH (z / 2 ^ 24)) as [E F].
  { split; [apply Z.div_pos; lia|apply Z.div_lt_upper_bound; lia]. }
  pose proof (Z.mod_pos_bound z (2 ^ 24)). pose proof (Z.div_mod z (2 ^ 24)).
  assert (T : to_Z (of_Z (z mod 2 ^ 24)) = z mod 2 ^ 24).
  { rewrite of_Z_spec, wB63. apply Z.mod_small. lia. }
  rewrite E, T. split; [lia|]. constructor; [rewrite T; lia|exact F].
Qed.

Lemma run_ok p n d t d' x : 2 <= p -> 0 <= d < 2 ^ p -> 0 <= t < 2 ^ p -> d mod (2 ^ p - 1) = d' mod (2 ^ p - 1) ->
  run p n d t = Some x -> lval x mod (2 ^ p - 1) = qseq d' t n mod (2 ^ p - 1).
Proof.
intros Hp Hd Ht Ed. unfold run. set (k := Z.to_nat (nlimbs p)).
assert (N : 24 * Z.of_nat k - p = (p + 23) / 24 * 24 - p /\ p <= 24 * Z.of_nat k /\ 24 * Z.of_nat k - p <= 23).
{ unfold k, nlimbs. pose proof (Z.div_mod (p + 23) 24). pose proof (Z.mod_pos_bound (p + 23) 24).
  rewrite Z2Nat.id by (apply Z.div_pos; lia). lia. }
destruct N as (N1 & N2 & N3).
assert (P2 : 4 <= 2 ^ p) by (change 4 with (2 ^ 2); apply Z.pow_le_mono_r; lia).
assert (Pk : 2 ^ p <= 2 ^ (24 * Z.of_nat k)) by (apply Z.pow_le_mono_r; lia).
assert (Tc : to_Z (topc p) = 2 ^ (24 * Z.of_nat k - p)).
{ unfold topc. replace (24 * nlimbs p - p) with (24 * Z.of_nat k - p) by (unfold nlimbs in *; lia).
  rewrite of_Z_spec, wB63. apply Z.mod_small. split; [lia|].
  apply Z.le_lt_trans with (2 ^ 23); [apply Z.pow_le_mono_r; lia|lia]. }
destruct (limbs_ok k d ltac:(lia)) as [E1 F1]. destruct (limbs_ok k t ltac:(lia)) as [E2 F2].
apply (steps_ok (2 ^ p - 1) k (topc p)).
- lia.
- rewrite Tc. apply Z.pow_le_mono_r; lia.
- rewrite Tc. replace (24 * Z.of_nat k) with (p + (24 * Z.of_nat k - p)) at 1 by lia.
  rewrite Z.pow_add_r by lia.
  replace (2 ^ p * 2 ^ (24 * Z.of_nat k - p)) with (2 ^ (24 * Z.of_nat k - p) + 2 ^ (24 * Z.of_nat k - p) * (2 ^ p - 1)) by lia.
  apply Z.mod_add. lia.
- exact F1.
- rewrite E1. exact Ed.
- rewrite E2. reflexivity.
Qed.

Lemma ll_test_ok p : ll_test p = true -> 2 < p /\ qseq (-2) 4 (Z.to_nat (p - 2)) mod (2 ^ p - 1) = 0.
Proof.
unfold ll_test. destruct (2 <? p) eqn:P; [|discriminate]. apply Z.ltb_lt in P. cbn [andb].
destruct (run _ _ _ _) as [x|] eqn:R; [|discriminate]. intros H%Z.eqb_eq. split; [exact P|].
assert (P2 : 8 <= 2 ^ p) by (change 8 with (2 ^ 3); apply Z.pow_le_mono_r; lia).
rewrite <- H. symmetry. refine (run_ok p _ _ _ (-2) x _ _ _ _ R); try lia.
replace (2 ^ p - 3) with (-2 + 1 * (2 ^ p - 1)) by lia. apply Z.mod_add. lia.
Qed.
Lemma fermat_ok p : fermat_composite p = true -> 4 <= p /\ qseq 0 3 (Z.to_nat p) mod (2 ^ p - 1) <> 9.
Proof.
unfold fermat_composite. destruct (4 <=? p) eqn:P; [|discriminate]. apply Z.leb_le in P. cbn [andb].
destruct (run _ _ _ _) as [x|] eqn:R; [|discriminate]. intros H%negb_true_iff%Z.eqb_neq. split; [exact P|].
assert (P2 : 16 <= 2 ^ p) by (change 16 with (2 ^ 4); apply Z.pow_le_mono_r; lia).
rewrite <- (run_ok p _ 0 3 0 x ltac:(lia) ltac:(lia) ltac:(lia) eq_refl R). exact H.
Qed.
