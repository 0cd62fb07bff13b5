(** Tempering is a bijection; the state of the Mersenne Twister never
    becomes zero and moves by a linear bijection. *)
From Coq Require Import Arith NArith ZArith List Bool Lia.
From Verif Require Import Base UtilModel WordLemmas UtilProofs2 MTModel MTSpec MTClient
  MTSeedProofs MTProofs.
Import ListNotations.
Local Open Scope N_scope.

(** * x -> x ^ S x with S linear and nilpotent *)
Section Unipotent.
Variable w : N.
Variable S : N -> N.
Variable m : nat.
Hypothesis Slt : forall y, y < 2 ^ w -> S y < 2 ^ w.
Hypothesis Slin : forall a b, S (N.lxor a b) = N.lxor (S a) (S b).
Hypothesis Snil : forall y, y < 2 ^ w -> Nat.iter m S y = 0.

Definition uni (y : N) : N := N.lxor y (S y).

Lemma uni_lt y : y < 2 ^ w -> uni y < 2 ^ w.
Proof. intros H. apply lxor_lt; auto. Qed.

Lemma uni_inj a b : a < 2 ^ w -> b < 2 ^ w -> uni a = uni b -> a = b.
Proof.
  intros Ha Hb E. apply N.lxor_eq. set (d := N.lxor a b).
  assert (Hd : d < 2 ^ w) by now apply lxor_lt.
  assert (F : d = S d).
  { apply N.lxor_eq. unfold d. rewrite Slin. unfold uni in E.
    transitivity (N.lxor (N.lxor a (S a)) (N.lxor b (S b))).
    - apply N.bits_inj. intros i. rewrite !N.lxor_spec.
      destruct (N.testbit a i), (N.testbit b i), (N.testbit (S a) i), (N.testbit (S b) i); reflexivity.
    - rewrite E. apply N.lxor_nilpotent. }
  assert (G : forall k, Nat.iter k S d = d).
  { induction k as [|k IH]; [reflexivity|]. cbn [Nat.iter nat_rect]. change (nat_rect _ _ _ _) with (Nat.iter k S d).
    now rewrite IH. }
  rewrite <- (G m). now apply Snil.
Qed.

Fixpoint approx (k : nat) (y : N) : N :=
  match k with O => y | Datatypes.S k' => N.lxor y (S (approx k' y)) end.

Lemma approx_lt k y : y < 2 ^ w -> approx k y < 2 ^ w.
Proof. intros H. induction k; cbn; [exact H|]. apply lxor_lt; auto. Qed.

Lemma approx_step k y :
  N.lxor (approx (Datatypes.S k) y) (approx k y) = Nat.iter k S (S y).
Proof.
  induction k as [|k IH].
  - cbn. rewrite N.lxor_comm, <- N.lxor_assoc, N.lxor_nilpotent. apply N.lxor_0_l.
  - change (approx (Datatypes.S (Datatypes.S k)) y) with (N.lxor y (S (approx (Datatypes.S k) y))).
    change (approx (Datatypes.S k) y) with (N.lxor y (S (approx k y))) at 2.
    transitivity (S (N.lxor (approx (Datatypes.S k) y) (approx k y))).
    + rewrite Slin. apply N.bits_inj. intros i. rewrite !N.lxor_spec.
      generalize (N.testbit (S (approx (Datatypes.S k) y)) i) (N.testbit (S (approx k y)) i) (N.testbit y i).
      intros [] [] []; reflexivity.
    + rewrite IH. reflexivity.
Qed.

Lemma uni_onto y : y < 2 ^ w -> exists x, x < 2 ^ w /\ uni x = y.
Proof.
  intros Hy. exists (approx m y). split; [now apply approx_lt|].
  unfold uni. pose proof (approx_step m y) as E.
  assert (Z : Nat.iter m S (S y) = 0) by (apply Snil; auto).
  rewrite Z in E. cbn [approx] in E.
  apply N.lxor_eq. rewrite <- E.
  apply N.bits_inj. intros i. rewrite !N.lxor_spec.
  destruct (N.testbit y i), (N.testbit (S (approx m y)) i), (N.testbit (approx m y) i); reflexivity.
Qed.
End Unipotent.

(** Masked right shift. *)
Definition shr_mask (k M y : N) : N := N.land (y / 2 ^ k) M.
Lemma shr_mask_lin k M a b : shr_mask k M (N.lxor a b) = N.lxor (shr_mask k M a) (shr_mask k M b).
Proof.
  unfold shr_mask. rewrite <- !N.shiftr_div_pow2, N.shiftr_lxor.
  apply N.bits_inj. intros i. rewrite !N.land_spec, !N.lxor_spec, !N.land_spec.
  destruct (N.testbit M i); rewrite ?andb_true_r, ?andb_false_r; reflexivity.
Qed.
Lemma shr_mask_bits k M v y : y < 2 ^ v -> shr_mask k M y < 2 ^ (v - k).
Proof.
  intros H. unfold shr_mask. rewrite <- N.shiftr_div_pow2. apply lt_pow2_bits. intros i Hi.
  rewrite N.land_spec, N.shiftr_spec by lia. rewrite (bits_above v y (i + k)) by (auto; lia). reflexivity.
Qed.
Lemma shr_mask_lt k M w y : y < 2 ^ w -> shr_mask k M y < 2 ^ w.
Proof.
  intros H. apply N.lt_le_trans with (2 ^ (w - k)); [now apply shr_mask_bits|].
  apply N.pow_le_mono_r; lia.
Qed.
Lemma shr_mask_nil k M w m y : w <= N.of_nat m * k -> y < 2 ^ w -> Nat.iter m (shr_mask k M) y = 0.
Proof.
  intros Hm Hy.
  assert (G : forall j, Nat.iter j (shr_mask k M) y < 2 ^ (w - N.of_nat j * k)).
  { induction j as [|j IH]; [cbn [Nat.iter nat_rect]; now rewrite N.mul_0_l, N.sub_0_r|].
    cbn [Nat.iter nat_rect]. change (nat_rect _ _ _ _) with (Nat.iter j (shr_mask k M) y).
    replace (w - N.of_nat (S j) * k) with (w - N.of_nat j * k - k) by lia.
    now apply shr_mask_bits. }
  specialize (G m). replace (w - N.of_nat m * k) with 0 in G by lia.
  change (2 ^ 0) with 1 in G. lia.
Qed.

(** Masked left shift in w-bit words. *)
Definition shl_mask (w k M y : N) : N := N.land ((y * 2 ^ k) mod 2 ^ w) M.
Lemma shl_mask_spec w k M y i : N.testbit (shl_mask w k M y) i =
  ((i <? w) && (k <=? i) && N.testbit y (i - k) && N.testbit M i).
Proof.
  unfold shl_mask. rewrite <- N.shiftl_mul_pow2. change (N.shiftl y k mod 2 ^ w) with (wshl w y k).
  rewrite N.land_spec, wshl_spec. destruct ((i <? w) && (k <=? i)); reflexivity.
Qed.
Lemma shl_mask_lin w k M a b :
  shl_mask w k M (N.lxor a b) = N.lxor (shl_mask w k M a) (shl_mask w k M b).
Proof.
  apply N.bits_inj. intros i. rewrite N.lxor_spec, !shl_mask_spec, N.lxor_spec.
  destruct ((i <? w) && (k <=? i)), (N.testbit M i); cbn [andb]; rewrite ?andb_true_r, ?andb_false_r; reflexivity.
Qed.
Lemma shl_mask_lt w k M y : shl_mask w k M y < 2 ^ w.
Proof. apply land_lt. apply N.mod_lt. pose proof (pow2_pos w). lia. Qed.
Lemma shl_mask_nil w k M m y : w <= N.of_nat m * k -> y < 2 ^ w ->
  Nat.iter m (shl_mask w k M) y = 0.
Proof.
  intros Hm Hy.
  assert (G : forall j i, i < N.of_nat j * k -> N.testbit (Nat.iter j (shl_mask w k M) y) i = false).
  { induction j as [|j IH]; intros i Hi; [lia|].
    cbn [Nat.iter nat_rect]. change (nat_rect _ _ _ _) with (Nat.iter j (shl_mask w k M) y).
    rewrite shl_mask_spec. destruct (N.leb_spec k i); rewrite ?andb_false_r; [|reflexivity].
    rewrite IH by lia. now rewrite andb_false_r. }
  assert (L : Nat.iter m (shl_mask w k M) y < 2 ^ w).
  { destruct m; [exact Hy|]. cbn [Nat.iter nat_rect]. apply shl_mask_lt. }
  apply N.bits_inj. intros i. rewrite N.bits_0.
  destruct (N.lt_ge_cases i w) as [Hi|Hi]; [apply G; lia|now apply (bits_above w)].
Qed.


Lemma bij_comp w f g : bij w f -> bij w g -> bij w (fun y => g (f y)).
Proof.
  intros (Hf & If & Of) (Hg & Ig & Og). split; [auto|]. split.
  - intros a b Ha Hb E. now apply If, Ig; auto.
  - intros y Hy. destruct (Og y Hy) as (z & Hz & <-). destruct (Of z Hz) as (x & Hx & <-). eauto.
Qed.
Lemma bij_shr w k M m : w <= N.of_nat m * k -> bij w (uni (shr_mask k M)).
Proof.
  intros Hm. split; [|split].
  - intros a Ha. apply (uni_lt w); auto. intros y. apply shr_mask_lt.
  - intros a b. apply (uni_inj w _ m); intros.
    + apply shr_mask_lin.
    + now apply (shr_mask_nil k M w).
  - intros y. apply (uni_onto w _ m); intros.
    + now apply shr_mask_lt.
    + apply shr_mask_lin.
    + now apply (shr_mask_nil k M w).
Qed.
Lemma bij_shl w k M m : w <= N.of_nat m * k -> bij w (uni (shl_mask w k M)).
Proof.
  intros Hm. split; [|split].
  - intros a Ha. apply (uni_lt w); auto. intros y _. apply shl_mask_lt.
  - intros a b. apply (uni_inj w _ m); intros.
    + apply shl_mask_lin.
    + now apply shl_mask_nil.
  - intros y. apply (uni_onto w _ m); intros.
    + now apply shl_mask_lt.
    + apply shl_mask_lin.
    + now apply shl_mask_nil.
Qed.

Lemma bij_ext w f g : (forall y, y < 2 ^ w -> f y = g y) -> bij w f -> bij w g.
Proof.
  intros E (Hf & If & Of). split; [|split].
  - intros a Ha. rewrite <- E by auto. auto.
  - intros a b Ha Hb. rewrite <- !E by auto. auto.
  - intros y Hy. destruct (Of y Hy) as (x & Hx & Ex). exists x. rewrite <- E by auto. auto.
Qed.

Lemma shr_plain w k y : y < 2 ^ w -> shr_mask k (N.ones w) y = y / 2 ^ k.
Proof.
  intros H. unfold shr_mask. rewrite N.land_ones. apply N.mod_small.
  rewrite <- N.shiftr_div_pow2. now apply shiftr_lt.
Qed.

Lemma temper32_bij : bij 32 temper32.
Proof.
  apply (bij_ext 32 (fun y => uni (shr_mask 18 (N.ones 32))
    (uni (shl_mask 32 15 0xefc60000) (uni (shl_mask 32 7 0x9d2c5680)
      (uni (shr_mask 11 (N.ones 32)) y))))).
  - intros y Hy. rewrite temper32_ref. unfold ref_temper32. cbv zeta.
    unfold uni. rewrite !(shr_plain 32).
    + unfold shl_mask. reflexivity.
    + repeat first [exact Hy|apply lxor_lt|apply shl_mask_lt|apply shr_mask_lt
        |rewrite <- N.shiftr_div_pow2; apply shiftr_lt].
    + repeat first [exact Hy|apply lxor_lt|apply shl_mask_lt|apply shr_mask_lt
        |rewrite <- N.shiftr_div_pow2; apply shiftr_lt].
  - apply (bij_comp 32 (fun y => uni (shl_mask 32 15 0xefc60000) (uni (shl_mask 32 7 0x9d2c5680)
      (uni (shr_mask 11 (N.ones 32)) y)))); [|apply (bij_shr 32 18 _ 2); reflexivity || (cbn; lia)].
    apply (bij_comp 32 (fun y => uni (shl_mask 32 7 0x9d2c5680)
      (uni (shr_mask 11 (N.ones 32)) y))); [|apply (bij_shl 32 15 _ 3); cbn; lia].
    apply (bij_comp 32 (fun y => uni (shr_mask 11 (N.ones 32)) y));
      [apply (bij_shr 32 11 _ 3); cbn; lia|apply (bij_shl 32 7 _ 5); cbn; lia].
Qed.
Lemma temper64_bij : bij 64 temper64.
Proof.
  apply (bij_ext 64 (fun y => uni (shr_mask 43 (N.ones 64))
    (uni (shl_mask 64 37 0xFFF7EEE000000000) (uni (shl_mask 64 17 0x71D67FFFEDA60000)
      (uni (shr_mask 29 0x5555555555555555) y))))).
  - intros y Hy. rewrite temper64_ref. unfold ref_temper64. cbv zeta.
    unfold uni. rewrite (shr_plain 64).
    + unfold shl_mask, shr_mask. reflexivity.
    + repeat first [exact Hy|apply lxor_lt|apply shl_mask_lt|apply shr_mask_lt
        |rewrite <- N.shiftr_div_pow2; apply shiftr_lt].
  - apply (bij_comp 64 (fun y => uni (shl_mask 64 37 0xFFF7EEE000000000) (uni (shl_mask 64 17 0x71D67FFFEDA60000)
      (uni (shr_mask 29 0x5555555555555555) y)))); [|apply (bij_shr 64 43 _ 2); cbn; lia].
    apply (bij_comp 64 (fun y => uni (shl_mask 64 17 0x71D67FFFEDA60000)
      (uni (shr_mask 29 0x5555555555555555) y))); [|apply (bij_shl 64 37 _ 2); cbn; lia].
    apply (bij_comp 64 (fun y => uni (shr_mask 29 0x5555555555555555) y));
      [apply (bij_shr 64 29 _ 3); cbn; lia|apply (bij_shl 64 17 _ 4); cbn; lia].
Qed.

(** * The state space *)
Section State.
Variable R : ref_params.
Notation n := (r_n R).
Notation w := (r_w R).
Notation same_state := (same_state R).
Notation words := (words R).
Notation nonzero_at := (nonzero_at R).
Hypothesis Hn : (3 <= n)%nat.
Hypothesis Hm : (2 <= r_m R < n)%nat.
Hypothesis Hw : 32 <= w.
Hypothesis Ha : r_a R < 2 ^ w.
Hypothesis Htop : N.testbit (r_a R) (w - 1) = true.


Lemma twist_lin u v : twist R (N.lxor u v) = N.lxor (twist R u) (twist R v).
Proof.
  unfold twist. rewrite <- !N.div2_div. rewrite <- !N.bit0_odd, N.lxor_spec.
  change N.div2 with (fun a => N.div2 a). cbv beta.
  replace (N.div2 (N.lxor u v)) with (N.lxor (N.div2 u) (N.div2 v))
    by (rewrite !N.div2_spec; now rewrite N.shiftr_lxor).
  apply N.bits_inj. intros i. rewrite !N.lxor_spec.
  destruct (N.testbit u 0), (N.testbit v 0); cbn [xorb]; rewrite ?N.bits_0;
  destruct (N.testbit (N.div2 u) i), (N.testbit (N.div2 v) i), (N.testbit (r_a R) i); reflexivity.
Qed.

Lemma join_spec a b i : N.testbit (join a b) i = if i <? 31 then N.testbit b i else N.testbit a i.
Proof.
  unfold join. rewrite cat_spec by (apply N.mod_lt; discriminate).
  destruct (N.ltb_spec i 31).
  - now rewrite N.mod_pow2_bits_low.
  - rewrite <- N.shiftr_div_pow2, N.shiftr_spec by lia. f_equal. lia.
Qed.
Lemma join_lin a b c d : join (N.lxor a c) (N.lxor b d) = N.lxor (join a b) (join c d).
Proof.
  apply N.bits_inj. intros i. rewrite N.lxor_spec, !join_spec, !N.lxor_spec.
  now destruct (i <? 31).
Qed.

(** Superposition. *)
Lemma recurrence_lin x y : mt_recurrence R x -> mt_recurrence R y ->
  mt_recurrence R (fun t => N.lxor (x t) (y t)).
Proof.
  intros Hx Hy k. cbv beta. rewrite Hx, Hy, join_lin, twist_lin.
  apply N.bits_inj. intros i. rewrite !N.lxor_spec.
  repeat match goal with |- context [N.testbit ?a ?b] => destruct (N.testbit a b) end; reflexivity.
Qed.
Lemma zero_recurrence : mt_recurrence R zero_seq.
Proof. intros k. reflexivity. Qed.

(** Inverse of the twist. *)
Definition untwist (t : N) : N :=
  let b := N.testbit t (w - 1) in
  2 * N.lxor t (if b then r_a R else 0) + N.b2n b.

Lemma half_top t : t < 2 ^ w -> N.testbit t (w - 1) = false -> 2 * t < 2 ^ w.
Proof.
  intros Ht Hb. assert (L : t < 2 ^ (w - 1)).
  { apply lt_pow2_bits. intros i Hi. destruct (N.eq_dec i (w - 1)) as [->|Hne]; [exact Hb|].
    apply (bits_above w); [exact Ht|lia]. }
  replace w with (N.succ (w - 1)) by lia. rewrite N.pow_succ_r'. lia.
Qed.

Lemma untwist_ok t : t < 2 ^ w -> untwist t < 2 ^ w /\ twist R (untwist t) = t.
Proof.
  intros Ht. unfold untwist. set (b := N.testbit t (w - 1)).
  set (v := N.lxor t (if b then r_a R else 0)).
  assert (Hv : v < 2 ^ w).
  { apply lxor_lt; [exact Ht|]. destruct b; [exact Ha|apply pow2_pos]. }
  assert (Hvt : N.testbit v (w - 1) = false).
  { unfold v. rewrite N.lxor_spec. fold b. destruct b; [rewrite Htop|rewrite N.bits_0]; reflexivity. }
  pose proof (half_top v Hv Hvt) as H2. split.
  - assert (Ev : 2 ^ w = 2 * 2 ^ (w - 1)).
    { rewrite <- N.pow_succ_r'. f_equal. lia. }
    destruct b; cbn [N.b2n]; lia.
  - unfold twist. replace ((2 * v + N.b2n b) / 2) with v.
    2:{ apply (N.div_unique _ 2 v (N.b2n b)); destruct b; cbn [N.b2n]; lia. }
    replace (N.odd (2 * v + N.b2n b)) with b.
    2:{ rewrite N.odd_add, N.odd_mul. destruct b; reflexivity. }
    unfold v. rewrite N.lxor_assoc, N.lxor_nilpotent. apply N.lxor_0_r.
Qed.
Lemma twist_zero u : u < 2 ^ w -> twist R u = 0 -> u = 0.
Proof.
  intros Hu E. unfold twist in E. destruct (N.odd u) eqn:O.
  - exfalso. apply N.lxor_eq in E.
    assert (B : N.testbit (u / 2) (w - 1) = true) by now rewrite E.
    change 2 with (2 ^ 1) in B at 1. rewrite <- N.shiftr_div_pow2, N.shiftr_spec in B by lia.
    rewrite (bits_above w u (w - 1 + 1)) in B by (auto; lia). discriminate.
  - rewrite N.lxor_0_r in E. apply N.div_small_iff in E; [|discriminate].
    destruct u as [|[p|p|]]; cbn in *; try reflexivity; try discriminate; lia.
Qed.
Lemma twist_inj u v : u < 2 ^ w -> v < 2 ^ w -> twist R u = twist R v -> u = v.
Proof.
  intros Hu Hv E. apply N.lxor_eq. apply twist_zero; [now apply lxor_lt|].
  rewrite twist_lin, E. apply N.lxor_nilpotent.
Qed.

Lemma join_high a b : join a b / 2 ^ 31 = a / 2 ^ 31.
Proof.
  unfold join. symmetry. apply (N.div_unique _ _ _ (b mod 2 ^ 31)).
  - apply N.mod_lt. discriminate.
  - rewrite N.mul_comm. reflexivity.
Qed.
Lemma join_low a b : join a b mod 2 ^ 31 = b mod 2 ^ 31.
Proof.
  unfold join. rewrite N.add_comm, N.mod_add by discriminate. now rewrite N.mod_mod.
Qed.
Lemma join_ext a a' b : a / 2 ^ 31 = a' / 2 ^ 31 -> join a b = join a' b.
Proof. intros E. unfold join. now rewrite E. Qed.

(** The state determines the next state ... *)
Lemma state_next x k y l : mt_recurrence R x -> mt_recurrence R y ->
  same_state x k y l -> same_state x (S k) y (S l).
Proof.
  intros Hx Hy (H0 & H). split.
  - specialize (H 1%nat ltac:(lia)). rewrite !Nat.add_1_r in H. now rewrite H.
  - intros i Hi. destruct (Nat.eq_dec i (n - 1)) as [->|Hne].
    + replace (S k + (n - 1))%nat with (k + n)%nat by lia.
      replace (S l + (n - 1))%nat with (l + n)%nat by lia.
      rewrite Hx, Hy. pose proof (H 1%nat ltac:(lia)) as H1. rewrite !Nat.add_1_r in H1.
      rewrite H1. rewrite (H (r_m R)) by lia. now rewrite (join_ext _ _ _ H0).
    + replace (S k + i)%nat with (k + S i)%nat by lia.
      replace (S l + i)%nat with (l + S i)%nat by lia. apply H. lia.
Qed.
(** ... and the previous one. *)
Lemma state_prev x k y l : mt_recurrence R x -> mt_recurrence R y -> words x -> words y ->
  same_state x (S k) y (S l) -> same_state x k y l.
Proof.
  intros Hx Hy Wx Wy (H0 & H).
  assert (Hmm : x (k + r_m R)%nat = y (l + r_m R)%nat).
  { specialize (H (r_m R - 1)%nat ltac:(lia)).
    replace (S k + (r_m R - 1))%nat with (k + r_m R)%nat in H by lia.
    now replace (S l + (r_m R - 1))%nat with (l + r_m R)%nat in H by lia. }
  assert (Hnn : x (k + n)%nat = y (l + n)%nat).
  { specialize (H (n - 1)%nat ltac:(lia)).
    replace (S k + (n - 1))%nat with (k + n)%nat in H by lia.
    now replace (S l + (n - 1))%nat with (l + n)%nat in H by lia. }
  assert (J : join (x k) (x (S k)) = join (y l) (y (S l))).
  { apply twist_inj; try (apply join_lt; [lia|auto]).
    rewrite Hx, Hy, Hmm in Hnn. apply (f_equal (N.lxor (y (l + r_m R)%nat))) in Hnn.
    now rewrite <- !N.lxor_assoc, !N.lxor_nilpotent, !N.lxor_0_l in Hnn. }
  assert (J1 : x k / 2 ^ 31 = y l / 2 ^ 31).
  { rewrite <- (join_high (x k) (x (S k))), J. apply join_high. }
  assert (J2 : x (S k) mod 2 ^ 31 = y (S l) mod 2 ^ 31).
  { rewrite <- (join_low (x k) (x (S k))), J. apply join_low. }
  split; [exact J1|]. intros i Hi.
  destruct (Nat.eq_dec i 1) as [->|Hne].
  - rewrite !Nat.add_1_r. rewrite (N.div_mod (x (S k)) (2 ^ 31)) by discriminate.
    rewrite H0, J2. symmetry. apply N.div_mod. discriminate.
  - replace (k + i)%nat with (S k + (i - 1))%nat by lia.
    replace (l + i)%nat with (S l + (i - 1))%nat by lia. apply H. lia.
Qed.
(** Every state has a predecessor. *)
Lemma state_pred x : mt_recurrence R x -> words x ->
  exists y, mt_recurrence R y /\ words y /\ same_state y 1 x 0.
Proof.
  intros Hx Wx.
  set (t := N.lxor (x (n - 1)%nat) (x (r_m R - 1)%nat)).
  destruct (untwist_ok t) as (Hu & Eu); [apply lxor_lt; auto|].
  set (u := untwist t) in *.
  set (y := fun i : nat => match i with
            | O => u
            | S O => join (x O) u
            | S j => x j end).
  assert (Wy : words y).
  { intros [|[|j]]; cbn; [exact Hu| |apply Wx]. apply join_lt; [lia|apply Wx]. }
  assert (Hh : forall j, (1 <= j)%nat -> y j / 2 ^ 31 = x (j - 1)%nat / 2 ^ 31).
  { intros [|[|j]] Hj; [lia| |]; cbn [y].
    - rewrite join_high. reflexivity.
    - now replace (S (S j) - 1)%nat with (S j) by lia. }
  assert (Hy2 : forall j, (2 <= j)%nat -> y j = x (j - 1)%nat).
  { intros [|[|j]] Hj; [lia|lia|]. cbn [y]. now replace (S (S j) - 1)%nat with (S j) by lia. }
  exists y. split; [|split; [exact Wy|]].
  - intros k. rewrite (Hy2 (k + n)%nat), (Hy2 (k + r_m R)%nat) by lia.
    destruct k as [|k].
    + cbn [Nat.add y]. replace (join u (join (x O) u)) with u.
      * rewrite Eu. unfold t.
        rewrite (N.lxor_comm (x (n - 1)%nat)), <- N.lxor_assoc, N.lxor_nilpotent. now rewrite N.lxor_0_l.
      * apply N.bits_inj. intros i. rewrite !join_spec. now destruct (i <? 31).
    + replace (S k + n - 1)%nat with (k + n)%nat by lia.
      replace (S k + r_m R - 1)%nat with (k + r_m R)%nat by lia.
      rewrite Hx. do 2 f_equal. rewrite (Hy2 (S (S k))) by lia.
      replace (S (S k) - 1)%nat with (S k) by lia. apply join_ext.
      rewrite Hh by lia. now replace (S k - 1)%nat with k by lia.
  - split; [rewrite Hh by lia; reflexivity|].
    intros i Hi. rewrite Hy2 by lia. f_equal. lia.
Qed.


Lemma zero_shift x k l : same_state x k zero_seq l -> same_state x k zero_seq 0.
Proof. exact (fun H => H). Qed.

Lemma nonzero_forever x : mt_recurrence R x -> words x -> nonzero_at x 0 -> forall k, nonzero_at x k.
Proof.
  intros Hx Wx H0. induction k as [|k IH]; [exact H0|].
  intros H. apply IH. apply (state_prev x k zero_seq 0); auto using zero_recurrence.
  intros t. apply pow2_pos.
Qed.

Lemma genrand_nonzero s : nonzero_at (mt_stream R (genrand R s)) 0.
Proof.
  intros (_ & H). pose proof (H 1%nat ltac:(lia)) as H1. pose proof (H 2%nat ltac:(lia)) as H2.
  cbn [Nat.add] in *. rewrite mt_stream_init in H1, H2 by lia.
  change (genrand R s 2) with ((r_f R * scr R (genrand R s 1) + 2) mod 2 ^ w) in H2.
  rewrite H1 in H2. unfold scr in H2. rewrite N.div_0_l in H2 by (apply N.pow_nonzero; discriminate).
  change (N.lxor (zero_seq 1) 0) with 0 in H2. rewrite N.mul_0_r, N.add_0_l in H2.
  rewrite N.mod_small in H2; [discriminate|].
  apply N.lt_le_trans with (2 ^ 32); [reflexivity|]. apply N.pow_le_mono_r; lia.
Qed.
Lemma by_array_nonzero key : nonzero_at (mt_stream R (by_array R key)) 0.
Proof.
  intros (H & _). rewrite mt_stream_init in H by lia. cbn [by_array] in H.
  change (zero_seq 0 / 2 ^ 31) with 0 in H. apply N.div_small_iff in H; [|discriminate].
  assert (2 ^ 31 <= 2 ^ (w - 1)) by (apply N.pow_le_mono_r; lia). lia.
Qed.

(** Consequence for the outputs. *)
Lemma outputs_nonzero (temper : N -> N) x k : mt_recurrence R x -> words x -> nonzero_at x 0 ->
  temper 0 = 0 -> bij w temper ->
  exists i, (k <= i < k + n)%nat /\ temper (x (n + i)%nat) <> 0.
Proof.
  intros Hx Wx H0 T0 (_ & Ti & _).
  assert (D : (exists i, (k <= i < k + n)%nat /\ temper (x (n + i)%nat) <> 0) \/
              (forall i, (k <= i < k + n)%nat -> temper (x (n + i)%nat) = 0)).
  { assert (G : forall c, (exists i, (k <= i < k + c)%nat /\ temper (x (n + i)%nat) <> 0) \/
              (forall i, (k <= i < k + c)%nat -> temper (x (n + i)%nat) = 0)).
    { induction c as [|c [(i & Hi & E)|IH]]; [right; lia|left; exists i; split; [lia|exact E]|].
      destruct (N.eq_dec (temper (x (n + (k + c))%nat)) 0) as [E|E].
      - right. intros i Hi. destruct (Nat.eq_dec i (k + c)) as [->|]; [exact E|apply IH; lia].
      - left. exists (k + c)%nat. split; [lia|exact E]. }
    apply G. }
  destruct D as [D|D]; [exact D|]. exfalso.
  apply (nonzero_forever x Hx Wx H0 (n + k)%nat). 
  assert (Z : forall i, (k <= i < k + n)%nat -> x (n + i)%nat = 0).
  { intros i Hi. apply Ti; [apply Wx|apply pow2_pos|]. now rewrite T0, D. }
  split.
  - rewrite Z by lia. reflexivity.
  - intros i Hi. unfold zero_seq. rewrite <- Nat.add_assoc. apply Z. lia.
Qed.
End State.
