(** Combination of the lemmas about util.hpp into the forms used by
    UtilProps.v. *)
From Coq Require Import NArith ZArith List Bool Lia.
From Verif Require Import Base UtilModel UtilSpec WordLemmas UtilProofs UtilProofs2.
Import ListNotations.
Local Open Scope N_scope.

Lemma reverse_bit32_all (x : N) : x < 2 ^ 32 ->
  reverse_bit32 x < 2 ^ 32 /\
  (forall i, i < 32 -> N.testbit (reverse_bit32 x) i = N.testbit x (31 - i)) /\
  reverse_bit32 (reverse_bit32 x) = x.
Proof.
  intros Hx. split; [now apply reverse_bit32_lt|]. split.
  - intros i Hi. now apply reverse_bit32_ok.
  - now apply reverse_bit32_invol.
Qed.
Lemma reverse_bit64_all (x : N) : x < 2 ^ 64 ->
  reverse_bit64 x < 2 ^ 64 /\
  (forall i, i < 64 -> N.testbit (reverse_bit64 x) i = N.testbit x (63 - i)) /\
  reverse_bit64 (reverse_bit64 x) = x.
Proof.
  intros Hx. split; [now apply reverse_bit64_lt|]. split.
  - intros i Hi. now apply reverse_bit64_ok.
  - now apply reverse_bit64_invol.
Qed.

Lemma calc_1pos16_all (x : N) : x < 2 ^ 16 ->
  exists p, calc_1pos16 x = Ret p /\
    (x = 0 -> p = (-1)%Z) /\ (x <> 0 -> lowest_one_from_msb 16 x p).
Proof.
  intros Hx. destruct (N.eq_dec x 0) as [->|Hn].
  - exists (-1)%Z. repeat split; congruence.
  - destruct (calc_1pos16_ok x Hx Hn) as (p & E & H). exists p. tauto.
Qed.
Lemma calc_1pos32_undef : exists x, x < 2 ^ 32 /\ x <> 0 /\ calc_1pos32 x = Undef.
Proof. exists (2 ^ 31). repeat split; discriminate. Qed.
Lemma calc_1pos64_undef : exists x, x < 2 ^ 64 /\ x <> 0 /\ calc_1pos64 x = Undef.
Proof. exists (2 ^ 63). repeat split; discriminate. Qed.
Lemma calc_1pos32_all (x : N) : x < 2 ^ 32 -> x <> 2 ^ 31 ->
  exists p, calc_1pos32 x = Ret p /\
    (x = 0 -> p = (-1)%Z) /\ (x <> 0 -> lowest_one_from_msb 32 x p).
Proof.
  intros Hx Hm. destruct (N.eq_dec x 0) as [->|Hn].
  - exists (-1)%Z. repeat split; congruence.
  - destruct (calc_1pos32_partial x Hx Hn Hm) as (p & E & H). exists p. tauto.
Qed.
Lemma calc_1pos64_all (x : N) : x < 2 ^ 64 -> x <> 2 ^ 63 ->
  exists p, calc_1pos64 x = Ret p /\
    (x = 0 -> p = (-1)%Z) /\ (x <> 0 -> lowest_one_from_msb 64 x p).
Proof.
  intros Hx Hm. destruct (N.eq_dec x 0) as [->|Hn].
  - exists (-1)%Z. repeat split; congruence.
  - destruct (calc_1pos64_partial x Hx Hn Hm) as (p & E & H). exists p. tauto.
Qed.
Lemma calc_1pos32_wrap_all (x : N) : x < 2 ^ 32 ->
  (x = 0 -> calc_1pos32_wrap x = (-1)%Z) /\
  (x <> 0 -> lowest_one_from_msb 32 x (calc_1pos32_wrap x)).
Proof. intros Hx. split; [now intros ->|]. intros Hn. now apply calc_1pos32_wrap_ok. Qed.
Lemma calc_1pos64_wrap_all (x : N) : x < 2 ^ 64 ->
  (x = 0 -> calc_1pos64_wrap x = (-1)%Z) /\
  (x <> 0 -> lowest_one_from_msb 64 x (calc_1pos64_wrap x)).
Proof. intros Hx. split; [now intros ->|]. intros Hn. now apply calc_1pos64_wrap_ok. Qed.

Lemma get_range_all (start end_ : Z) :
  int_ok start = true -> int_ok end_ = true -> (start <= end_)%Z ->
  (end_ - start + 1 < 2 ^ 31)%Z ->
  (forall input, exists r, get_range input start end_ = Ret r /\ (start <= r <= end_)%Z) /\
  (forall r, (start <= r <= end_)%Z ->
     exists input, input < 2 ^ 31 /\ get_range input start end_ = Ret r) /\
  (forall input r, get_range input start end_ = Ret r ->
     get_range (input + 1) start end_ = Ret (if (r =? end_)%Z then start else r + 1)%Z).
Proof.
  intros Hs He Hle Hfit. split; [|split].
  - intros input. now apply get_range_in.
  - intros r Hr. now apply get_range_onto.
  - intros input r. now apply get_range_cyclic.
Qed.

Lemma select_xor_pow2 (src : list N) : forall (k : nat) (b : N) s,
  nth_error src k = Some s ->
  select_xor (2 ^ (b + N.of_nat k)) src b = s.
Proof.
  induction src as [|a src IH]; intros k b s E; [destruct k; discriminate|].
  cbn [select_xor]. destruct k as [|k].
  - injection E as ->. rewrite N.add_0_r, N.pow2_bits_true.
    rewrite select_xor_high; [apply N.lxor_0_r|]. apply N.pow_lt_mono_r; lia.
  - rewrite N.pow2_bits_false by lia. rewrite N.lxor_0_l.
    replace (b + N.of_nat (S k)) with ((b + 1) + N.of_nat k) by lia. now apply IH.
Qed.

Lemma fill_table_linear (dist src : list N) (size : N) :
  1 <= size -> size <= 2 ^ 30 -> N.to_nat size = length dist ->
  (forall k, 2 ^ k < size -> (N.to_nat k < length src)%nat) ->
  (forall d, In d dist -> d = 0) ->
  exists dist', fill_table dist src size = Ret dist' /\
    nth_error dist' 0 = Some 0 /\
    (forall k s, nth_error src k = Some s -> 2 ^ N.of_nat k < size ->
       nth_error dist' (N.to_nat (2 ^ N.of_nat k)) = Some s) /\
    (forall i j a b, N.lxor i j < size ->
       nth_error dist' (N.to_nat i) = Some a -> nth_error dist' (N.to_nat j) = Some b ->
       nth_error dist' (N.to_nat (N.lxor i j)) = Some (N.lxor a b)).
Proof.
  intros H1 H2 Hlen Hsrc Hz.
  destruct (fill_table_ok dist src size H1 H2 ltac:(lia) Hsrc) as (dist' & E & L & H).
  assert (V : forall i, i < size -> nth_error dist' (N.to_nat i) = Some (select_xor i src 0)).
  { intros i Hi. destruct (nth_error dist (N.to_nat i)) as [d|] eqn:Ed.
    - rewrite (H _ _ Ed), N2Nat.id. rewrite (Hz d) by (eapply nth_error_In; eauto).
      destruct (N.ltb_spec i size); [|lia]. now rewrite N.lxor_0_l.
    - apply nth_error_None in Ed. lia. }
  assert (B : forall i a, nth_error dist' (N.to_nat i) = Some a -> i < size).
  { intros i a Ha. assert (N.to_nat i < length dist')%nat by (apply nth_error_Some; congruence). lia. }
  exists dist'. split; [exact E|]. split; [|split].
  - change O with (N.to_nat 0). rewrite V by lia. f_equal. apply select_xor_high. cbn. lia.
  - intros k s Hk Hlt. rewrite V by auto. f_equal. now apply (select_xor_pow2 src k 0).
  - intros i j a b Hij Ha Hb. pose proof (B _ _ Ha). pose proof (B _ _ Hb).
    rewrite V in Ha, Hb by auto. rewrite V by auto. rewrite select_xor_lxor. congruence.
Qed.

Lemma toGF2Vec_all (w value : N) (i : nat) : (i < N.to_nat w)%nat ->
  length (toGF2Vec w value) = N.to_nat w /\
  nth_error (toGF2Vec w value) i = Some (N.testbit value (w - 1 - N.of_nat i)).
Proof.
  intros H. split; [apply toGF2Vec_length; lia|now apply toGF2Vec_nth].
Qed.

Lemma setBitOfPos_get (w x p b : N) : p < w -> x < 2 ^ w ->
  exists y, setBitOfPos w x (Z.of_N p) b = Ret y /\ y < 2 ^ w /\
    getBitOfPos w y (Z.of_N p) = Ret (b mod 2) /\
    forall i, i <> p -> i < w -> getBitOfPos w y (Z.of_N i) = getBitOfPos w x (Z.of_N i).
Proof.
  intros Hp Hx. destruct (setBitOfPos_ok w x p b Hp Hx) as (y & E & Hy & H).
  exists y. split; [exact E|]. split; [exact Hy|]. split.
  - rewrite getBitOfPos_ok by auto. rewrite H, N.eqb_refl. f_equal. now rewrite N.bit0_mod.
  - intros i Hi Hw. rewrite !getBitOfPos_ok by auto. rewrite H.
    destruct (N.eqb_spec i p); [congruence|reflexivity].
Qed.

Lemma from_to_GF2Vec_undef : exists w x : N,
  0 < w /\ x < 2 ^ w /\ fromGF2Vec w (toGF2Vec w x) = Undef.
Proof.
  exists 32, 0xa1. split; [reflexivity|]. split; [reflexivity|].
  apply fromGF2Vec_undef; [reflexivity|]. now apply toGF2Vec_length.
Qed.
