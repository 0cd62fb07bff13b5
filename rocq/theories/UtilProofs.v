(** Proofs about util.hpp. *)
From Coq Require Import NArith ZArith List Bool Lia ZifyBool ZifyNat ZifyN.
From Verif Require Import Base WordLemmas UtilModel UtilSpec.
Import ListNotations.
Local Open Scope N_scope.
Ltac Zify.zify_post_hook ::= Z.div_mod_to_equations.

(** * Fields of eight bits *)
Fixpoint of_bytes (bs : list N) : N :=
  match bs with [] => 0 | b :: r => of_bytes r * 2 ^ 8 + b end.
Definition byte (b : N) : Prop := b < 2 ^ 8.
Fixpoint to_bytes (n : nat) (x : N) : list N :=
  match n with O => [] | S n' => x mod 2 ^ 8 :: to_bytes n' (x / 2 ^ 8) end.

Lemma to_bytes_ok (n : nat) (x : N) : x < 2 ^ (8 * N.of_nat n) ->
  of_bytes (to_bytes n x) = x.
Proof.
  revert x; induction n as [|n IH]; intros x Hx.
  - cbn in *. lia.
  - cbn [to_bytes of_bytes].
    rewrite IH.
    + rewrite N.mul_comm. symmetry. apply N.div_mod. lia.
    + apply N.div_lt_upper_bound; [lia|].
      rewrite <- N.pow_add_r. replace (8 + 8 * N.of_nat n) with (8 * N.of_nat (S n)) by lia.
      exact Hx.
Qed.

Lemma to_bytes_bound (n : nat) (x : N) : Forall byte (to_bytes n x).
Proof.
  revert x; induction n as [|n IH]; intros x; cbn [to_bytes]; constructor; auto.
  unfold byte. apply N.mod_upper_bound. lia.
Qed.
Lemma to_bytes_length (n : nat) (x : N) : length (to_bytes n x) = n.
Proof. revert x; induction n as [|n IH]; intros x; cbn; auto. Qed.

Lemma land_cat (k h l mh ml : N) : l < 2 ^ k -> ml < 2 ^ k ->
  N.land (h * 2 ^ k + l) (mh * 2 ^ k + ml) = N.land h mh * 2 ^ k + N.land l ml.
Proof.
  intros Hl Hm. apply N.bits_inj. intros i.
  rewrite N.land_spec, !cat_spec by (auto; now apply land_lt).
  destruct (i <? k); now rewrite N.land_spec.
Qed.

Lemma shr_land_cat (k j h l mh ml : N) : j <= k -> l < 2 ^ k -> ml < 2 ^ (k - j) ->
  N.land (N.shiftr (h * 2 ^ k + l) j) (mh * 2 ^ k + ml)
  = N.land (N.shiftr h j) mh * 2 ^ k + N.land (N.shiftr l j) ml.
Proof.
  intros Hj Hl Hm.
  assert (Hm' : ml < 2 ^ k).
  { eapply N.lt_le_trans; [exact Hm|]. apply N.pow_le_mono_r; lia. }
  apply N.bits_inj. intros i.
  rewrite N.land_spec, N.shiftr_spec by lia.
  rewrite !cat_spec by (auto; now apply land_lt_r).
  destruct (N.ltb_spec i k) as [Hi|Hi].
  - rewrite N.land_spec, N.shiftr_spec by lia.
    destruct (N.ltb_spec (i + j) k) as [Hij|Hij]; [reflexivity|].
    rewrite (bits_above (k - j) ml i) by (auto; lia). now rewrite !andb_false_r.
  - destruct (N.ltb_spec (i + j) k); [lia|].
    rewrite N.land_spec, N.shiftr_spec by lia. f_equal. f_equal. lia.
Qed.

Lemma land_le_l (x y : N) : N.land x y <= x.
Proof.
  destruct (N.eq_dec x 0) as [->|Hx]; [now rewrite N.land_0_l|].
  assert (H : N.ldiff x y + N.land x y = x).
  { rewrite N.add_nocarry_lxor.
    - apply N.bits_inj. intros i. rewrite N.lxor_spec, N.ldiff_spec, N.land_spec.
      now destruct (N.testbit x i), (N.testbit y i).
    - apply N.bits_inj. intros i. rewrite N.land_spec, N.ldiff_spec, N.land_spec, N.bits_0.
      now destruct (N.testbit x i), (N.testbit y i). }
  lia.
Qed.

Lemma shiftr_le (x k : N) : N.shiftr x k <= x.
Proof.
  rewrite N.shiftr_div_pow2. apply N.div_le_upper_bound.
  - pose proof (pow2_pos k); lia.
  - pose proof (pow2_pos k). rewrite <- (N.mul_1_l x) at 1. apply N.mul_le_mono_r. lia.
Qed.

Definition mask (n : nat) (c : N) : N := of_bytes (repeat c n).

Definition s1 (b : N) : N := b - N.land (N.shiftr b 1) 0x55.
Definition s2 (b : N) : N := N.land (N.shiftr b 2) 0x33 + N.land b 0x33.
Definition s3 (b : N) : N := (N.shiftr b 4 + b) mod 16.

Lemma stage1 (bs : list N) : Forall byte bs ->
  of_bytes bs - N.land (N.shiftr (of_bytes bs) 1) (mask (length bs) 0x55)
  = of_bytes (map s1 bs).
Proof.
  induction 1 as [|b bs Hb Hbs IH]; [reflexivity|].
  cbn [length of_bytes map]. unfold mask in *. cbn [repeat of_bytes].
  rewrite shr_land_cat by (auto; cbn; lia).
  rewrite <- IH. unfold s1.
  pose proof (land_le_l (N.shiftr b 1) 0x55) as H1. pose proof (shiftr_le b 1) as H2.
  pose proof (land_le_l (N.shiftr (of_bytes bs) 1) (of_bytes (repeat 85 (length bs)))) as H3.
  pose proof (shiftr_le (of_bytes bs) 1) as H4. nia.
Qed.

Lemma stage2 (bs : list N) : Forall byte bs ->
  N.land (N.shiftr (of_bytes bs) 2) (mask (length bs) 0x33)
  + N.land (of_bytes bs) (mask (length bs) 0x33)
  = of_bytes (map s2 bs).
Proof.
  induction 1 as [|b bs Hb Hbs IH]; [reflexivity|].
  cbn [length of_bytes map]. unfold mask in *. cbn [repeat of_bytes].
  rewrite shr_land_cat by (auto; cbn; lia).
  rewrite land_cat by (auto; cbn; lia).
  rewrite <- IH. unfold s2. lia.
Qed.

(** A byte whose two nibbles are at most four. *)
Definition nib4 (b : N) : Prop := b mod 16 <= 4 /\ b / 16 <= 4.

Lemma stage3 (bs : list N) : Forall nib4 bs ->
  N.land (N.shiftr (of_bytes bs) 4 + of_bytes bs) (mask (length bs) 0x0f)
  = of_bytes (map s3 bs).
Proof.
  induction 1 as [|b bs Hb Hbs IH]; [reflexivity|].
  cbn [length of_bytes map]. unfold mask in *. cbn [repeat of_bytes].
  set (h := of_bytes bs) in *.
  assert (Hh : h mod 16 <= 4).
  { unfold h. destruct Hbs as [|b' bs' Hb' _]; [cbn; lia|].
    cbn [of_bytes]. change (2 ^ 8) with 256. destruct Hb'. lia. }
  rewrite N.shiftr_div_pow2 in *. unfold s3. rewrite N.shiftr_div_pow2.
  change (2 ^ 8) with 256 in *. change (2 ^ 4) with 16 in *.
  destruct Hb as [Hb1 Hb2].
  assert (E : (h * 256 + b) / 16 + (h * 256 + b)
              = (h / 16 + h) * 256 + (16 * (h mod 16) + (b / 16 + b))) by lia.
  rewrite E. change 256 with (2 ^ 8).
  rewrite land_cat by (change (2 ^ 8) with 256; lia).
  rewrite IH. f_equal.
  change 15 with (N.ones 4). rewrite N.land_ones. change (2 ^ 4) with 16. lia.
Qed.

Definition check_bytes (f : N -> bool) : bool :=
  forallb (fun k => f (N.of_nat k)) (seq 0 256).
Lemma check_bytes_sound (f : N -> bool) : check_bytes f = true ->
  forall b, byte b -> f b = true.
Proof.
  unfold check_bytes. rewrite forallb_forall. intros H b Hb.
  specialize (H (N.to_nat b)). rewrite N2Nat.id in H. apply H.
  apply in_seq. unfold byte in Hb. change (2 ^ 8) with 256 in Hb. lia.
Qed.

Lemma s12_nib4 (b : N) : byte b -> nib4 (s2 (s1 b)).
Proof.
  intros Hb. unfold nib4.
  pose proof (check_bytes_sound
    (fun b => ((s2 (s1 b)) mod 16 <=? 4) && ((s2 (s1 b)) / 16 <=? 4))
    ltac:(vm_compute; reflexivity) b Hb) as H. cbv beta in H. lia.
Qed.
Lemma s1_byte (b : N) : byte b -> byte (s1 b).
Proof. unfold byte, s1. lia. Qed.
Lemma s2_byte (b : N) : byte b -> byte (s2 (s1 b)).
Proof.
  intros Hb. unfold byte.
  pose proof (check_bytes_sound (fun b => s2 (s1 b) <? 2 ^ 8)
    ltac:(vm_compute; reflexivity) b Hb) as H. cbv beta in H. lia.
Qed.

Lemma s123_pop (b : N) : byte b -> s3 (s2 (s1 b)) = N.of_nat (popcount 8 b).
Proof.
  intros Hb.
  pose proof (check_bytes_sound (fun b => s3 (s2 (s1 b)) =? N.of_nat (popcount 8 b))
    ltac:(vm_compute; reflexivity) b Hb) as H. cbv beta in H. lia.
Qed.

Lemma popcount_le (w : nat) (x : N) : (popcount w x <= w)%nat.
Proof.
  unfold popcount. rewrite <- (seq_length w 0) at 2. generalize (seq 0 w) as l.
  induction l as [|a l IH]; [cbn; lia|]. cbn [filter length].
  destruct (N.testbit x (N.of_nat a)); cbn [length]; lia.
Qed.

Lemma filter_ext_length (A : Type) (f g : A -> bool) (l : list A) :
  (forall a, In a l -> f a = g a) -> length (filter f l) = length (filter g l).
Proof.
  induction l as [|a l IH]; intros H; [reflexivity|].
  cbn [filter]. rewrite (H a) by (now left).
  destruct (g a); cbn [length]; rewrite IH; auto; intros; apply H; now right.
Qed.

Lemma filter_map_length (A B : Type) (f : B -> bool) (g : A -> B) (l : list A) :
  length (filter f (map g l)) = length (filter (fun a => f (g a)) l).
Proof.
  induction l as [|a l IH]; [reflexivity|].
  cbn [filter map]. destruct (f (g a)); cbn [length]; rewrite IH; reflexivity.
Qed.

Lemma map_add_seq (k s n : nat) :
  map (fun i => (k + i)%nat) (seq s n) = seq (k + s) n.
Proof.
  revert s; induction n as [|n IH]; intros s; [reflexivity|].
  cbn [seq map]. f_equal. rewrite IH. f_equal. lia.
Qed.

Lemma popcount_cat (k n : nat) (h l : N) : l < 2 ^ (N.of_nat k) ->
  popcount (k + n) (h * 2 ^ (N.of_nat k) + l) = (popcount k l + popcount n h)%nat.
Proof.
  intros Hl. unfold popcount. rewrite seq_app, filter_app, app_length. f_equal.
  - apply filter_ext_length. intros a Ha. apply in_seq in Ha.
    rewrite cat_spec by auto. destruct (N.ltb_spec (N.of_nat a) (N.of_nat k)); [auto|lia].
  - replace (seq (0 + k) n) with (map (fun i => (k + i)%nat) (seq 0 n)).
    + rewrite filter_map_length. apply filter_ext_length. intros a _.
      rewrite cat_spec by auto.
      destruct (N.ltb_spec (N.of_nat (k + a)) (N.of_nat k)); [lia|].
      f_equal. lia.
    + rewrite map_add_seq. f_equal. lia.
Qed.

Fixpoint sumN (l : list N) : N := match l with [] => 0 | a :: r => a + sumN r end.

Lemma popcount_bytes (bs : list N) : Forall byte bs ->
  N.of_nat (popcount (8 * length bs) (of_bytes bs))
  = sumN (map (fun b => N.of_nat (popcount 8 b)) bs).
Proof.
  induction 1 as [|b bs Hb Hbs IH]; [reflexivity|].
  cbn [length of_bytes map sumN].
  replace (8 * S (length bs))%nat with (8 + 8 * length bs)%nat by lia.
  change (2 ^ 8) with (2 ^ N.of_nat 8). rewrite popcount_cat by exact Hb.
  rewrite <- IH. lia.
Qed.

(** The bit-parallel part of count_bit on [n] bytes. *)
Lemma swar (n : nat) (x m5 m3 mf : N) :
  let w := 8 * N.of_nat n in
  m5 = mask n 0x55 -> m3 = mask n 0x33 -> mf = mask n 0x0f ->
  x < 2 ^ w ->
  let x1 := wsub w x (N.land (wshr x 1) m5) in
  let x2 := wadd w (N.land (wshr x1 2) m3) (N.land x1 m3) in
  exists ys, length ys = n /\ Forall (fun y => y <= 8) ys /\
    N.land (wshr x2 4 + x2) mf = of_bytes ys /\
    N.of_nat (popcount (8 * n) x) = sumN ys /\
    wshr x2 4 + x2 < 2 ^ w.
Proof.
  intros w H5 H3 Hf Hx x1 x2.
  pose proof (to_bytes_ok n x Hx) as Ex.
  pose proof (to_bytes_bound n x) as Hb.
  pose proof (to_bytes_length n x) as Hlen.
  set (bs := to_bytes n x) in *.
  assert (bound : forall l, Forall byte l -> length l = n -> of_bytes l < 2 ^ w).
  { intros l Hl Hn. unfold w. rewrite <- Hn. clear -Hl.
    induction Hl as [|a l Ha _ IH]; [cbn; lia|].
    cbn [of_bytes length].
    replace (8 * N.of_nat (S (length l))) with (8 * N.of_nat (length l) + 8) by lia.
    apply cat_lt; auto. }
  assert (E1 : x1 = of_bytes (map s1 bs)).
  { unfold x1. rewrite <- stage1 by auto. rewrite Hlen, Ex, <- H5.
    apply wsub_small; [auto|].
    eapply N.le_trans; [apply land_le_l|apply shiftr_le]. }
  assert (E2 : x2 = of_bytes (map (fun b => s2 (s1 b)) bs)).
  { unfold x2. rewrite <- (map_map s1 s2). rewrite <- stage2.
    - rewrite map_length, Hlen, <- E1, <- H3. apply wadd_small.
      unfold wshr. rewrite E1, H3. rewrite <- Hlen at 1 2.
      rewrite <- (map_length s1 bs). rewrite stage2.
      + apply bound.
        * rewrite map_map, Forall_map. eapply Forall_impl; [|exact Hb].
          intros b Hbb. now apply s2_byte.
        * rewrite !map_length; auto.
      + rewrite Forall_map. eapply Forall_impl; [|exact Hb]. intros b Hbb. now apply s1_byte.
    - rewrite Forall_map. eapply Forall_impl; [|exact Hb]. intros b Hbb. now apply s1_byte. }
  exists (map (fun b => s3 (s2 (s1 b))) bs). split; [|split; [|split; [|split]]].
  - now rewrite map_length.
  - rewrite Forall_map. eapply Forall_impl; [|exact Hb]. intros b Hbb. cbv beta.
    rewrite s123_pop by auto. pose proof (popcount_le 8 b). lia.
  - unfold wshr. rewrite E2, <- (map_map (fun b => s2 (s1 b)) s3), <- stage3.
    + rewrite map_length, Hlen, Hf. reflexivity.
    + rewrite Forall_map. eapply Forall_impl; [|exact Hb]. intros b Hbb. now apply s12_nib4.
  - rewrite <- Ex at 1. rewrite <- Hlen at 1. rewrite popcount_bytes by auto.
    f_equal. apply map_ext_in. intros b Hin. symmetry. apply s123_pop.
    rewrite Forall_forall in Hb. auto.
  - rewrite E2. unfold wshr. rewrite N.shiftr_div_pow2.
    clearbody bs. clear -Hb Hlen. unfold w. rewrite <- Hlen.
    assert (G : forall l, Forall nib4 l ->
      of_bytes l / 2 ^ 4 + of_bytes l < 2 ^ (8 * N.of_nat (length l))).
    { induction 1 as [|a l [Ha1 Ha2] Hl IH]; [cbn; lia|].
      assert (Hh : of_bytes l mod 16 <= 4).
      { destruct Hl as [|b' bs' [Hb' _] _]; [cbn; lia|].
        cbn [of_bytes]. change (2 ^ 8) with 256. lia. }
      cbn [of_bytes length].
      replace (8 * N.of_nat (S (length l))) with (8 * N.of_nat (length l) + 8) by lia.
      rewrite N.pow_add_r. change (2 ^ 8) with 256. change (2 ^ 4) with 16 in *.
      generalize dependent (2 ^ (8 * N.of_nat (length l))). intros P IH. lia. }
    specialize (G (map (fun b => s2 (s1 b)) bs)). rewrite map_length in G. apply G.
    rewrite Forall_map. eapply Forall_impl; [|exact Hb]. intros b Hbb. now apply s12_nib4.
Qed.

Lemma count_bit16_ok (x : N) : x < 2 ^ 16 ->
  count_bit16 x = N.of_nat (popcount 16 x).
Proof.
  intros Hx.
  destruct (swar 2 x 0x5555 0x3333 0x0f0f eq_refl eq_refl eq_refl Hx)
    as (ys & Hlen & Hy & E & Ep & Hlt).
  unfold count_bit16. change (8 * N.of_nat 2) with 16 in *. change (8 * 2)%nat with 16%nat in *.
  rewrite E, Ep. clear E Ep Hx Hlt.
  destruct ys as [|y0 [|y1 [|? ?]]]; try discriminate.
  inversion_clear Hy as [|? ? H0 Hy']. inversion_clear Hy' as [|? ? H1 _].
  cbn [of_bytes sumN]. unfold wadd, wshr, trunc.
  change 0x1f with (N.ones 5). rewrite N.land_ones, N.shiftr_div_pow2.
  change (2 ^ 8) with 256; change (2 ^ 5) with 32; change (2 ^ 16) with 65536. lia.
Qed.

Lemma count_bit32_ok (x : N) : x < 2 ^ 32 ->
  count_bit32 x = N.of_nat (popcount 32 x).
Proof.
  intros Hx.
  destruct (swar 4 x 0x55555555 0x33333333 0x0f0f0f0f eq_refl eq_refl eq_refl Hx)
    as (ys & Hlen & Hy & E & Ep & Hlt).
  unfold count_bit32. change (8 * N.of_nat 4) with 32 in *. change (8 * 4)%nat with 32%nat in *.
  cbv zeta. rewrite (wadd_small 32 (wshr _ 4)) by exact Hlt.
  rewrite E, Ep. clear E Ep Hx Hlt.
  destruct ys as [|y0 [|y1 [|y2 [|y3 [|? ?]]]]]; try discriminate.
  inversion_clear Hy as [|? ? H0 Hy']. inversion_clear Hy' as [|? ? H1 Hy].
  inversion_clear Hy as [|? ? H2 Hy']. inversion_clear Hy' as [|? ? H3 Hy].
  cbn [of_bytes sumN]. unfold wadd, wshr, trunc.
  change 0x3f with (N.ones 6). rewrite N.land_ones, !N.shiftr_div_pow2.
  change (2 ^ 8) with 256; change (2 ^ 16) with 65536; change (2 ^ 32) with 4294967296;
  change (2 ^ 6) with 64.
  set (X := (((0 * 256 + y3) * 256 + y2) * 256 + y1) * 256 + y0).
  replace (X / 256) with (y3 * 65536 + y2 * 256 + y1) by (unfold X; lia).
  rewrite (N.mod_small (X + _)) by (unfold X; lia).
  replace ((X + (y3 * 65536 + y2 * 256 + y1)) / 65536) with ((y3 * 256 + y2 + y3))
    by (unfold X; lia).
  rewrite (N.mod_small (X + _ + _) 4294967296) by (unfold X; lia). unfold X. lia.
Qed.

Lemma count_bit64_ok (x : N) : x < 2 ^ 64 ->
  count_bit64 x = N.of_nat (popcount 64 x).
Proof.
  intros Hx.
  destruct (swar 8 x 0x5555555555555555 0x3333333333333333 0x0f0f0f0f0f0f0f0f
              eq_refl eq_refl eq_refl Hx)
    as (ys & Hlen & Hy & E & Ep & Hlt).
  unfold count_bit64. change (8 * N.of_nat 8) with 64 in *. change (8 * 8)%nat with 64%nat in *.
  cbv zeta. rewrite (wadd_small 64 (wshr _ 4)) by exact Hlt.
  rewrite E, Ep. clear E Ep Hx Hlt.
  destruct ys as [|y0 [|y1 [|y2 [|y3 [|y4 [|y5 [|y6 [|y7 [|? ?]]]]]]]]]; try discriminate.
  inversion_clear Hy as [|? ? H0 Hy']. inversion_clear Hy' as [|? ? H1 Hy].
  inversion_clear Hy as [|? ? H2 Hy']. inversion_clear Hy' as [|? ? H3 Hy].
  inversion_clear Hy as [|? ? H4 Hy']. inversion_clear Hy' as [|? ? H5 Hy].
  inversion_clear Hy as [|? ? H6 Hy']. inversion_clear Hy' as [|? ? H7 Hy]. clear Hy Hlen.
  cbn [of_bytes sumN]. unfold wadd, wshr, trunc.
  change 0x7f with (N.ones 7). rewrite N.land_ones, !N.shiftr_div_pow2.
  change (2 ^ 8) with 256; change (2 ^ 16) with 65536; change (2 ^ 32) with 4294967296;
  change (2 ^ 7) with 128; change (2 ^ 64) with 18446744073709551616.
  set (X := (((((((0 * 256 + y7) * 256 + y6) * 256 + y5) * 256 + y4) * 256 + y3) * 256 + y2) * 256 + y1) * 256 + y0).
  set (X8 := y7 * 281474976710656 + y6 * 1099511627776 + y5 * 4294967296 + y4 * 16777216 + y3 * 65536 + y2 * 256 + y1).
  replace (X / 256) with X8
    by (unfold X, X8; apply (N.div_unique _ _ _ y0); lia).
  rewrite (N.mod_small (X + _)) by (unfold X, X8; lia).
  set (X16 := y7 * 1099511627776 + (y7 + y6) * 4294967296 + (y6 + y5) * 16777216
              + (y5 + y4) * 65536 + (y4 + y3) * 256 + (y3 + y2)).
  replace ((X + X8) / 65536) with X16
    by (unfold X, X8, X16; apply (N.div_unique _ _ _ ((y1 + y2) * 256 + (y0 + y1))); lia).
  rewrite (N.mod_small (X + X8 + _)) by (unfold X, X8, X16; lia).
  set (X32 := y7 * 16777216 + (y7 + y6) * 65536 + (y7 + y6 + y5) * 256 + (y7 + y6 + y5 + y4)).
  replace ((X + X8 + X16) / 4294967296) with X32
    by (unfold X, X8, X16, X32; apply (N.div_unique _ _ _ ((y6 + y5 + y4 + y3) * 16777216 + (y5 + y4 + y3 + y2) * 65536
          + (y4 + y3 + y2 + y1) * 256 + (y3 + y2 + y1 + y0))); lia).
  rewrite (N.mod_small (X + X8 + X16 + _)) by (unfold X, X8, X16, X32; lia).
  symmetry.
  apply (N.mod_unique _ _ ((X + X8 + X16 + X32 - (y0 + (y1 + (y2 + (y3 + (y4 + (y5 + (y6 + (y7 + 0))))))))) / 128));
    [lia|unfold X, X8, X16, X32; lia].
Qed.

(** * reverse_bit *)
Definition swap_step (w k y x : N) : N :=
  N.lor (N.land (wshr x k) y) (wshl w (N.land x y) k).

Definition swap_check (w k y : N) : bool :=
  forallb (fun n => let i := N.of_nat n in
    if N.testbit y i
    then ((i <? k) || negb (N.testbit y (i - k))) && (i + k =? N.lxor i k)
    else (k <=? i) && N.testbit y (i - k) && (i - k =? N.lxor i k))
  (seq 0 (N.to_nat w)).

Lemma swap_step_spec (w k y x i : N) : swap_check w k y = true -> i < w ->
  N.testbit (swap_step w k y x) i = N.testbit x (N.lxor i k).
Proof.
  intros Hc Hi. unfold swap_check in Hc. rewrite forallb_forall in Hc.
  specialize (Hc (N.to_nat i)). rewrite N2Nat.id in Hc. cbv zeta in Hc.
  assert (Hin : In (N.to_nat i) (seq 0 (N.to_nat w))) by (apply in_seq; lia).
  specialize (Hc Hin).
  unfold swap_step. rewrite N.lor_spec, N.land_spec, wshr_spec, wshl_spec.
  assert (Hiw : (i <? w) = true) by lia. rewrite Hiw. cbn [andb].
  destruct (N.testbit y i) eqn:Ey.
  - apply andb_prop in Hc. destruct Hc as [Hc1 Hc2].
    apply N.eqb_eq in Hc2. rewrite <- Hc2, andb_true_r.
    destruct (N.leb_spec k i) as [Hk|Hk]; [|now rewrite orb_false_r].
    rewrite N.land_spec.
    destruct (N.testbit y (i - k)); [exfalso; cbn in Hc1; lia|].
    now rewrite andb_false_r, orb_false_r.
  - apply andb_prop in Hc. destruct Hc as [Hc1 Hc2].
    apply andb_prop in Hc1. destruct Hc1 as [Hc0 Hc1].
    apply N.eqb_eq in Hc2. rewrite <- Hc2, andb_false_r, Hc0, N.land_spec, Hc1.
    now rewrite andb_true_r.
Qed.

(** The last step has no mask. *)
Lemma swap_last_spec (w k x i : N) : k + k = w -> x < 2 ^ w -> i < w ->
  N.testbit (N.lor (wshr x k) (wshl w x k)) i
  = if i <? k then N.testbit x (i + k) else N.testbit x (i - k).
Proof.
  intros Hk Hx Hi. rewrite N.lor_spec, wshr_spec, wshl_spec.
  assert (Hiw : (i <? w) = true) by lia. rewrite Hiw. cbn [andb].
  destruct (N.ltb_spec i k) as [H|H].
  - destruct (N.leb_spec k i); [lia|]. apply orb_false_r.
  - destruct (N.leb_spec k i); [|lia].
    rewrite (bits_above w x (i + k)); auto. lia.
Qed.

Lemma swap_step_lt (w k y x : N) : y < 2 ^ w -> swap_step w k y x < 2 ^ w.
Proof. intros Hy. apply lor_lt; [now apply land_lt_r|apply wshl_lt]. Qed.

Definition all_below (w : N) (f : N -> bool) : bool :=
  forallb (fun n => f (N.of_nat n)) (seq 0 (N.to_nat w)).
Lemma all_below_sound (w : N) (f : N -> bool) : all_below w f = true ->
  forall i, i < w -> f i = true.
Proof.
  unfold all_below. rewrite forallb_forall. intros H i Hi.
  specialize (H (N.to_nat i)). rewrite N2Nat.id in H. apply H. apply in_seq. lia.
Qed.

Lemma lxor_lt_check (w k : N) :
  all_below w (fun i => N.lxor i k <? w) = true ->
  forall i, i < w -> N.lxor i k < w.
Proof. intros H i Hi. apply N.ltb_lt. exact (all_below_sound w _ H i Hi). Qed.

Lemma reverse_bit32_lt (x : N) : reverse_bit32 x < 2 ^ 32.
Proof.
  unfold reverse_bit32. apply lor_lt; [|apply wshl_lt].
  apply shiftr_lt. apply (swap_step_lt 32 8 0x00ff00ff). reflexivity.
Qed.

Lemma reverse_bit32_ok (x i : N) : x < 2 ^ 32 -> i < 32 ->
  N.testbit (reverse_bit32 x) i = N.testbit x (31 - i).
Proof.
  intros Hx Hi. unfold reverse_bit32.
  change (N.lor (N.land (wshr x 1) 0x55555555) (wshl 32 (N.land x 0x55555555) 1))
    with (swap_step 32 1 0x55555555 x).
  set (x1 := swap_step 32 1 0x55555555 x). cbv zeta.
  change (N.lor (N.land (wshr x1 2) 0x33333333) (wshl 32 (N.land x1 0x33333333) 2))
    with (swap_step 32 2 0x33333333 x1).
  set (x2 := swap_step 32 2 0x33333333 x1).
  change (N.lor (N.land (wshr x2 4) 0x0f0f0f0f) (wshl 32 (N.land x2 0x0f0f0f0f) 4))
    with (swap_step 32 4 0x0f0f0f0f x2).
  set (x3 := swap_step 32 4 0x0f0f0f0f x2).
  change (N.lor (N.land (wshr x3 8) 0x00ff00ff) (wshl 32 (N.land x3 0x00ff00ff) 8))
    with (swap_step 32 8 0x00ff00ff x3).
  set (x4 := swap_step 32 8 0x00ff00ff x3).
  rewrite swap_last_spec by (auto; apply swap_step_lt; reflexivity).
  set (j := if i <? 16 then i + 16 else i - 16).
  replace (if i <? 16 then N.testbit x4 (i + 16) else N.testbit x4 (i - 16))
    with (N.testbit x4 j) by (unfold j; destruct (i <? 16); reflexivity).
  assert (Hj : j < 32) by (unfold j; destruct (N.ltb_spec i 16); lia).
  unfold x4. rewrite swap_step_spec; [|reflexivity|auto].
  unfold x3. rewrite swap_step_spec; [|reflexivity|].
  2: apply lxor_lt_check; [reflexivity|auto].
  unfold x2. rewrite swap_step_spec; [|reflexivity|].
  2: do 2 (apply lxor_lt_check; [reflexivity|]); auto.
  unfold x1. rewrite swap_step_spec; [|reflexivity|].
  2: do 3 (apply lxor_lt_check; [reflexivity|]); auto.
  f_equal. unfold j.
  apply N.eqb_eq.
  exact (all_below_sound 32 (fun i => N.lxor (N.lxor (N.lxor (N.lxor
    (if i <? 16 then i + 16 else i - 16) 8) 4) 2) 1 =? 31 - i) ltac:(vm_compute; reflexivity) i Hi).
Qed.

Lemma reverse_bit64_lt (x : N) : reverse_bit64 x < 2 ^ 64.
Proof.
  unfold reverse_bit64. apply lor_lt; [|apply wshl_lt].
  apply shiftr_lt. apply (swap_step_lt 64 16 0x0000ffff0000ffff). reflexivity.
Qed.

Lemma reverse_bit64_ok (x i : N) : x < 2 ^ 64 -> i < 64 ->
  N.testbit (reverse_bit64 x) i = N.testbit x (63 - i).
Proof.
  intros Hx Hi. unfold reverse_bit64.
  change (N.lor (N.land (wshr x 1) 0x5555555555555555) (wshl 64 (N.land x 0x5555555555555555) 1))
    with (swap_step 64 1 0x5555555555555555 x).
  set (x1 := swap_step 64 1 0x5555555555555555 x). cbv zeta.
  change (N.lor (N.land (wshr x1 2) 0x3333333333333333) (wshl 64 (N.land x1 0x3333333333333333) 2))
    with (swap_step 64 2 0x3333333333333333 x1).
  set (x2 := swap_step 64 2 0x3333333333333333 x1).
  change (N.lor (N.land (wshr x2 4) 0x0f0f0f0f0f0f0f0f) (wshl 64 (N.land x2 0x0f0f0f0f0f0f0f0f) 4))
    with (swap_step 64 4 0x0f0f0f0f0f0f0f0f x2).
  set (x3 := swap_step 64 4 0x0f0f0f0f0f0f0f0f x2).
  change (N.lor (N.land (wshr x3 8) 0x00ff00ff00ff00ff) (wshl 64 (N.land x3 0x00ff00ff00ff00ff) 8))
    with (swap_step 64 8 0x00ff00ff00ff00ff x3).
  set (x4 := swap_step 64 8 0x00ff00ff00ff00ff x3).
  change (N.lor (N.land (wshr x4 16) 0x0000ffff0000ffff) (wshl 64 (N.land x4 0x0000ffff0000ffff) 16))
    with (swap_step 64 16 0x0000ffff0000ffff x4).
  set (x5 := swap_step 64 16 0x0000ffff0000ffff x4).
  rewrite swap_last_spec by (auto; apply swap_step_lt; reflexivity).
  set (j := if i <? 32 then i + 32 else i - 32).
  replace (if i <? 32 then N.testbit x5 (i + 32) else N.testbit x5 (i - 32))
    with (N.testbit x5 j) by (unfold j; destruct (i <? 32); reflexivity).
  assert (Hj : j < 64) by (unfold j; destruct (N.ltb_spec i 32); lia).
  unfold x5. rewrite swap_step_spec; [|reflexivity|auto].
  unfold x4. rewrite swap_step_spec; [|reflexivity|].
  2: apply lxor_lt_check; [reflexivity|auto].
  unfold x3. rewrite swap_step_spec; [|reflexivity|].
  2: do 2 (apply lxor_lt_check; [reflexivity|]); auto.
  unfold x2. rewrite swap_step_spec; [|reflexivity|].
  2: do 3 (apply lxor_lt_check; [reflexivity|]); auto.
  unfold x1. rewrite swap_step_spec; [|reflexivity|].
  2: do 4 (apply lxor_lt_check; [reflexivity|]); auto.
  f_equal. unfold j.
  apply N.eqb_eq.
  exact (all_below_sound 64 (fun i => N.lxor (N.lxor (N.lxor (N.lxor (N.lxor
    (if i <? 32 then i + 32 else i - 32) 16) 8) 4) 2) 1 =? 63 - i)
    ltac:(vm_compute; reflexivity) i Hi).
Qed.

Lemma reverse_bit32_invol (x : N) : x < 2 ^ 32 -> reverse_bit32 (reverse_bit32 x) = x.
Proof.
  intros Hx. apply (word_ext 32); [apply reverse_bit32_lt|auto|]. intros i Hi.
  rewrite reverse_bit32_ok, reverse_bit32_ok by (auto using reverse_bit32_lt; lia).
  f_equal. lia.
Qed.
Lemma reverse_bit64_invol (x : N) : x < 2 ^ 64 -> reverse_bit64 (reverse_bit64 x) = x.
Proof.
  intros Hx. apply (word_ext 64); [apply reverse_bit64_lt|auto|]. intros i Hi.
  rewrite reverse_bit64_ok, reverse_bit64_ok by (auto using reverse_bit64_lt; lia).
  f_equal. lia.
Qed.

(** * calc_1pos *)
Fixpoint ctz_pos (p : positive) : nat :=
  match p with xO q => S (ctz_pos q) | _ => O end.

(** Every non-zero word is an odd number times the power of its lowest bit. *)
Lemma lowbit_decomp (x : N) : x <> 0 ->
  exists i m, x = (2 * m + 1) * 2 ^ i.
Proof.
  destruct x as [|p]; [congruence|]. intros _.
  induction p as [p IH|p IH|].
  - exists 0, (N.pos p). cbn. lia.
  - destruct IH as (i & m & E). exists (i + 1), m.
    rewrite N.pow_add_r. change (N.pos p~0) with (2 * N.pos p). rewrite E. lia.
  - exists 0, 0. reflexivity.
Qed.

Lemma decomp_bits (i m : N) :
  N.testbit ((2 * m + 1) * 2 ^ i) i = true /\
  (forall j, j < i -> N.testbit ((2 * m + 1) * 2 ^ i) j = false).
Proof.
  split.
  - rewrite N.mul_pow2_bits_high by lia. rewrite N.sub_diag. apply N.testbit_odd_0.
  - intros j Hj. now apply N.mul_pow2_bits_low.
Qed.

(** [y & -y] on integers isolates the lowest one bit. *)
Lemma land_opp_lowbit (i : N) (z : Z) :
  Z.land ((2 * z + 1) * 2 ^ Z.of_N i) (- ((2 * z + 1) * 2 ^ Z.of_N i))
  = (2 ^ Z.of_N i)%Z.
Proof.
  replace (- ((2 * z + 1) * 2 ^ Z.of_N i))%Z
    with ((2 * (- z - 1) + 1) * 2 ^ Z.of_N i)%Z by ring.
  rewrite <- !Z.shiftl_mul_pow2 by lia. rewrite <- Z.shiftl_land.
  replace (Z.land (2 * z + 1) (2 * (- z - 1) + 1)) with 1%Z.
  { rewrite Z.shiftl_mul_pow2 by lia. lia. }
  symmetry. apply Z.bits_inj'. intros n Hn. rewrite Z.land_spec.
  destruct (Z.eq_dec n 0) as [->|Hnz].
  - now rewrite !Z.testbit_odd_0.
  - replace n with (Z.succ (n - 1)) by lia.
    rewrite !Z.testbit_odd_succ by lia.
    replace (- z - 1)%Z with (Z.lnot z) by (unfold Z.lnot; lia).
    rewrite Z.lnot_spec by lia.
    replace (Z.testbit 1 (Z.succ (n - 1))) with false.
    + now destruct (Z.testbit z (n - 1)).
    + change 1%Z with (2 * 0 + 1)%Z. rewrite Z.testbit_odd_succ by lia. now rewrite Z.testbit_0_l.
Qed.

Lemma to_signed_decomp (w i m : N) : 0 < w -> i < w ->
  (2 * m + 1) * 2 ^ i < 2 ^ w ->
  exists z, to_signed w ((2 * m + 1) * 2 ^ i) = ((2 * z + 1) * 2 ^ Z.of_N i)%Z.
Proof.
  intros Hw Hi Hlt. unfold to_signed. destruct (_ <? _).
  - exists (Z.of_N m). rewrite N2Z.inj_mul, N2Z.inj_pow. lia.
  - exists (Z.of_N m - 2 ^ (Z.of_N w - Z.of_N i - 1))%Z.
    rewrite N2Z.inj_mul, N2Z.inj_pow.
    replace (2 ^ Z.of_N w)%Z with (2 * 2 ^ (Z.of_N w - Z.of_N i - 1) * 2 ^ Z.of_N i)%Z.
    + rewrite N2Z.inj_add, N2Z.inj_mul. change (Z.of_N 2) with 2%Z. change (Z.of_N 1) with 1%Z. ring.
    + rewrite <- (Z.pow_1_r 2) at 1. rewrite <- !Z.pow_add_r by lia. f_equal. lia.
Qed.

Lemma decomp_lt (w i m : N) : (2 * m + 1) * 2 ^ i < 2 ^ w -> i < w.
Proof.
  intros H. apply (N.pow_lt_mono_r_iff 2); [lia|].
  pose proof (pow2_pos i). nia.
Qed.

Lemma popcount_ones (w : nat) (i : N) : i <= N.of_nat w ->
  popcount w (2 ^ i - 1) = N.to_nat i.
Proof.
  intros Hi. unfold popcount.
  replace (2 ^ i - 1) with (N.ones i) by (rewrite N.ones_equiv; lia).
  replace w with (N.to_nat i + (w - N.to_nat i))%nat by lia.
  rewrite seq_app, filter_app, app_length.
  rewrite (filter_ext_length _ _ (fun _ => true)).
  2:{ intros a Ha. apply in_seq in Ha. apply N.ones_spec_low. lia. }
  rewrite (filter_ext_length _ (fun i0 => N.testbit (N.ones i) (N.of_nat i0)) (fun _ => false)).
  2:{ intros a Ha. apply in_seq in Ha. apply N.ones_spec_high. lia. }
  assert (Ht : forall l : list nat, length (filter (fun _ => true) l) = length l).
  { induction l as [|a l IH]; cbn; auto. }
  assert (Hf : forall l : list nat, length (filter (fun _ => false) l) = O).
  { induction l as [|a l IH]; cbn; auto. }
  rewrite Ht, Hf, seq_length. lia.
Qed.

Lemma of_int_pow (w i : N) : i < w -> of_int w (2 ^ Z.of_N i) = 2 ^ i.
Proof.
  intros Hi. unfold of_int. rewrite Z.mod_small.
  - rewrite Z2N.inj_pow by lia. rewrite N2Z.id. reflexivity.
  - split; [apply Z.pow_nonneg; lia|]. apply Z.pow_lt_mono_r; lia.
Qed.

Lemma calc_1pos32_wrap_ok (x : N) : x < 2 ^ 32 -> x <> 0 ->
  lowest_one_from_msb 32 x (calc_1pos32_wrap x).
Proof.
  intros Hx Hnz. destruct (lowbit_decomp x Hnz) as (i & m & E).
  assert (Hi : i < 32) by (apply (decomp_lt 32 i m); congruence).
  exists i. split; [exact Hi|]. subst x.
  split; [|apply decomp_bits].
  unfold calc_1pos32_wrap. destruct (N.eqb_spec ((2 * m + 1) * 2 ^ i) 0); [contradiction|].
  destruct (to_signed_decomp 32 i m) as [z Ez]; [lia|auto|auto|].
  assert (En : exists z', to_signed 32 (of_int 32 (- to_signed 32 ((2 * m + 1) * 2 ^ i)))
      = (- ((2 * z + 1) * 2 ^ Z.of_N i) + z' * 2 ^ 32)%Z).
  { rewrite Ez. set (t := (- ((2 * z + 1) * 2 ^ Z.of_N i))%Z).
    unfold to_signed, of_int.
    assert (Ht : Z.of_N (Z.to_N (t mod 2 ^ Z.of_N 32)) = (t - (t / 2 ^ 32) * 2 ^ 32)%Z).
    { change (Z.of_N 32) with 32%Z.
      rewrite Z2N.id by (apply Z.mod_pos_bound; reflexivity).
      rewrite Z.mod_eq by discriminate. ring. }
    rewrite Ht. destruct (_ <? _).
    - exists (- (t / 2 ^ 32))%Z. ring.
    - exists (- (t / 2 ^ 32) - 1)%Z. change (Z.of_N 32) with 32%Z. ring. }
  destruct En as [z' En]. rewrite En, Ez.
  (* modulo 2^32 the extra multiple does not matter *)
  assert (EL : of_int 32 (Z.land ((2 * z + 1) * 2 ^ Z.of_N i)
                 (- ((2 * z + 1) * 2 ^ Z.of_N i) + z' * 2 ^ 32)) = 2 ^ i).
  { rewrite <- (of_int_pow 32 i Hi). unfold of_int. f_equal.
    change (Z.of_N 32) with 32%Z.
    rewrite <- !Z.land_ones by lia. rewrite <- Z.land_assoc.
    rewrite <- (land_opp_lowbit i z) at 3. rewrite <- Z.land_assoc. f_equal.
    rewrite !Z.land_ones by lia. apply Z.mod_add. discriminate. }
  rewrite EL.
  rewrite wsub_small.
  2: apply N.pow_lt_mono_r; lia.
  2: { pose proof (pow2_pos i). lia. }
  rewrite count_bit32_ok.
  2:{ eapply N.le_lt_trans; [apply N.le_sub_l|]. apply N.pow_lt_mono_r; lia. }
  rewrite popcount_ones by lia. lia.
Qed.

Lemma calc_1pos64_wrap_ok (x : N) : x < 2 ^ 64 -> x <> 0 ->
  lowest_one_from_msb 64 x (calc_1pos64_wrap x).
Proof.
  intros Hx Hnz. destruct (lowbit_decomp x Hnz) as (i & m & E).
  assert (Hi : i < 64) by (apply (decomp_lt 64 i m); congruence).
  exists i. split; [exact Hi|]. subst x.
  split; [|apply decomp_bits].
  unfold calc_1pos64_wrap. destruct (N.eqb_spec ((2 * m + 1) * 2 ^ i) 0); [contradiction|].
  destruct (to_signed_decomp 64 i m) as [z Ez]; [lia|auto|auto|].
  assert (En : exists z', to_signed 64 (of_int 64 (- to_signed 64 ((2 * m + 1) * 2 ^ i)))
      = (- ((2 * z + 1) * 2 ^ Z.of_N i) + z' * 2 ^ 64)%Z).
  { rewrite Ez. set (t := (- ((2 * z + 1) * 2 ^ Z.of_N i))%Z).
    unfold to_signed, of_int.
    assert (Ht : Z.of_N (Z.to_N (t mod 2 ^ Z.of_N 64)) = (t - (t / 2 ^ 64) * 2 ^ 64)%Z).
    { change (Z.of_N 64) with 64%Z.
      rewrite Z2N.id by (apply Z.mod_pos_bound; reflexivity).
      rewrite Z.mod_eq by discriminate. ring. }
    rewrite Ht. destruct (_ <? _).
    - exists (- (t / 2 ^ 64))%Z. ring.
    - exists (- (t / 2 ^ 64) - 1)%Z. change (Z.of_N 64) with 64%Z. ring. }
  destruct En as [z' En]. rewrite En, Ez.
  assert (EL : of_int 64 (Z.land ((2 * z + 1) * 2 ^ Z.of_N i)
                 (- ((2 * z + 1) * 2 ^ Z.of_N i) + z' * 2 ^ 64)) = 2 ^ i).
  { rewrite <- (of_int_pow 64 i Hi). unfold of_int. f_equal.
    change (Z.of_N 64) with 64%Z.
    rewrite <- !Z.land_ones by lia. rewrite <- Z.land_assoc.
    rewrite <- (land_opp_lowbit i z) at 3. rewrite <- Z.land_assoc. f_equal.
    rewrite !Z.land_ones by lia. apply Z.mod_add. discriminate. }
  rewrite EL.
  rewrite wsub_small.
  2: apply N.pow_lt_mono_r; lia.
  2: { pose proof (pow2_pos i). lia. }
  rewrite count_bit64_ok.
  2:{ eapply N.le_lt_trans; [apply N.le_sub_l|]. apply N.pow_lt_mono_r; lia. }
  rewrite popcount_ones by lia. lia.
Qed.

Lemma to_signed_min (w x : N) : 0 < w -> x < 2 ^ w ->
  to_signed w x = (- 2 ^ (Z.of_N w - 1))%Z -> x = 2 ^ (w - 1).
Proof.
  intros Hw Hx. unfold to_signed.
  assert (E : 2 ^ w = 2 * 2 ^ (w - 1)).
  { rewrite <- (N.pow_1_r 2) at 2. rewrite <- N.pow_add_r. f_equal. lia. }
  assert (E2 : (2 ^ Z.of_N w = 2 * 2 ^ (Z.of_N w - 1))%Z).
  { rewrite <- (Z.pow_1_r 2) at 2. rewrite <- Z.pow_add_r by lia. f_equal. lia. }
  assert (E3 : Z.of_N (2 ^ (w - 1)) = (2 ^ (Z.of_N w - 1))%Z).
  { rewrite N2Z.inj_pow. f_equal. lia. }
  destruct (N.ltb_spec x (2 ^ (w - 1))); lia.
Qed.

Lemma to_signed_range (w x : N) : 0 < w -> x < 2 ^ w ->
  (- 2 ^ (Z.of_N w - 1) <= to_signed w x < 2 ^ (Z.of_N w - 1))%Z.
Proof.
  intros Hw Hx. unfold to_signed.
  assert (E : 2 ^ w = 2 * 2 ^ (w - 1)).
  { rewrite <- (N.pow_1_r 2) at 2. rewrite <- N.pow_add_r. f_equal. lia. }
  assert (E2 : (2 ^ Z.of_N w = 2 * 2 ^ (Z.of_N w - 1))%Z).
  { rewrite <- (Z.pow_1_r 2) at 2. rewrite <- Z.pow_add_r by lia. f_equal. lia. }
  assert (E3 : Z.of_N (2 ^ (w - 1)) = (2 ^ (Z.of_N w - 1))%Z).
  { rewrite N2Z.inj_pow. f_equal. lia. }
  destruct (N.ltb_spec x (2 ^ (w - 1))); lia.
Qed.

Lemma signed_of_int (w : N) (z : Z) : 0 < w ->
  (- 2 ^ (Z.of_N w - 1) <= z < 2 ^ (Z.of_N w - 1))%Z -> to_signed w (of_int w z) = z.
Proof.
  intros Hw Hz. unfold to_signed, of_int.
  assert (E2 : (2 ^ Z.of_N w = 2 * 2 ^ (Z.of_N w - 1))%Z).
  { rewrite <- (Z.pow_1_r 2) at 2. rewrite <- Z.pow_add_r by lia. f_equal. lia. }
  assert (E3 : Z.of_N (2 ^ (w - 1)) = (2 ^ (Z.of_N w - 1))%Z).
  { rewrite N2Z.inj_pow. f_equal. lia. }
  assert (P : (0 < 2 ^ (Z.of_N w - 1))%Z) by (apply Z.pow_pos_nonneg; lia).
  destruct (Z.neg_nonneg_cases z) as [Hn|Hn].
  - assert (Em : (z mod 2 ^ Z.of_N w = z + 2 ^ Z.of_N w)%Z).
    { symmetry. apply (Z.mod_unique _ _ (-1)); lia. }
    rewrite Em. destruct (N.ltb_spec (Z.to_N (z + 2 ^ Z.of_N w)) (2 ^ (w - 1))); lia.
  - rewrite Z.mod_small by lia.
    destruct (N.ltb_spec (Z.to_N z) (2 ^ (w - 1))); lia.
Qed.

Lemma calc_1pos32_strict (x : N) : x < 2 ^ 32 -> x <> 2 ^ 31 ->
  calc_1pos32 x = Ret (calc_1pos32_wrap x).
Proof.
  intros Hx Hne. unfold calc_1pos32, calc_1pos32_wrap.
  destruct (N.eqb_spec x 0); [reflexivity|]. unfold sneg.
  destruct (Z.eqb_spec (to_signed 32 x) (- 2 ^ (Z.of_N 32 - 1))) as [E|E].
  - exfalso. apply Hne. apply (to_signed_min 32); auto; lia.
  - cbn [bind]. rewrite signed_of_int; [reflexivity|lia|].
    pose proof (to_signed_range 32 x ltac:(lia) Hx). lia.
Qed.
Lemma calc_1pos64_strict (x : N) : x < 2 ^ 64 -> x <> 2 ^ 63 ->
  calc_1pos64 x = Ret (calc_1pos64_wrap x).
Proof.
  intros Hx Hne. unfold calc_1pos64, calc_1pos64_wrap.
  destruct (N.eqb_spec x 0); [reflexivity|]. unfold sneg.
  destruct (Z.eqb_spec (to_signed 64 x) (- 2 ^ (Z.of_N 64 - 1))) as [E|E].
  - exfalso. apply Hne. apply (to_signed_min 64); auto; lia.
  - cbn [bind]. rewrite signed_of_int; [reflexivity|lia|].
    pose proof (to_signed_range 64 x ltac:(lia) Hx). lia.
Qed.

Lemma calc_1pos32_partial (x : N) : x < 2 ^ 32 -> x <> 0 -> x <> 2 ^ 31 ->
  exists p, calc_1pos32 x = Ret p /\ lowest_one_from_msb 32 x p.
Proof.
  intros Hx Hnz Hne. exists (calc_1pos32_wrap x).
  split; [now apply calc_1pos32_strict|now apply calc_1pos32_wrap_ok].
Qed.
Lemma calc_1pos64_partial (x : N) : x < 2 ^ 64 -> x <> 0 -> x <> 2 ^ 63 ->
  exists p, calc_1pos64 x = Ret p /\ lowest_one_from_msb 64 x p.
Proof.
  intros Hx Hnz Hne. exists (calc_1pos64_wrap x).
  split; [now apply calc_1pos64_strict|now apply calc_1pos64_wrap_ok].
Qed.

Lemma calc_1pos16_ok (x : N) : x < 2 ^ 16 -> x <> 0 ->
  exists p, calc_1pos16 x = Ret p /\ lowest_one_from_msb 16 x p.
Proof.
  intros Hx Hnz. destruct (lowbit_decomp x Hnz) as (i & m & E).
  assert (Hi : i < 16) by (apply (decomp_lt 16 i m); congruence).
  exists (Z.of_N 16 - 1 - Z.of_N i)%Z. split.
  2:{ exists i. split; [exact Hi|]. subst x. split; [reflexivity|apply decomp_bits]. }
  unfold calc_1pos16. destruct (N.eqb_spec x 0); [contradiction|].
  unfold sneg. pose proof (to_signed_range 16 x ltac:(lia) Hx) as Hr.
  destruct (Z.eqb_spec (to_signed 16 x) (- 2 ^ (Z.of_N 32 - 1))) as [E'|_];
    [exfalso; lia|]. cbn [bind].
  subst x. destruct (to_signed_decomp 16 i m) as [z Ez]; [lia|auto|auto|].
  rewrite Ez, land_opp_lowbit.
  assert (EL : of_int 16 (2 ^ Z.of_N i - 1) = 2 ^ i - 1).
  { unfold of_int. rewrite Z.mod_small.
    - rewrite Z2N.inj_sub by lia. rewrite Z2N.inj_pow by lia. now rewrite N2Z.id.
    - assert (0 < 2 ^ Z.of_N i)%Z by (apply Z.pow_pos_nonneg; lia).
      assert (2 ^ Z.of_N i < 2 ^ Z.of_N 16)%Z by (apply Z.pow_lt_mono_r; lia). lia. }
  rewrite EL, count_bit16_ok.
  2:{ eapply N.le_lt_trans; [apply N.le_sub_l|]. apply N.pow_lt_mono_r; lia. }
  rewrite popcount_ones by lia. f_equal. lia.
Qed.

(** The specification determines the result. *)
Lemma lowest_one_unique (w x : N) (p q : Z) :
  lowest_one_from_msb w x p -> lowest_one_from_msb w x q -> p = q.
Proof.
  intros (i & Hi & -> & Bi & Li) (j & Hj & -> & Bj & Lj).
  destruct (N.lt_trichotomy i j) as [H|[H|H]].
  - rewrite (Lj i H) in Bi. discriminate.
  - now subst.
  - rewrite (Li j H) in Bj. discriminate.
Qed.

(** * floor2p *)
Lemma floor2p_ok_gen (fuel : nat) (n : N) : 1 <= n -> n < 2 ^ N.of_nat fuel ->
  exists k, floor2p fuel n = Ret (2 ^ k) /\ 2 ^ k <= n /\ n < 2 * 2 ^ k.
Proof.
  revert n; induction fuel as [|f IH]; intros n H1 H2.
  - cbn in H2. lia.
  - cbn [floor2p]. destruct (N.eqb_spec n 1) as [->|Hn].
    + exists 0. split; [reflexivity|]. change (2 ^ 0) with 1. lia.
    + destruct (IH (n / 2)) as (k & E & L1 & L2).
      * apply N.div_le_lower_bound; lia.
      * apply N.div_lt_upper_bound; [lia|].
        replace (N.of_nat (S f)) with (1 + N.of_nat f) in H2 by lia.
        rewrite N.pow_add_r in H2. lia.
      * exists (k + 1). rewrite E. cbn [bind].
        rewrite N.pow_add_r. change (2 ^ 1) with 2.
        split; [f_equal; lia|]. lia.
Qed.

Lemma floor2p_ok (n : N) : 1 <= n -> exists fuel k, forall fuel', (fuel <= fuel')%nat ->
  floor2p fuel' n = Ret (2 ^ k) /\ 2 ^ k <= n /\ n < 2 * 2 ^ k.
Proof.
  intros Hn.
  exists (S (N.size_nat n)).
  assert (Hlt : forall f, (S (N.size_nat n) <= f)%nat -> n < 2 ^ N.of_nat f).
  { intros f Hf. pose proof (N.size_gt n) as H.
    apply N.lt_le_trans with (2 ^ N.size n); [exact H|].
    apply N.pow_le_mono_r; [lia|].
    replace (N.size n) with (N.of_nat (N.size_nat n)).
    - lia.
    - clear. destruct n as [|p]; [reflexivity|]. cbn.
      induction p as [p IH|p IH|]; cbn; lia. }
  destruct (floor2p_ok_gen (S (N.size_nat n)) n Hn (Hlt _ (le_n _))) as (k & E & L1 & L2).
  exists k. intros f Hf.
  destruct (floor2p_ok_gen f n Hn (Hlt _ Hf)) as (k' & E' & L1' & L2').
  assert (k = k').
  { destruct (N.lt_trichotomy k k') as [H|[H|H]]; [exfalso|assumption|exfalso].
    - assert (2 * 2 ^ k <= 2 ^ k').
      { replace (2 * 2 ^ k) with (2 ^ (1 + k)) by (rewrite N.pow_add_r; reflexivity).
        apply N.pow_le_mono_r; lia. }
      lia.
    - assert (2 * 2 ^ k' <= 2 ^ k).
      { replace (2 * 2 ^ k') with (2 ^ (1 + k')) by (rewrite N.pow_add_r; reflexivity).
        apply N.pow_le_mono_r; lia. }
      lia. }
  subst k'. auto.
Qed.

Lemma floor2p_zero_diverges (fuel : nat) : floor2p fuel 0 = NoFuel.
Proof. induction fuel as [|f IH]; [reflexivity|]. cbn. rewrite IH. reflexivity. Qed.

(** * get_range *)
Lemma get_range_val (input : N) (start end_ : Z) :
  int_ok start = true -> int_ok end_ = true -> (start <= end_)%Z ->
  (end_ - start + 1 < 2 ^ 31)%Z ->
  get_range input start end_
  = Ret (start + Z.of_N input mod (end_ - start + 1))%Z.
Proof.
  intros Hs He Hle Hfit. unfold get_range. cbv zeta.
  destruct (Z.ltb_spec end_ start); [lia|].
  unfold int_ok in *. change (2 ^ 31)%Z with 2147483648%Z in *.
  match goal with |- (if ?b then _ else _) = _ => replace b with false by lia end.
  match goal with |- (if ?b then _ else _) = _ => replace b with false by lia end.
  set (d := (end_ - start)%Z) in *.
  assert (Em : of_int 32 (d + 1) = Z.to_N (d + 1)).
  { unfold of_int. change (2 ^ Z.of_N 32)%Z with 4294967296%Z. rewrite Z.mod_small; [reflexivity|lia]. }
  rewrite Em. destruct (N.eqb_spec (Z.to_N (d + 1)) 0); [lia|].
  assert (Hm : input mod Z.to_N (d + 1) < Z.to_N (d + 1)) by (apply N.mod_upper_bound; lia).
  rewrite trunc_small by (change (2 ^ 32) with 4294967296; lia).
  assert (Et : to_signed 32 (input mod Z.to_N (d + 1)) = (Z.of_N input mod (d + 1))%Z).
  { unfold to_signed. change (2 ^ (32 - 1)) with 2147483648.
    destruct (N.ltb_spec (input mod Z.to_N (d + 1)) 2147483648); [|lia].
    rewrite N2Z.inj_mod, Z2N.id by lia. reflexivity. }
  rewrite Et.
  assert (Hb : (0 <= Z.of_N input mod (d + 1) < d + 1)%Z) by (apply Z.mod_pos_bound; lia).
  generalize dependent (Z.of_N input mod (d + 1))%Z. intros q _ Hb.
  clear Em Hm n. subst d.
  match goal with |- (if ?b then _ else _) = _ => replace b with true by lia end.
  now rewrite (Z.add_comm q start).
Qed.

Lemma get_range_in (input : N) (start end_ : Z) :
  int_ok start = true -> int_ok end_ = true -> (start <= end_)%Z ->
  (end_ - start + 1 < 2 ^ 31)%Z ->
  exists r, get_range input start end_ = Ret r /\ (start <= r <= end_)%Z.
Proof.
  intros Hs He Hle Hfit. rewrite get_range_val by auto.
  eexists; split; [reflexivity|].
  pose proof (Z.mod_pos_bound (Z.of_N input) (end_ - start + 1) ltac:(lia)). lia.
Qed.

Lemma get_range_onto (start end_ r : Z) :
  int_ok start = true -> int_ok end_ = true -> (start <= r <= end_)%Z ->
  (end_ - start + 1 < 2 ^ 31)%Z ->
  exists input, input < 2 ^ 31 /\ get_range input start end_ = Ret r.
Proof.
  intros Hs He Hle Hfit. exists (Z.to_N (r - start)). split; [lia|].
  rewrite get_range_val by (auto; lia). f_equal.
  rewrite Z2N.id by lia. rewrite Z.mod_small by lia. lia.
Qed.

Lemma get_range_cyclic (input : N) (start end_ r : Z) :
  int_ok start = true -> int_ok end_ = true -> (start <= end_)%Z ->
  (end_ - start + 1 < 2 ^ 31)%Z ->
  get_range input start end_ = Ret r ->
  get_range (input + 1) start end_ = Ret (if (r =? end_)%Z then start else r + 1)%Z.
Proof.
  intros Hs He Hle Hfit H. rewrite get_range_val in * by auto.
  injection H as <-. f_equal. rewrite N2Z.inj_add. change (Z.of_N 1) with 1%Z.
  set (n := Z.of_N input). set (m := (end_ - start + 1)%Z) in *.
  pose proof (Z.mod_pos_bound n m ltac:(lia)).
  rewrite <- Z.add_mod_idemp_l by lia.
  destruct (Z.eqb_spec (start + n mod m) end_) as [E|E].
  - replace (n mod m + 1)%Z with m by lia. rewrite Z.mod_same by lia. lia.
  - rewrite (Z.mod_small (n mod m + 1)) by lia. lia.
Qed.

Lemma get_range_exit (input : N) (start end_ : Z) : (end_ < start)%Z ->
  get_range input start end_ = Exit.
Proof. intros H. unfold get_range. destruct (Z.ltb_spec end_ start); [auto|lia]. Qed.

Lemma get_range_overflow (input : N) (start end_ : Z) :
  int_ok start = true -> int_ok end_ = true -> (start <= end_)%Z ->
  (2 ^ 31 <= end_ - start + 1)%Z -> get_range input start end_ = Undef.
Proof.
  intros Hs He Hle Hbig. unfold get_range, int_ok in *. cbv zeta.
  change (2 ^ 31)%Z with 2147483648%Z in *.
  destruct (Z.ltb_spec end_ start); [lia|].
  match goal with |- (if ?b then _ else _) = _ => destruct b eqn:B; [reflexivity|] end.
  match goal with |- (if ?b then _ else _) = _ => replace b with true by lia end.
  reflexivity.
Qed.
