(** Word-level facts about the xorshift generators. *)
From Coq Require Import Arith NArith ZArith List Bool Lia.
From Verif Require Import Base WordLemmas GenModel XorshiftModel XorshiftSpec MTSpec MTProofs2.
Import ListNotations.
Local Open Scope N_scope.

(** GF(2)-linear maps on 32-bit words. *)
Definition wlin (f : N -> N) : Prop :=
  (forall a b, f (N.lxor a b) = N.lxor (f a) (f b)) /\ (forall a, a < 2 ^ 32 -> f a < 2 ^ 32).
Lemma wlin0 f : wlin f -> f 0 = 0.
Proof. intros [H _]. specialize (H 0 0). rewrite N.lxor_0_l in H. now rewrite N.lxor_nilpotent in H. Qed.
Lemma lxor_swap a b c d : N.lxor (N.lxor a b) (N.lxor c d) = N.lxor (N.lxor a c) (N.lxor b d).
Proof.
  apply N.bits_inj. intros i. rewrite !N.lxor_spec.
  destruct (N.testbit a i), (N.testbit b i), (N.testbit c i), (N.testbit d i); reflexivity.
Qed.
Lemma wshl_lin w k a b : wshl w (N.lxor a b) k = N.lxor (wshl w a k) (wshl w b k).
Proof.
  apply N.bits_inj. intros i. rewrite N.lxor_spec, !wshl_spec.
  destruct (_ && _); [apply N.lxor_spec|reflexivity].
Qed.
Lemma wshr_lin k a b : wshr (N.lxor a b) k = N.lxor (wshr a k) (wshr b k).
Proof. apply N.shiftr_lxor. Qed.
Lemma wlin_shl k : wlin (fun t => N.lxor t (wshl 32 t k)).
Proof.
  split; [|intros a Ha; apply lxor_lt; [exact Ha|apply wshl_lt]].
  intros a b. rewrite wshl_lin. apply lxor_swap.
Qed.
Lemma wlin_shr k : wlin (fun t => N.lxor t (wshr t k)).
Proof.
  split; [|intros a Ha; apply lxor_lt; [exact Ha|now apply shiftr_lt]].
  intros a b. rewrite wshr_lin. apply lxor_swap.
Qed.
Lemma wlin_comp f g : wlin f -> wlin g -> wlin (fun t => g (f t)).
Proof. intros [F1 F2] [G1 G2]. split; [intros a b; now rewrite F1, G1|auto]. Qed.

(** t ^ (t << k) and t ^ (t >> k) are bijections for k > 0 and zero for k = 0. *)
Lemma bij_xshl k : 0 < k -> bij 32 (fun t => N.lxor t (wshl 32 t k)).
Proof.
  intros Hk. apply (bij_ext 32 (uni (shl_mask 32 k (N.ones 32)))); [|apply (bij_shl 32 k _ 32); lia].
  intros y Hy. unfold uni. f_equal. apply N.bits_inj. intros i.
  rewrite shl_mask_spec, wshl_spec. destruct (N.ltb_spec i 32) as [Hi|Hi]; [|reflexivity].
  rewrite N.ones_spec_low by lia. rewrite andb_true_r. cbn [andb]. now destruct (k <=? i).
Qed.
Lemma bij_xshr k : 0 < k -> bij 32 (fun t => N.lxor t (wshr t k)).
Proof.
  intros Hk. apply (bij_ext 32 (uni (shr_mask k (N.ones 32)))); [|apply (bij_shr 32 k _ 32); lia].
  intros y Hy. unfold uni. rewrite shr_plain by exact Hy. unfold wshr. now rewrite N.shiftr_div_pow2.
Qed.
Lemma xshl0 t : t < 2 ^ 32 -> N.lxor t (wshl 32 t 0) = 0.
Proof. intros H. unfold wshl. rewrite N.shiftl_0_r, trunc_small by exact H. apply N.lxor_nilpotent. Qed.
Lemma xshr0 t : N.lxor t (wshr t 0) = 0.
Proof. unfold wshr. rewrite N.shiftr_0_r. apply N.lxor_nilpotent. Qed.

(** The common shape. *)
Definition xs_shape (g h : N -> N) (s : xs) : N * xs :=
  let w' := N.lxor (g (xs_w s)) (h (xs_x s)) in
  (w', XS (xs_y s) (xs_z s) (xs_w s) w').
Definition g3 (c t : N) : N := N.lxor t (wshr t c).
Definition h3 (a b x : N) : N := let t := N.lxor x (wshl 32 x a) in N.lxor t (wshr t b).
Lemma xs3_shape a b c s : xs3_generate a b c s = xs_shape (g3 c) (h3 a b) s.
Proof. reflexivity. Qed.
Lemma xs4_shape pat a b c s : xs4_generate pat a b c s = xs_shape (xs4_g pat a b) (xs4_h pat b c) s.
Proof. reflexivity. Qed.
Definition g5 (a t : N) : N := N.lxor t (wshl 32 t a).
Lemma xs5_shape a b c s : xs5_generate a b c s = xs_shape (g5 a) (h3 b c) s.
Proof. reflexivity. Qed.

Lemma g3_lin c : wlin (g3 c). Proof. exact (wlin_shr c). Qed.
Lemma g5_lin a : wlin (g5 a). Proof. exact (wlin_shl a). Qed.
Lemma h3_lin a b : wlin (h3 a b).
Proof. exact (wlin_comp _ _ (wlin_shl a) (wlin_shr b)). Qed.
Ltac pats pat := destruct pat as [|[[[|[|p|]|]|[[|p|]|[|p|]|]|]|[[|[|p|]|]|[[|p|]|[|p|]|]|]|]].
Lemma xs4_g_lin pat a b : wlin (xs4_g pat a b).
Proof.
  pose proof (wlin_comp _ _ (wlin_shr a) (wlin_shl b)) as H1.
  pose proof (wlin_comp _ _ (wlin_shl a) (wlin_shr b)) as H2.
  pose proof (wlin_shr a) as H3. pose proof (wlin_shl a) as H4.
  unfold xs4_g. pats pat; first [exact H1|exact H2|exact H3|exact H4].
Qed.
Lemma xs4_h_lin pat b c : wlin (xs4_h pat b c).
Proof.
  pose proof (wlin_comp _ _ (wlin_shr b) (wlin_shl c)) as H1.
  pose proof (wlin_comp _ _ (wlin_shl b) (wlin_shr c)) as H2.
  pose proof (wlin_shr c) as H3. pose proof (wlin_shl c) as H4.
  unfold xs4_h. pats pat; first [exact H1|exact H2|exact H3|exact H4].
Qed.

Lemma h3_bij a b : bij 32 (h3 a b) <-> (a <> 0 /\ b <> 0).
Proof.
  split.
  - intros (_ & I & _). split; intros ->.
    + assert (E : h3 0 b 1 = h3 0 b 0).
      { unfold h3. cbv zeta. rewrite xshl0 by lia. reflexivity. }
      apply I in E; [discriminate|lia|lia].
    + assert (E : h3 a 0 1 = h3 a 0 0) by (unfold h3; cbv zeta; now rewrite !xshr0).
      apply I in E; [discriminate|lia|lia].
  - intros [Ha Hb]. apply (bij_comp 32 (fun t => N.lxor t (wshl 32 t a)) (fun t => N.lxor t (wshr t b))); [apply bij_xshl; lia|apply bij_xshr; lia].
Qed.
Lemma xs4_h_bij pat b c : bij 32 (xs4_h pat b c) <-> xs4_needs pat b c.
Proof.
  assert (S1 : bij 32 (fun t => N.lxor t (wshl 32 t c)) <-> c <> 0).
  { split; [|intros; apply bij_xshl; lia]. intros (_ & I & _) ->.
    assert (E : N.lxor 1 (wshl 32 1 0) = N.lxor 0 (wshl 32 0 0)) by reflexivity.
    apply I in E; [discriminate|lia|lia]. }
  assert (S2 : bij 32 (fun t => N.lxor t (wshr t c)) <-> c <> 0).
  { split; [|intros; apply bij_xshr; lia]. intros (_ & I & _) ->.
    assert (E : N.lxor 1 (wshr 1 0) = N.lxor 0 (wshr 0 0)) by reflexivity.
    apply I in E; [discriminate|lia|lia]. }
  assert (S3 : bij 32 (h3 b c) <-> c <> 0 /\ b <> 0) by (rewrite h3_bij; tauto).
  assert (S4 : bij 32 (fun t => let t := N.lxor t (wshr t b) in N.lxor t (wshl 32 t c)) <-> c <> 0 /\ b <> 0).
  { split.
    - intros (_ & I & _). split; intros ->.
      + assert (E : (let t := N.lxor 1 (wshr 1 b) in N.lxor t (wshl 32 t 0)) =
                    (let t := N.lxor 0 (wshr 0 b) in N.lxor t (wshl 32 t 0))).
        { cbv zeta. rewrite !xshl0; [reflexivity| |];
            apply lxor_lt; try lia; apply shiftr_lt; lia. }
        apply I in E; [discriminate|lia|lia].
      + assert (E : (let t := N.lxor 1 (wshr 1 0) in N.lxor t (wshl 32 t c)) =
                    (let t := N.lxor 0 (wshr 0 0) in N.lxor t (wshl 32 t c))) by (cbv zeta; now rewrite !xshr0).
        apply I in E; [discriminate|lia|lia].
    - intros [Hc Hb]. apply (bij_comp 32 (fun t => N.lxor t (wshr t b)) (fun t => N.lxor t (wshl 32 t c))); [apply bij_xshr; lia|apply bij_xshl; lia]. }
  unfold xs4_needs, h3 in *. unfold xs4_h.
  pats pat; first [rewrite S1|rewrite S2|rewrite S3|rewrite S4]; split; intros; try split; try tauto; try lia;
    try (destruct H as [H0 H]; apply H; lia).
Qed.

(** The transition is a bijection of the states iff h is one of the words. *)
Lemma shape_ok g h s : wlin g -> wlin h -> xs_okw s -> xs_okw (snd (xs_shape g h s)).
Proof.
  intros [_ Hg] [_ Hh] (H1 & H2 & H3 & H4). unfold xs_okw, xs_shape. cbn [snd xs_x xs_y xs_z xs_w]. repeat split; auto.
  apply lxor_lt; auto.
Qed.
Lemma shape_bij g h : wlin g -> wlin h ->
  bijective_on xs_okw (fun s => snd (xs_shape g h s)) <-> bij 32 h.
Proof.
  intros Lg Lh. split.
  - intros (B1 & B2 & B3). split; [apply Lh|]. split.
    + intros a b Ha Hb E.
      assert (F : XS a 0 0 0 = XS b 0 0 0).
      { apply B2; try (repeat split; cbn [xs_x xs_y xs_z xs_w]; auto; lia). unfold xs_shape. cbn. now rewrite E. }
      now injection F.
    + intros y Hy. destruct (B3 (XS 0 0 0 y)) as (t & Ht & E); [repeat split; cbn [xs_x xs_y xs_z xs_w]; auto; lia|].
      destruct t as [x1 y1 z1 w1]. cbn in E. injection E as -> -> -> E.
      rewrite (wlin0 _ Lg), N.lxor_0_l in E. exists x1. split; [apply Ht|exact E].
  - intros (H1 & H2 & H3). split; [intros; now apply shape_ok|]. split.
    + intros [x1 y1 z1 w1] [x2 y2 z2 w2] (A1 & A2 & A3 & A4) (B1 & B2 & B3 & B4). cbn [snd xs_shape xs_x xs_y xs_z xs_w] in *.
      intros E. injection E as -> -> -> E. f_equal. apply H2; auto.
      apply (f_equal (N.lxor (g w2))) in E. rewrite <- !N.lxor_assoc, N.lxor_nilpotent, !N.lxor_0_l in E. exact E.
    + intros [x1 y1 z1 w1] (A1 & A2 & A3 & A4). cbn [snd xs_shape xs_x xs_y xs_z xs_w] in *.
      destruct (H3 (N.lxor (g z1) w1)) as (x & Hx & E); [apply lxor_lt; [now apply Lg|exact A4]|].
      exists (XS x x1 y1 z1). split; [repeat split; auto|]. unfold xs_shape. cbn.
      rewrite E, <- N.lxor_assoc, N.lxor_nilpotent, N.lxor_0_l. reflexivity.
Qed.

Lemma bijective_ext {A} (P : A -> Prop) f g : (forall s, f s = g s) -> bijective_on P f <-> bijective_on P g.
Proof.
  intros E. unfold bijective_on. split; intros (H1 & H2 & H3); (split; [|split]).
  - intros. rewrite <- E. auto.
  - intros s t. rewrite <- !E. auto.
  - intros s Hs. destruct (H3 s Hs) as (t & Ht & Et). exists t. now rewrite <- E.
  - intros. rewrite E. auto.
  - intros s t. rewrite !E. auto.
  - intros s Hs. destruct (H3 s Hs) as (t & Ht & Et). exists t. now rewrite E.
Qed.
Lemma xs3_bij a b c : bijective_on xs_okw (fun s => snd (xs3_generate a b c s)) <-> (a <> 0 /\ b <> 0).
Proof.
  rewrite (bijective_ext xs_okw _ (fun s => snd (xs_shape (g3 c) (h3 a b) s))) by (intros; now rewrite xs3_shape).
  rewrite (shape_bij _ _ (g3_lin c) (h3_lin a b)). apply h3_bij.
Qed.
Lemma xs4_bij pat a b c : bijective_on xs_okw (fun s => snd (xs4_generate pat a b c s)) <-> xs4_needs pat b c.
Proof.
  rewrite (bijective_ext xs_okw _ (fun s => snd (xs_shape (xs4_g pat a b) (xs4_h pat b c) s))) by (intros; now rewrite xs4_shape).
  rewrite (shape_bij _ _ (xs4_g_lin pat a b) (xs4_h_lin pat b c)). apply xs4_h_bij.
Qed.
Lemma xs5_bij a b c : bijective_on xs_okw (fun s => snd (xs5_generate a b c s)) <-> (b <> 0 /\ c <> 0).
Proof.
  rewrite (bijective_ext xs_okw _ (fun s => snd (xs_shape (g5 a) (h3 b c) s))) by (intros; now rewrite xs5_shape).
  rewrite (shape_bij _ _ (g5_lin a) (h3_lin b c)). apply h3_bij.
Qed.

(** setUpParam: all counts below 32 are reached, and no other. *)
Lemma land_1f r : N.land r 0x1f = r mod 32.
Proof. exact (N.land_ones r 5). Qed.
Lemma land_7 r : N.land r 0x7 = r mod 8.
Proof. exact (N.land_ones r 3). Qed.
Lemma wshr_div r k : wshr r k = r / 2 ^ k.
Proof. apply N.shiftr_div_pow2. Qed.
Lemma xs3_params r : r < 2 ^ 32 -> let '(a, b, c) := xs3_setUpParam r in
  a < 32 /\ b < 32 /\ c < 32 /\ r mod 2 ^ 15 = a + 32 * b + 1024 * c.
Proof.
  intros Hr. unfold xs3_setUpParam. cbv zeta. rewrite !land_1f, !wshr_div. change (2 ^ 5) with 32. change (2 ^ 15) with 32768.
  rewrite N.div_div by lia. change (32 * 32) with 1024.
  assert (H1 := N.mod_upper_bound r 32 ltac:(lia)).
  assert (H2 := N.mod_upper_bound (r / 32) 32 ltac:(lia)).
  assert (H3 := N.mod_upper_bound (r / 1024) 32 ltac:(lia)).
  repeat split; auto. Ltac Zify.zify_post_hook ::= Z.div_mod_to_equations. lia.
Qed.
Lemma xs4_params r : r < 2 ^ 32 -> let '(pat, a, b, c) := xs4_setUpParam r in
  pat < 8 /\ a < 32 /\ b < 32 /\ c < 32 /\ r mod 2 ^ 18 = c + 32 * b + 1024 * a + 32768 * pat.
Proof.
  intros Hr. unfold xs4_setUpParam. cbv zeta. rewrite !land_1f, !land_7, !wshr_div. change (2 ^ 5) with 32. change (2 ^ 18) with 262144.
  rewrite !N.div_div by lia. change (32 * 32) with 1024. change (1024 * 32) with 32768. change (32 * 1024) with 32768.
  assert (H1 := N.mod_upper_bound r 32 ltac:(lia)).
  assert (H2 := N.mod_upper_bound (r / 32) 32 ltac:(lia)).
  assert (H3 := N.mod_upper_bound (r / 1024) 32 ltac:(lia)).
  assert (H4 := N.mod_upper_bound (r / 32768) 8 ltac:(lia)).
  repeat split; auto. lia.
Qed.
