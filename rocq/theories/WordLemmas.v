(** Lemmas on machine words. *)
From Coq Require Import NArith ZArith List Bool Lia ZifyBool ZifyNat ZifyN.
From Verif Require Import Base.
Import ListNotations.
Local Open Scope N_scope.
Ltac Zify.zify_post_hook ::= Z.div_mod_to_equations.

Lemma pow2_pos (w : N) : 0 < 2 ^ w.
Proof. assert (2 ^ w <> 0) by (apply N.pow_nonzero; lia). lia. Qed.

Lemma trunc_lt (w x : N) : trunc w x < 2 ^ w.
Proof. unfold trunc. apply N.mod_upper_bound. pose proof (pow2_pos w). lia. Qed.

Lemma trunc_small (w x : N) : x < 2 ^ w -> trunc w x = x.
Proof. intros H. unfold trunc. apply N.mod_small; exact H. Qed.

Lemma trunc_land (w x : N) : trunc w x = N.land x (N.ones w).
Proof. unfold trunc. symmetry. apply N.land_ones. Qed.

Lemma trunc_spec (w x i : N) :
  N.testbit (trunc w x) i = if i <? w then N.testbit x i else false.
Proof.
  unfold trunc. destruct (N.ltb_spec i w).
  - now rewrite N.mod_pow2_bits_low.
  - now rewrite N.mod_pow2_bits_high.
Qed.

Lemma trunc_trunc (w x : N) : trunc w (trunc w x) = trunc w x.
Proof. apply trunc_small, trunc_lt. Qed.

Lemma bits_above (w x i : N) : x < 2 ^ w -> w <= i -> N.testbit x i = false.
Proof.
  intros H Hi. rewrite <- (trunc_small w x H), trunc_spec.
  destruct (N.ltb_spec i w); [lia|reflexivity].
Qed.

Lemma lt_pow2_bits (w x : N) :
  (forall i, w <= i -> N.testbit x i = false) -> x < 2 ^ w.
Proof.
  intros H. replace x with (trunc w x); [apply trunc_lt|].
  apply N.bits_inj. intros i. rewrite trunc_spec.
  destruct (N.ltb_spec i w) as [Hi|Hi]; [reflexivity|]. now rewrite H.
Qed.

Lemma word_ext (w x y : N) : x < 2 ^ w -> y < 2 ^ w ->
  (forall i, i < w -> N.testbit x i = N.testbit y i) -> x = y.
Proof.
  intros Hx Hy H. apply N.bits_inj. intros i.
  destruct (N.lt_ge_cases i w) as [Hi|Hi]; [auto|].
  now rewrite (bits_above w x i), (bits_above w y i).
Qed.

Lemma land_lt (w x y : N) : x < 2 ^ w -> N.land x y < 2 ^ w.
Proof.
  intros H. apply lt_pow2_bits. intros i Hi.
  rewrite N.land_spec, (bits_above w x i); auto.
Qed.
Lemma land_lt_r (w x y : N) : y < 2 ^ w -> N.land x y < 2 ^ w.
Proof. intros H. rewrite N.land_comm. now apply land_lt. Qed.

Lemma lor_lt (w x y : N) : x < 2 ^ w -> y < 2 ^ w -> N.lor x y < 2 ^ w.
Proof.
  intros Hx Hy. apply lt_pow2_bits. intros i Hi.
  rewrite N.lor_spec, (bits_above w x i), (bits_above w y i); auto.
Qed.

Lemma lxor_lt (w x y : N) : x < 2 ^ w -> y < 2 ^ w -> N.lxor x y < 2 ^ w.
Proof.
  intros Hx Hy. apply lt_pow2_bits. intros i Hi.
  rewrite N.lxor_spec, (bits_above w x i), (bits_above w y i); auto.
Qed.

Lemma shiftr_lt (w x k : N) : x < 2 ^ w -> N.shiftr x k < 2 ^ w.
Proof.
  intros Hx. apply lt_pow2_bits. intros i Hi.
  rewrite N.shiftr_spec by lia. apply (bits_above w); [auto|lia].
Qed.

Lemma ones_lt (w : N) : N.ones w < 2 ^ w.
Proof. pose proof (pow2_pos w). rewrite N.ones_equiv. lia. Qed.

Lemma wshl_spec (w x k i : N) :
  N.testbit (wshl w x k) i
  = if (i <? w) && (k <=? i) then N.testbit x (i - k) else false.
Proof.
  unfold wshl. rewrite trunc_spec.
  destruct (N.ltb_spec i w) as [Hi|Hi]; [|reflexivity].
  destruct (N.leb_spec k i) as [Hk|Hk]; cbn [andb].
  - apply N.shiftl_spec_high'; lia.
  - apply N.shiftl_spec_low; lia.
Qed.

Lemma wshr_spec (x k i : N) : N.testbit (wshr x k) i = N.testbit x (i + k).
Proof. unfold wshr. apply N.shiftr_spec; lia. Qed.

Lemma wnot_spec (w x i : N) : i < w -> N.testbit (wnot w x) i = negb (N.testbit x i).
Proof.
  intros H. unfold wnot. rewrite N.lxor_spec, N.ones_spec_low by lia.
  now destruct (N.testbit x i).
Qed.

Lemma wnot_lt (w x : N) : x < 2 ^ w -> wnot w x < 2 ^ w.
Proof. intros H. apply lxor_lt; [auto|apply ones_lt]. Qed.

Lemma wshl_lt (w x k : N) : wshl w x k < 2 ^ w.
Proof. apply trunc_lt. Qed.
Lemma wadd_lt (w x y : N) : wadd w x y < 2 ^ w.
Proof. apply trunc_lt. Qed.
Lemma wsub_lt (w x y : N) : wsub w x y < 2 ^ w.
Proof. apply trunc_lt. Qed.

Lemma wadd_small (w x y : N) : x + y < 2 ^ w -> wadd w x y = x + y.
Proof. intros H. unfold wadd. now apply trunc_small. Qed.

Lemma wsub_small (w x y : N) : x < 2 ^ w -> y <= x -> wsub w x y = x - y.
Proof.
  intros Hx Hy. unfold wsub. rewrite (trunc_small w y) by lia.
  unfold trunc. replace (x + (2 ^ w - y)) with ((x - y) + 1 * 2 ^ w) by lia.
  rewrite N.mod_add by (pose proof (pow2_pos w); lia).
  apply N.mod_small. lia.
Qed.

(** Concatenation of a high part and a low part of [k] bits. *)
Lemma cat_spec (k h l i : N) : l < 2 ^ k ->
  N.testbit (h * 2 ^ k + l) i
  = if i <? k then N.testbit l i else N.testbit h (i - k).
Proof.
  intros Hl. pose proof (pow2_pos k) as Hp.
  destruct (N.ltb_spec i k) as [Hi|Hi].
  - rewrite <- (N.mod_pow2_bits_low _ k i) by lia.
    rewrite N.add_comm, N.mod_add by lia. now rewrite N.mod_small.
  - replace i with ((i - k) + k) at 1 by lia.
    rewrite <- N.div_pow2_bits.
    f_equal. rewrite N.div_add_l by lia. rewrite N.div_small by auto. lia.
Qed.

Lemma cat_lt (k m h l : N) : l < 2 ^ k -> h < 2 ^ m -> h * 2 ^ k + l < 2 ^ (m + k).
Proof.
  intros Hl Hh. rewrite N.pow_add_r.
  apply N.lt_le_trans with ((h + 1) * 2 ^ k); [lia|].
  apply N.mul_le_mono_r. lia.
Qed.
