(** Words made from bits, and the masks of the leading bits. *)
From Coq Require Import Arith NArith ZArith List Bool Lia ZifyBool ZifyNat ZifyN.
From Verif Require Import Base WordLemmas.
Local Open Scope N_scope.

Fixpoint mkw (w : nat) (f : nat -> bool) : N :=
  match w with
  | O => 0
  | S w' => N.b2n (f O) + 2 * mkw w' (fun i => f (S i))
  end.
Lemma mkw_bit w f i : N.testbit (mkw w f) (N.of_nat i) = ((i <? w)%nat && f i).
Proof.
  revert f i. induction w as [|w IH]; intros f i; [apply N.bits_0|].
  cbn [mkw]. destruct i as [|i].
  - change (N.of_nat 0) with 0. rewrite N.add_b2n_double_bit0. reflexivity.
  - rewrite Nat2N.inj_succ, N.testbit_succ_r_div2 by lia.
    rewrite N.div2_div, N.add_b2n_double_div2. rewrite IH. reflexivity.
Qed.
Lemma mkw_lt w f : mkw w f < 2 ^ N.of_nat w.
Proof.
  apply lt_pow2_bits. intros i Hi. replace i with (N.of_nat (N.to_nat i)) by lia.
  rewrite mkw_bit. destruct (Nat.ltb_spec (N.to_nat i) w); [lia|reflexivity].
Qed.
(** The mask of the v leading bits of a w-bit word. *)
Lemma top_mask_spec w v i : (v <= w)%N -> i < w ->
  N.testbit (wshl w (wnot w 0) (w - v)) i = (w - v <=? i).
Proof.
  intros Hv Hi. rewrite wshl_spec. destruct (N.ltb_spec i w); [|lia]. cbn [andb].
  destruct (N.leb_spec (w - v) i); [|reflexivity]. rewrite wnot_spec by lia. now rewrite N.bits_0.
Qed.
Lemma top_mask_land w v r j : (1 <= v <= Z.of_N w)%Z -> N.of_nat j < w ->
  N.testbit (N.land r (wshl w (wnot w 0) (w - Z.to_N v))) (w - 1 - N.of_nat j)
  = ((Z.of_nat j <? v)%Z && N.testbit r (w - 1 - N.of_nat j)).
Proof.
  intros Hv Hj. rewrite N.land_spec, top_mask_spec by lia.
  rewrite andb_comm. f_equal. lia.
Qed.
