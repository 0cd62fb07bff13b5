(** A round robin array read from the oldest word to the newest. *)
From Coq Require Import Arith NArith ZArith List Bool Lia ZifyBool ZifyNat ZifyN.
From Verif Require Import Base WordLemmas WordVec ArrayModel.
Import ListNotations.

(** Word k of the window: number 0 is the oldest, number size - 1 the newest. *)
Definition win (size : nat) (s : rr) (k : nat) : N := nth ((rr_idx s + 1 + k) mod size) (rr_arr s) 0%N.
Definition rr_ok (w size : nat) (s : rr) : Prop :=
  (rr_idx s < size)%nat /\ length (rr_arr s) = size /\ forall i, (nth i (rr_arr s) 0%N < 2 ^ N.of_nat w)%N.
Definition rr_push (size : nat) (s : rr) (x : N) : rr :=
  RR ((rr_idx s + 1) mod size) (put (rr_arr s) ((rr_idx s + 1) mod size) x).
(** The array with given words from the oldest to the newest. *)
Definition rr_mk (size : nat) (f : nat -> N) : rr := RR (size - 1) (map f (seq 0 size)).

Lemma put_len a i x : length (put a i x) = length a.
Proof. revert i. induction a as [|y a IH]; intros [|i]; cbn; auto. Qed.
Lemma nth_put a i j x : (i < length a)%nat -> nth j (put a i x) 0%N = if (j =? i)%nat then x else nth j a 0%N.
Proof.
  revert i j. induction a as [|y a IH]; intros i j H; [cbn in H; lia|].
  destruct i as [|i], j as [|j]; cbn [put nth Nat.eqb]; auto. apply IH. cbn in H. lia.
Qed.

Section Win.
Variables w size : nat.
Hypothesis Hsize : (0 < size)%nat.

Lemma win_lt s k : rr_ok w size s -> (win size s k < 2 ^ N.of_nat w)%N.
Proof. intros [_ [_ H]]. apply H. Qed.

Lemma mod_small_case a : (a < 2 * size)%nat -> a mod size = if (a <? size)%nat then a else (a - size)%nat.
Proof.
  intros H. destruct (Nat.ltb_spec a size); [now apply Nat.mod_small|].
  replace a with (a - size + 1 * size)%nat at 1 by lia. rewrite Nat.mod_add by lia. apply Nat.mod_small. lia.
Qed.
Lemma mod_lt a : (a mod size < size)%nat.
Proof. apply Nat.mod_upper_bound. lia. Qed.

(** The word at a given offset from the index. *)
Lemma at_win s i : (rr_idx s < size)%nat -> (1 <= i <= size)%nat -> rr_at size (rr_arr s) (rr_idx s + i) = win size s (i - 1).
Proof. intros H Hi. unfold rr_at, win. do 2 f_equal. lia. Qed.
Lemma at_win_next s i : (rr_idx s < size)%nat -> (i < size)%nat ->
  rr_at size (rr_arr s) ((rr_idx s + 1) mod size + i) = win size s i.
Proof. intros H Hi. unfold rr_at, win. f_equal. now rewrite Nat.add_mod_idemp_l by lia. Qed.

Lemma push_ok s x : rr_ok w size s -> (x < 2 ^ N.of_nat w)%N -> rr_ok w size (rr_push size s x).
Proof.
  intros [A [B C]] Hx. split; [apply mod_lt|]. split; [cbn; now rewrite put_len|].
  intros i. cbn [rr_arr rr_push]. rewrite nth_put by (rewrite B; apply mod_lt). destruct (_ =? _)%nat; auto.
Qed.
Lemma win_push s x k : rr_ok w size s -> (k < size)%nat ->
  win size (rr_push size s x) k = if (k =? size - 1)%nat then x else win size s (S k).
Proof.
  intros [A [B C]] Hk. unfold win, rr_push. cbn [rr_idx rr_arr]. rewrite nth_put by (rewrite B; apply mod_lt).
  replace (((rr_idx s + 1) mod size + 1 + k) mod size) with ((rr_idx s + 1 + S k) mod size).
  2:{ rewrite <- (Nat.add_assoc ((rr_idx s + 1) mod size) 1 k), Nat.add_mod_idemp_l by lia. f_equal; lia. }
  destruct (Nat.eqb_spec k (size - 1)) as [E|E].
  - replace (rr_idx s + 1 + S k)%nat with (rr_idx s + 1 + 1 * size)%nat by lia. rewrite Nat.mod_add by lia. now rewrite Nat.eqb_refl.
  - destruct (Nat.eqb_spec ((rr_idx s + 1 + S k) mod size) ((rr_idx s + 1) mod size)) as [F|F]; [|reflexivity]. exfalso.
    destruct (Nat.ltb_spec (rr_idx s + 1 + S k) (2 * size)).
    + rewrite !mod_small_case in F by lia. destruct (Nat.ltb_spec (rr_idx s + 1 + S k) size), (Nat.ltb_spec (rr_idx s + 1) size); lia.
    + rewrite (mod_small_case (rr_idx s + 1)) in F by lia.
      replace (rr_idx s + 1 + S k)%nat with (rr_idx s + 1 + S k - size + 1 * size)%nat in F by lia. rewrite Nat.mod_add, mod_small_case in F by lia.
      destruct (Nat.ltb_spec (rr_idx s + 1 + S k - size) size), (Nat.ltb_spec (rr_idx s + 1) size); lia.
Qed.

Lemma mk_ok f : (forall k, (k < size)%nat -> (f k < 2 ^ N.of_nat w)%N) -> rr_ok w size (rr_mk size f).
Proof.
  intros H. split; [cbn; lia|]. split; [cbn; now rewrite map_length, seq_length|].
  intros i. cbn [rr_arr rr_mk]. destruct (Nat.lt_ge_cases i size) as [L|L].
  - rewrite nth_indep with (d' := f 0%nat) by now rewrite map_length, seq_length. rewrite map_nth, seq_nth by auto. auto.
  - rewrite nth_overflow by now rewrite map_length, seq_length. pose proof (pow2_pos (N.of_nat w)). auto.
Qed.
Lemma win_mk f k : (k < size)%nat -> win size (rr_mk size f) k = f k.
Proof.
  intros H. unfold win. cbn [rr_idx rr_arr rr_mk]. replace (size - 1 + 1 + k)%nat with (k + 1 * size)%nat by lia. rewrite Nat.mod_add, Nat.mod_small by lia.
  rewrite nth_indep with (d' := f 0%nat) by now rewrite map_length, seq_length. rewrite map_nth, seq_nth by auto. reflexivity.
Qed.

Lemma xor_loop_len idx idx' b cnt : forall i a, length (rr_xor_loop size cnt i idx a idx' b) = length a.
Proof. induction cnt as [|c IH]; intros i a; [reflexivity|]. cbn [rr_xor_loop]. now rewrite IH, put_len. Qed.
Lemma xor_loop_nth idx idx' b cnt : forall i a, length a = size -> (i + cnt <= size)%nat -> forall j, (j < size)%nat ->
  rr_at size (rr_xor_loop size cnt i idx a idx' b) (idx + j)
  = if (i <=? j)%nat && (j <? i + cnt)%nat then N.lxor (rr_at size a (idx + j)) (rr_at size b (idx' + j)) else rr_at size a (idx + j).
Proof.
  induction cnt as [|c IH]; intros i a La Hi j Hj.
  - cbn [rr_xor_loop]. destruct (Nat.leb_spec i j), (Nat.ltb_spec j (i + 0)); auto; lia.
  - cbn [rr_xor_loop]. rewrite IH; [|now rewrite put_len|lia|auto].
    assert (E : rr_at size (put a ((idx + i) mod size) (N.lxor (rr_at size a (idx + i)) (rr_at size b (idx' + i)))) (idx + j)
      = if (j =? i)%nat then N.lxor (rr_at size a (idx + i)) (rr_at size b (idx' + i)) else rr_at size a (idx + j)).
    { unfold rr_at at 1. rewrite nth_put by (rewrite La; apply mod_lt). destruct (Nat.eqb_spec j i) as [->|N].
      - now rewrite Nat.eqb_refl.
      - destruct (Nat.eqb_spec ((idx + j) mod size) ((idx + i) mod size)) as [F|F]; [|reflexivity]. exfalso.
        apply N. rewrite <- (Nat.add_mod_idemp_l idx j), <- (Nat.add_mod_idemp_l idx i) in F by lia. pose proof (mod_lt idx). set (q := idx mod size) in *. clearbody q.
        rewrite !mod_small_case in F by lia. destruct (Nat.ltb_spec (q + j) size), (Nat.ltb_spec (q + i) size); lia. }
    rewrite E. destruct (Nat.eqb_spec j i) as [->|N].
    + destruct (Nat.leb_spec (S i) i), (Nat.leb_spec i i), (Nat.ltb_spec i (i + S c)); cbn [andb]; auto; lia.
    + destruct (Nat.leb_spec (S i) j), (Nat.leb_spec i j), (Nat.ltb_spec j (S i + c)), (Nat.ltb_spec j (i + S c)); cbn [andb]; auto; lia.
Qed.
Lemma win_xor s t k : rr_ok w size s -> rr_ok w size t -> (k < size)%nat ->
  win size (rr_xor size s t) k = N.lxor (win size s k) (win size t k).
Proof.
  intros [A [B C]] [A' [B' C']] Hk. unfold rr_xor.
  set (j := if (k =? size - 1)%nat then 0%nat else S k).
  assert (J : (j < size)%nat) by (unfold j; destruct (Nat.eqb_spec k (size - 1)); lia).
  assert (E : forall i a, (i < size)%nat -> nth ((i + 1 + k) mod size) a 0%N = rr_at size a (i + j)).
  { intros i a Hi. unfold rr_at. f_equal. unfold j. destruct (Nat.eqb_spec k (size - 1)).
    - replace (i + 1 + k)%nat with (i + 0 + 1 * size)%nat by lia. now rewrite Nat.mod_add by lia.
    - f_equal. lia. }
  unfold win. cbn [rr_idx rr_arr]. rewrite !E by auto. rewrite xor_loop_nth by (auto; lia).
  destruct (Nat.leb_spec 0 j), (Nat.ltb_spec j (0 + size)); cbn [andb]; auto; lia.
Qed.
Lemma xor_ok s t : rr_ok w size s -> rr_ok w size t -> rr_ok w size (rr_xor size s t).
Proof.
  intros Hs Ht. pose proof Hs as [A [B C]]. pose proof Ht as [A' [B' C']]. split; [exact A|]. split; [cbn; now rewrite xor_loop_len|].
  cbn [rr_xor rr_arr rr_idx]. assert (G : forall cnt i a, length a = size -> (forall j, (nth j a 0 < 2 ^ N.of_nat w)%N) ->
    forall j, (nth j (rr_xor_loop size cnt i (rr_idx s) a (rr_idx t) (rr_arr t)) 0 < 2 ^ N.of_nat w)%N).
  { induction cnt as [|c IH]; intros i a La Ha j; cbn [rr_xor_loop]; [auto|]. apply IH; [now rewrite put_len|].
    intros l. rewrite nth_put by (rewrite La; apply mod_lt). destruct (_ =? _)%nat; [|auto]. apply lxor_lt; [apply Ha|apply C']. }
  now apply G.
Qed.
Lemma zero_loop_ok idx a cnt : forall i, rr_zero_loop size cnt i idx a = true <-> forall j, (i <= j < i + cnt)%nat -> rr_at size a (idx + j) = 0%N.
Proof.
  induction cnt as [|c IH]; intros i; cbn [rr_zero_loop].
  - split; [intros _ j Hj; lia|auto].
  - destruct (N.eqb_spec (rr_at size a (idx + i)) 0) as [E|E]; cbn [negb].
    + rewrite IH. split; intros H j Hj; [|apply H; lia]. destruct (Nat.eq_dec j i) as [->|]; [auto|apply H; lia].
    + split; [discriminate|]. intros H. exfalso. apply E, H. lia.
Qed.
End Win.
