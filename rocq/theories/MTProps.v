(** Property theorems C11-C17 (MersenneTwister.hpp, MersenneTwister64.hpp). *)
From Coq Require Import Arith NArith ZArith List Bool Lia.
From Verif Require Import Base MTModel MTSpec MTClient MTSeedProofs MTProofs MTProofs2 MTProofs3.
Import ListNotations.
Local Open Scope N_scope.

(** * C11
    Whatever the object contained before ([s] is any object with its
    1024-entry array), after a seeding operation the values of getUint32 are
    the tempered words of the MT19937 sequence that starts with the words
    [seed_words] of the reference initialisation. *)
Theorem C11_mt19937_stream : forall (s : mt32) (o : mt_op) (x : nat -> N) (n : nat),
  length (mt_mem s) = N.to_nat 1024 -> is_seeding o = true -> mt_op_ok 32 o ->
  mt_recurrence ref32 x -> (forall i, (i < 624)%nat -> x i = seed_words ref32 o i) ->
  mt_run s (o :: repeat MGen32 n)
  = Ret (None :: map (fun i => Some (ref_temper32 (x (624 + i)%nat))) (seq 0 n)).
Proof. exact mt32_stream. Qed.
(** The sequence of the statement exists and is unique. *)
Theorem C11_sequence_exists : forall init : nat -> N,
  exists x, mt_recurrence ref32 x /\ (forall i, (i < 624)%nat -> x i = init i) /\
    forall y, mt_recurrence ref32 y -> (forall i, (i < 624)%nat -> y i = init i) -> forall t, y t = x t.
Proof. exact ref32_sequence_exists. Qed.
Example C11_ex :
  mt_run mt_alloc [MSeed 5489; MGen32; MGen32; MGen64]
  = Ret [None; Some 3499211612; Some 581869302; Some (3890346734 * 2 ^ 32 + 3586334585)]
  /\ length (mt_mem mt_alloc) = N.to_nat 1024.
Proof. split; vm_compute; reflexivity. Qed.
Print Assumptions C11_mt19937_stream.
Print Assumptions C11_sequence_exists.

(** * C12 *)
Theorem C12_history_independent :
  forall (h : list mt_op) (o : mt_op) (ops : list mt_op) (st : mt_spec_state),
  (h = [] \/ exists o' h', h = o' :: h' /\ is_seeding o' = true) ->
  is_seeding o = true -> Forall (mt_op_ok 32) (h ++ o :: ops) ->
  exists l, mt_run mt_alloc (h ++ o :: ops) = Ret (l ++ spec32_run st (o :: ops)) /\
    length l = length h.
Proof. exact mt_run_alloc. Qed.
Theorem C12_low_32_bits : forall (v : N) (ops : list mt_op), Forall (mt_op_ok 32) ops ->
  mt_run mt_alloc (MSeed v :: ops) = mt_run mt_alloc (MSeed (v mod 2 ^ 32) :: ops).
Proof. exact seed_low32. Qed.
(** The words of array seeding are those of the reference init_by_array. *)
Theorem C12_init_by_array : forall (key : list N) (z : nat -> N), array_chain ref32 key z ->
  by_array ref32 key 0 = 2 ^ 31 /\
  forall t, (rounds ref32 key <= t < rounds ref32 key + 623)%nat ->
    by_array ref32 key (S (t mod 623)) = z t.
Proof. exact by_array_ref32. Qed.
Theorem C12_chain_exists : forall R key, (2 <= r_n R)%nat -> exists z, array_chain R key z.
Proof. exact chain_exists. Qed.
Example C12_ex :
  mt_run mt_alloc [MSeed 7; MGen32; MGen64; MSeedArray [0x123; 0x234; 0x345; 0x456]; MGen32; MGen32]
  = Ret [None; Some 327741615; Some (976413892 * 2 ^ 32 + 3349725721); None; Some 1067595299; Some 955945823].
Proof. vm_compute. reflexivity. Qed.
Print Assumptions C12_history_independent.
Print Assumptions C12_low_32_bits.
Print Assumptions C12_init_by_array.
Print Assumptions C12_chain_exists.

(** * C13
    From the freshly allocated object, whose cells are all uninitialised, no
    history that begins with a seeding operation reads an uninitialised cell
    or leaves the array (both would be [Undef]). *)
Theorem C13_no_indeterminate_read : forall (o : mt_op) (ops : list mt_op),
  is_seeding o = true -> Forall (mt_op_ok 32) (o :: ops) ->
  exists l, mt_run mt_alloc (o :: ops) = Ret l /\ length l = S (length ops).
Proof. exact mt32_defined. Qed.
Theorem C13_no_indeterminate_read64 : forall (o : mt_op) (ops : list mt_op),
  is_seeding o = true -> Forall (mt_op_ok 64) (o :: ops) ->
  exists l, mt64_run mt64_alloc (o :: ops) = Ret l /\ length l = S (length ops).
Proof. exact mt64_defined. Qed.
(** The check is not vacuous: without seeding the first call is [Undef]. *)
Example C13_ex : mt_run mt_alloc [MGen32] = Undef /\ mt64_run mt64_alloc [MGen64] = Undef.
Proof. split; vm_compute; reflexivity. Qed.
Print Assumptions C13_no_indeterminate_read.
Print Assumptions C13_no_indeterminate_read64.

(** * C14 *)
Theorem C14_temper32_bijection : bij 32 temper32.
Proof. exact temper32_bij. Qed.
Theorem C14_temper64_bijection : bij 64 temper64.
Proof. exact temper64_bij. Qed.
Example C14_ex : temper32 1 = 4194449 /\ temper32 (2 ^ 31) = 2282758660
  /\ temper64 1 = 18014535948568577 /\ temper64 (2 ^ 63) = 9223372054035693568.
Proof. repeat split; vm_compute; reflexivity. Qed.
Print Assumptions C14_temper32_bijection.
Print Assumptions C14_temper64_bijection.

(** * C15 *)
Theorem C15_mt19937_64_stream : forall (s : mt64) (o : mt_op) (x : nat -> N) (n : nat),
  length (mt64_mem s) = 312%nat -> is_seeding o = true -> mt_op_ok 64 o ->
  mt_recurrence ref64 x -> (forall i, (i < 312)%nat -> x i = seed_words ref64 o i) ->
  mt64_run s (o :: repeat MGen64 n)
  = Ret (None :: map (fun i => Some (ref_temper64 (x (312 + i)%nat))) (seq 0 n)).
Proof. exact mt64_stream. Qed.
Theorem C15_sequence_exists : forall init : nat -> N,
  exists x, mt_recurrence ref64 x /\ (forall i, (i < 312)%nat -> x i = init i) /\
    forall y, mt_recurrence ref64 y -> (forall i, (i < 312)%nat -> y i = init i) -> forall t, y t = x t.
Proof. exact ref64_sequence_exists. Qed.
Theorem C15_history_independent :
  forall (h : list mt_op) (o : mt_op) (ops : list mt_op) (st : mt_spec_state),
  (h = [] \/ exists o' h', h = o' :: h' /\ is_seeding o' = true) ->
  is_seeding o = true -> Forall (mt_op_ok 64) (h ++ o :: ops) ->
  exists l, mt64_run mt64_alloc (h ++ o :: ops) = Ret (l ++ spec64_run st (o :: ops)) /\
    length l = length h.
Proof. exact mt64_run_alloc. Qed.
Theorem C15_init_by_array64 : forall (key : list N) (z : nat -> N), array_chain ref64 key z ->
  by_array ref64 key 0 = 2 ^ 63 /\
  forall t, (rounds ref64 key <= t < rounds ref64 key + 311)%nat ->
    by_array ref64 key (S (t mod 311)) = z t.
Proof. exact by_array_ref64. Qed.
Example C15_ex :
  mt64_run mt64_alloc [MSeedArray [0x12345; 0x23456; 0x34567; 0x45678]; MGen64; MGen64]
  = Ret [None; Some 7266447313870364031; Some 4946485549665804864].
Proof. vm_compute. reflexivity. Qed.
Print Assumptions C15_mt19937_64_stream.
Print Assumptions C15_sequence_exists.
Print Assumptions C15_history_independent.
Print Assumptions C15_init_by_array64.

(** * C16
    After seeding and any mixture [ops] of getter calls, of which every
    getUint32 uses one word and every getUint64 uses two (resp. one). *)
Theorem C16_widths32 : forall (s : mt32) (o : mt_op) (ops : list mt_op) (x : nat -> N),
  length (mt_mem s) = N.to_nat 1024 -> is_seeding o = true -> mt_op_ok 32 o -> Forall is_getter ops ->
  x = mt_stream ref32 (seed_words ref32 o) ->
  let k := words_used 2 ops in
  let y := fun i => ref_temper32 (x (624 + i)%nat) in
  exists l, length l = S (length ops) /\
  mt_run s (o :: ops ++ [MGen32]) = Ret (l ++ [Some (y k)]) /\
  mt_run s (o :: ops ++ [MGen64]) = Ret (l ++ [Some (y k * 2 ^ 32 + y (S k))]).
Proof. exact mt32_getters. Qed.
Theorem C16_widths64 : forall (s : mt64) (o : mt_op) (ops : list mt_op) (x : nat -> N),
  length (mt64_mem s) = 312%nat -> is_seeding o = true -> mt_op_ok 64 o -> Forall is_getter ops ->
  x = mt_stream ref64 (seed_words ref64 o) ->
  let k := words_used 1 ops in
  let y := fun i => ref_temper64 (x (312 + i)%nat) in
  exists l, length l = S (length ops) /\
  mt64_run s (o :: ops ++ [MGen32]) = Ret (l ++ [Some (y k / 2 ^ 32)]) /\
  mt64_run s (o :: ops ++ [MGen64]) = Ret (l ++ [Some (y k)]).
Proof. exact mt64_getters. Qed.
Example C16_ex : words_used 2 [MGen32; MGen64; MGen32] = 4%nat
  /\ mt_run mt_alloc [MSeed 5489; MGen32; MGen64; MGen32; MGen32]
     = Ret [None; Some 3499211612; Some (581869302 * 2 ^ 32 + 3890346734); Some 3586334585; Some 545404204].
Proof. split; vm_compute; reflexivity. Qed.
Print Assumptions C16_widths32.
Print Assumptions C16_widths64.

(** * C17 *)
Theorem C17_seeded_state_nonzero32 : forall (o : mt_op) (k : nat), is_seeding o = true ->
  nonzero_at ref32 (mt_stream ref32 (seed_words ref32 o)) k.
Proof. exact mt32_seeded_nonzero. Qed.
Theorem C17_seeded_state_nonzero64 : forall (o : mt_op) (k : nat), is_seeding o = true ->
  nonzero_at ref64 (mt_stream ref64 (seed_words ref64 o)) k.
Proof. exact mt64_seeded_nonzero. Qed.
(** What a user sees: no 624 (312) consecutive outputs are all zero. *)
Theorem C17_outputs_nonzero32 : forall (s : mt32) (o : mt_op) (k : nat),
  length (mt_mem s) = N.to_nat 1024 -> is_seeding o = true -> mt_op_ok 32 o ->
  exists l i v, mt_run s (o :: repeat MGen32 (k + 624)) = Ret (None :: l) /\
    (k <= i < k + 624)%nat /\ nth_error l i = Some (Some v) /\ v <> 0.
Proof. exact mt32_outputs_nonzero. Qed.
Theorem C17_outputs_nonzero64 : forall (s : mt64) (o : mt_op) (k : nat),
  length (mt64_mem s) = 312%nat -> is_seeding o = true -> mt_op_ok 64 o ->
  exists l i v, mt64_run s (o :: repeat MGen64 (k + 312)) = Ret (None :: l) /\
    (k <= i < k + 312)%nat /\ nth_error l i = Some (Some v) /\ v <> 0.
Proof. exact mt64_outputs_nonzero. Qed.
(** The transition of the state (upper bits of the oldest word and the n-1
    following words) is injective, onto, and linear. *)
Theorem C17_linear_bijection32 :
  (forall x y k l, mt_recurrence ref32 x -> mt_recurrence ref32 y -> words ref32 x -> words ref32 y ->
     (same_state ref32 x (S k) y (S l) <-> same_state ref32 x k y l)) /\
  (forall x, mt_recurrence ref32 x -> words ref32 x ->
     exists y, mt_recurrence ref32 y /\ words ref32 y /\ same_state ref32 y 1 x 0) /\
  (forall x y, mt_recurrence ref32 x -> mt_recurrence ref32 y ->
     mt_recurrence ref32 (fun t => N.lxor (x t) (y t))).
Proof. exact mt32_state_bijection. Qed.
Theorem C17_linear_bijection64 :
  (forall x y k l, mt_recurrence ref64 x -> mt_recurrence ref64 y -> words ref64 x -> words ref64 y ->
     (same_state ref64 x (S k) y (S l) <-> same_state ref64 x k y l)) /\
  (forall x, mt_recurrence ref64 x -> words ref64 x ->
     exists y, mt_recurrence ref64 y /\ words ref64 y /\ same_state ref64 y 1 x 0) /\
  (forall x y, mt_recurrence ref64 x -> mt_recurrence ref64 y ->
     mt_recurrence ref64 (fun t => N.lxor (x t) (y t))).
Proof. exact mt64_state_bijection. Qed.
(** A case where the seed itself gives a zero first word. *)
Example C17_ex : genrand ref32 0 0 = 0 /\ genrand ref32 0 1 = 1 /\ words ref32 (mt_stream ref32 (genrand ref32 0)).
Proof.
  split; [reflexivity|]. split; [vm_compute; reflexivity|].
  intros t. apply (stream_lt ref32); try (intros; apply (genrand_lt ref32)); cbn [r_n r_m r_w r_a ref32]; try lia; reflexivity.
Qed.
Print Assumptions C17_seeded_state_nonzero32.
Print Assumptions C17_seeded_state_nonzero64.
Print Assumptions C17_outputs_nonzero32.
Print Assumptions C17_outputs_nonzero64.
Print Assumptions C17_linear_bijection32.
Print Assumptions C17_linear_bijection64.
