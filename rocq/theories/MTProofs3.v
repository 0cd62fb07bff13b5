(** Forms of the Mersenne Twister results used by MTProps.v. *)
From Coq Require Import Arith NArith ZArith List Bool Lia.
From Verif Require Import Base UtilModel WordLemmas UtilProofs2 MTModel MTSpec MTClient
  MTSeedProofs MTProofs MTProofs2.
Import ListNotations.
Local Open Scope N_scope.

Lemma run_app (S : Type) step (s : S) ops ops' l :
  mt_run_gen S step s (ops ++ ops') = Ret l ->
  exists l1 l2, l = l1 ++ l2 /\ length l1 = length ops.
Proof.
  revert s l. induction ops as [|o ops IH]; intros s l H.
  - exists [], l. auto.
  - cbn [app mt_run_gen] in H. destruct (step s o) as [[e s']| | | |]; cbn [bind] in H; try discriminate.
    destruct (mt_run_gen S step s' (ops ++ ops')) as [l'| | | |] eqn:E; cbn [bind] in H; try discriminate.
    injection H as <-. destruct (IH _ _ E) as (l1 & l2 & -> & L).
    exists (e :: l1), l2. cbn. auto.
Qed.

Section Spec.
Variable R : ref_params.
Variable temper : N -> N.
Variable gen32 gen64 : (nat -> N) -> nat -> N * nat.
Notation srun := (mt_spec_run R temper gen32 gen64).
Notation sstep := (mt_spec_step R temper gen32 gen64).

Fixpoint srun_st (st : mt_spec_state) (ops : list mt_op) : mt_spec_state :=
  match ops with [] => st | o :: r => srun_st (snd (sstep st o)) r end.

Lemma srun_app ops ops' : forall st, srun st (ops ++ ops') = srun st ops ++ srun (srun_st st ops) ops'.
Proof.
  induction ops as [|o ops IH]; intros st; [reflexivity|].
  cbn [app mt_spec_run srun_st]. destruct (sstep st o) as [e st'].
  cbn [app snd]. now rewrite IH.
Qed.
Lemma srun_length ops : forall st, length (srun st ops) = length ops.
Proof.
  induction ops as [|o ops IH]; intros st; [reflexivity|].
  cbn [mt_spec_run]. destruct (sstep st o) as [e st']. cbn [length]. now rewrite IH.
Qed.
Lemma srun_seed_indep o ops st st' : is_seeding o = true -> srun st (o :: ops) = srun st' (o :: ops).
Proof. destruct o; cbn; try discriminate; reflexivity. Qed.

Lemma srun_seed o ops st : is_seeding o = true ->
  srun st (o :: ops) = None :: srun (mt_stream R (seed_words R o), O) ops.
Proof. destruct o; cbn; try discriminate; reflexivity. Qed.

Lemma srun_st_getters p64 x ops : forall k,
  Forall is_getter ops ->
  (forall k, snd (gen32 (out R temper x) k) = 1%nat) ->
  (forall k, snd (gen64 (out R temper x) k) = p64) ->
  srun_st (x, k) ops = (x, k + words_used p64 ops)%nat.
Proof.
  intros k Hg H32 H64. revert k. induction Hg as [|o ops [->| ->] Hops IH]; intros k.
  - cbn. now rewrite Nat.add_0_r.
  - cbn [srun_st mt_spec_step snd fst]. specialize (H32 k).
    destruct (gen32 (out R temper x) k) as [v u]. cbn [snd] in *. subst u. rewrite IH.
    cbn [words_used]. f_equal. lia.
  - cbn [srun_st mt_spec_step snd fst]. specialize (H64 k).
    destruct (gen64 (out R temper x) k) as [v u]. cbn [snd] in *. subst u. rewrite IH.
    cbn [words_used]. f_equal. lia.
Qed.

Lemma srun_gen32 x : (forall k, gen32 (out R temper x) k = (out R temper x k, 1%nat)) ->
  forall n k, srun (x, k) (repeat MGen32 n) = map (fun i => Some (out R temper x i)) (seq k n).
Proof.
  intros H. induction n as [|n IH]; intros k; [reflexivity|].
  cbn [repeat mt_spec_run mt_spec_step snd fst]. rewrite H. cbn [seq map]. f_equal.
  rewrite <- IH. f_equal. f_equal. lia.
Qed.
Lemma srun_gen64 x : (forall k, gen64 (out R temper x) k = (out R temper x k, 1%nat)) ->
  forall n k, srun (x, k) (repeat MGen64 n) = map (fun i => Some (out R temper x i)) (seq k n).
Proof.
  intros H. induction n as [|n IH]; intros k; [reflexivity|].
  cbn [repeat mt_spec_run mt_spec_step snd fst]. rewrite H. cbn [seq map]. f_equal.
  rewrite <- IH. f_equal. f_equal. lia.
Qed.
End Spec.

Lemma op_ok_repeat w o n : mt_op_ok w o -> Forall (mt_op_ok w) (repeat o n).
Proof. intros H. induction n; cbn; auto. Qed.

(** * 32 bits *)
Lemma st0 : mt_spec_state. Proof. exact (fun _ => 0, O). Defined.

Lemma mt32_stream (s : mt32) (o : mt_op) (x : nat -> N) (n : nat) :
  length (mt_mem s) = N.to_nat 1024 -> is_seeding o = true -> mt_op_ok 32 o ->
  mt_recurrence ref32 x -> (forall i, (i < 624)%nat -> x i = seed_words ref32 o i) ->
  mt_run s (o :: repeat MGen32 n)
  = Ret (None :: map (fun i => Some (ref_temper32 (x (624 + i)%nat))) (seq 0 n)).
Proof.
  intros Hl Hs Ho Hx Hi.
  rewrite (mt_run_ok o (repeat MGen32 n) s st0 Hs (Forall_cons _ Ho (op_ok_repeat 32 MGen32 n I)) Hl).
  unfold spec32_run. rewrite srun_seed by exact Hs. rewrite srun_gen32 by reflexivity.
  do 2 f_equal. apply map_ext. intros i. unfold out. do 2 f_equal. cbn [r_n ref32].
  apply (mt_unique ref32); cbn [r_n r_m ref32]; try lia; auto.
  - apply mt_stream_rec; cbn [r_n r_m ref32]; lia.
  - intros j Hj. rewrite mt_stream_init by (cbn [r_n r_m ref32]; lia). symmetry. now apply Hi.
Qed.

Lemma mt_run_alloc (h : list mt_op) (o : mt_op) (ops : list mt_op) st :
  (h = [] \/ exists o' h', h = o' :: h' /\ is_seeding o' = true) ->
  is_seeding o = true -> Forall (mt_op_ok 32) (h ++ o :: ops) ->
  exists l, mt_run mt_alloc (h ++ o :: ops) = Ret (l ++ spec32_run st (o :: ops)) /\ length l = length h.
Proof.
  intros Hh Hs Hok.
  assert (L : length (mt_mem mt_alloc) = N.to_nat 1024) by (cbn [mt_mem mt_alloc]; apply repeat_length).
  destruct Hh as [->|(o' & h' & -> & Hs')].
  - exists []. split; [|reflexivity]. apply mt_run_ok; auto.
  - cbn [app]. rewrite (mt_run_ok o' (h' ++ o :: ops) mt_alloc st0 Hs' Hok L).
    exists (spec32_run st0 (o' :: h')). split; [|apply srun_length].
    f_equal. change (o' :: h' ++ o :: ops) with ((o' :: h') ++ o :: ops).
    unfold spec32_run. rewrite srun_app. f_equal. now apply srun_seed_indep.
Qed.

Lemma genrand_low R v i : genrand R v i = genrand R (v mod 2 ^ r_w R) i.
Proof.
  induction i as [|i IH]; cbn [genrand].
  - pose proof (pow2_pos (r_w R)). now rewrite N.mod_mod by lia.
  - now rewrite IH.
Qed.

Lemma mod_unique_range (c K t u : nat) : (1 <= c)%nat -> (K <= t < K + c)%nat -> (K <= u < K + c)%nat ->
  (t mod c = u mod c)%nat -> t = u.
Proof.
  intros Hc Ht Hu E.
  pose proof (Nat.div_mod t c ltac:(lia)) as Dt. pose proof (Nat.div_mod u c ltac:(lia)) as Du.
  rewrite <- E in Du. set (a := (t / c)%nat) in *. set (b := (u / c)%nat) in *. 
  set (r := (t mod c)%nat) in *. clearbody a b r. assert (a = b) by nia. nia.
Qed.

Lemma by_array_ref R key z : (2 <= r_n R)%nat -> array_chain R key z ->
  by_array R key 0 = 2 ^ (r_w R - 1) /\
  forall t, (rounds R key <= t < rounds R key + (r_n R - 1))%nat ->
    by_array R key (S (t mod (r_n R - 1))) = z t.
Proof.
  intros Hn Hz. split; [reflexivity|]. intros t Ht. cbn [by_array].
  fold (cyc R) in *. pose proof (c_pos R Hn) as Hc.
  destruct (last_time_range R Hn key (t mod cyc R)) as (L1 & L2);
    try exact (Nat.mod_upper_bound t (cyc R) ltac:(lia)).
  replace (last_time R key (t mod cyc R)) with t.
  - apply (chain_unique R Hn key); [now apply zseq_chain|exact Hz].
  - apply (mod_unique_range (cyc R) (rounds R key)); auto.
Qed.

Lemma getters_ok w ops : Forall is_getter ops -> Forall (mt_op_ok w) ops.
Proof. apply Forall_impl. intros o [->| ->]; exact I. Qed.

(** Value of a getter after any mixture of getter calls. *)
Lemma mt32_getters (s : mt32) (o : mt_op) (ops : list mt_op) (x : nat -> N) :
  length (mt_mem s) = N.to_nat 1024 -> is_seeding o = true -> mt_op_ok 32 o -> Forall is_getter ops ->
  x = mt_stream ref32 (seed_words ref32 o) ->
  let k := words_used 2 ops in
  let y := fun i => ref_temper32 (x (624 + i)%nat) in
  exists l, length l = S (length ops) /\
  mt_run s (o :: ops ++ [MGen32]) = Ret (l ++ [Some (y k)]) /\
  mt_run s (o :: ops ++ [MGen64]) = Ret (l ++ [Some (y k * 2 ^ 32 + y (S k))]).
Proof.
  intros Hl Hs Ho Hg -> k y. set (x := mt_stream ref32 (seed_words ref32 o)) in *.
  exists (None :: spec32_run (x, O) ops). split; [cbn [length]; f_equal; apply srun_length|].
  assert (A : forall g, is_getter g -> mt_run s (o :: ops ++ [g]) =
     Ret (None :: (spec32_run (x, O) ops ++ spec32_run (x, k) [g]))).
  { intros g Hgg. rewrite (mt_run_ok o (ops ++ [g]) s st0 Hs).
    - unfold spec32_run. rewrite srun_seed by exact Hs. rewrite srun_app.
      rewrite (srun_st_getters _ _ _ _ 2) by (auto; reflexivity). reflexivity.
    - constructor; [exact Ho|]. apply getters_ok. apply Forall_app. auto.
    - exact Hl. }
  split.
  - rewrite A by (left; reflexivity). reflexivity.
  - rewrite A by (right; reflexivity). reflexivity.
Qed.

Lemma ref32_ok : (3 <= r_n ref32)%nat /\ (2 <= r_m ref32 < r_n ref32)%nat /\ 32 <= r_w ref32 /\
  r_a ref32 < 2 ^ r_w ref32 /\ N.testbit (r_a ref32) (r_w ref32 - 1) = true.
Proof. cbn [r_n r_m r_w r_a ref32]. repeat split; try lia; reflexivity. Qed.
Lemma ref64_ok : (3 <= r_n ref64)%nat /\ (2 <= r_m ref64 < r_n ref64)%nat /\ 32 <= r_w ref64 /\
  r_a ref64 < 2 ^ r_w ref64 /\ N.testbit (r_a ref64) (r_w ref64 - 1) = true.
Proof. cbn [r_n r_m r_w r_a ref64]. repeat split; try lia; reflexivity. Qed.

Lemma seed_words_lt R o : 1 <= r_w R -> forall i, seed_words R o i < 2 ^ r_w R.
Proof.
  intros Hw i. destruct o; cbn [seed_words];
  auto using genrand_lt, by_array_lt; apply pow2_pos.
Qed.

Lemma seeded_nonzero R o k : r_w R = r_w R ->
  (3 <= r_n R)%nat /\ (2 <= r_m R < r_n R)%nat /\ 32 <= r_w R /\
  r_a R < 2 ^ r_w R /\ N.testbit (r_a R) (r_w R - 1) = true ->
  is_seeding o = true -> nonzero_at R (mt_stream R (seed_words R o)) k.
Proof.
  intros _ (H1 & H2 & H3 & H4 & H5) Hs. apply nonzero_forever; auto.
  - apply mt_stream_rec; lia.
  - intros t. apply stream_lt; try lia; auto. apply seed_words_lt. lia.
  - destruct o; try discriminate; cbn [seed_words].
    + now apply genrand_nonzero.
    + now apply by_array_nonzero.
    + now apply by_array_nonzero.
Qed.

Lemma mt32_outputs_nonzero (s : mt32) (o : mt_op) (k : nat) :
  length (mt_mem s) = N.to_nat 1024 -> is_seeding o = true -> mt_op_ok 32 o ->
  exists l i v, mt_run s (o :: repeat MGen32 (k + 624)) = Ret (None :: l) /\
    (k <= i < k + 624)%nat /\ nth_error l i = Some (Some v) /\ v <> 0.
Proof.
  intros Hl Hs Ho. destruct ref32_ok as (H1 & H2 & H3 & H4 & H5).
  set (x := mt_stream ref32 (seed_words ref32 o)).
  assert (Hx : mt_recurrence ref32 x) by (apply mt_stream_rec; lia).
  destruct (outputs_nonzero ref32 H1 H2 H3 H4 H5 temper32 x k Hx) as (i & Hi & E).
  - intros t. apply stream_lt; try lia; auto. apply seed_words_lt. lia.
  - apply (seeded_nonzero ref32 o 0); auto using ref32_ok.
  - reflexivity.
  - apply temper32_bij.
  - cbn [r_n ref32] in Hi, E.
    eexists _, i, _. split.
    + apply (mt32_stream s o x); auto. intros j Hj. apply mt_stream_init; cbn [r_n r_m ref32]; lia.
    + split; [exact Hi|]. split.
      * rewrite nth_error_map. rewrite (nth_error_nth' _ O) by (rewrite seq_length; lia).
        rewrite seq_nth by lia. cbn [option_map]. reflexivity.
      * rewrite <- temper32_ref. exact E.
Qed.

(** * 64 bits *)
Lemma mt64_stream (s : mt64) (o : mt_op) (x : nat -> N) (n : nat) :
  length (mt64_mem s) = 312%nat -> is_seeding o = true -> mt_op_ok 64 o ->
  mt_recurrence ref64 x -> (forall i, (i < 312)%nat -> x i = seed_words ref64 o i) ->
  mt64_run s (o :: repeat MGen64 n)
  = Ret (None :: map (fun i => Some (ref_temper64 (x (312 + i)%nat))) (seq 0 n)).
Proof.
  intros Hl Hs Ho Hx Hi.
  rewrite (mt64_run_ok o (repeat MGen64 n) s st0 Hs (Forall_cons _ Ho (op_ok_repeat 64 MGen64 n I)) Hl).
  unfold spec64_run. rewrite srun_seed by exact Hs. rewrite srun_gen64 by reflexivity.
  do 2 f_equal. apply map_ext. intros i. unfold out. do 2 f_equal. cbn [r_n ref64].
  apply (mt_unique ref64); cbn [r_n r_m ref64]; try lia; auto.
  - apply mt_stream_rec; cbn [r_n r_m ref64]; lia.
  - intros j Hj. rewrite mt_stream_init by (cbn [r_n r_m ref64]; lia). symmetry. now apply Hi.
Qed.

Lemma mt64_run_alloc (h : list mt_op) (o : mt_op) (ops : list mt_op) st :
  (h = [] \/ exists o' h', h = o' :: h' /\ is_seeding o' = true) ->
  is_seeding o = true -> Forall (mt_op_ok 64) (h ++ o :: ops) ->
  exists l, mt64_run mt64_alloc (h ++ o :: ops) = Ret (l ++ spec64_run st (o :: ops)) /\ length l = length h.
Proof.
  intros Hh Hs Hok.
  assert (L : length (mt64_mem mt64_alloc) = 312%nat) by reflexivity.
  destruct Hh as [->|(o' & h' & -> & Hs')].
  - exists []. split; [|reflexivity]. apply mt64_run_ok; auto.
  - cbn [app]. rewrite (mt64_run_ok o' (h' ++ o :: ops) mt64_alloc st0 Hs' Hok L).
    exists (spec64_run st0 (o' :: h')). split; [|apply srun_length].
    f_equal. change (o' :: h' ++ o :: ops) with ((o' :: h') ++ o :: ops).
    unfold spec64_run. rewrite srun_app. f_equal. now apply srun_seed_indep.
Qed.

Lemma mt64_getters (s : mt64) (o : mt_op) (ops : list mt_op) (x : nat -> N) :
  length (mt64_mem s) = 312%nat -> is_seeding o = true -> mt_op_ok 64 o -> Forall is_getter ops ->
  x = mt_stream ref64 (seed_words ref64 o) ->
  let k := words_used 1 ops in
  let y := fun i => ref_temper64 (x (312 + i)%nat) in
  exists l, length l = S (length ops) /\
  mt64_run s (o :: ops ++ [MGen32]) = Ret (l ++ [Some (y k / 2 ^ 32)]) /\
  mt64_run s (o :: ops ++ [MGen64]) = Ret (l ++ [Some (y k)]).
Proof.
  intros Hl Hs Ho Hg -> k y. set (x := mt_stream ref64 (seed_words ref64 o)) in *.
  exists (None :: spec64_run (x, O) ops). split; [cbn [length]; f_equal; apply srun_length|].
  assert (A : forall g, is_getter g -> mt64_run s (o :: ops ++ [g]) =
     Ret (None :: (spec64_run (x, O) ops ++ spec64_run (x, k) [g]))).
  { intros g Hgg. rewrite (mt64_run_ok o (ops ++ [g]) s st0 Hs).
    - unfold spec64_run. rewrite srun_seed by exact Hs. rewrite srun_app.
      rewrite (srun_st_getters _ _ _ _ 1) by (auto; reflexivity). reflexivity.
    - constructor; [exact Ho|]. apply getters_ok. apply Forall_app. auto.
    - exact Hl. }
  split.
  - rewrite A by (left; reflexivity). reflexivity.
  - rewrite A by (right; reflexivity). reflexivity.
Qed.

Lemma mt64_outputs_nonzero (s : mt64) (o : mt_op) (k : nat) :
  length (mt64_mem s) = 312%nat -> is_seeding o = true -> mt_op_ok 64 o ->
  exists l i v, mt64_run s (o :: repeat MGen64 (k + 312)) = Ret (None :: l) /\
    (k <= i < k + 312)%nat /\ nth_error l i = Some (Some v) /\ v <> 0.
Proof.
  intros Hl Hs Ho. destruct ref64_ok as (H1 & H2 & H3 & H4 & H5).
  set (x := mt_stream ref64 (seed_words ref64 o)).
  assert (Hx : mt_recurrence ref64 x) by (apply mt_stream_rec; lia).
  destruct (outputs_nonzero ref64 H1 H2 H3 H4 H5 temper64 x k Hx) as (i & Hi & E).
  - intros t. apply stream_lt; try lia; auto. apply seed_words_lt. lia.
  - apply (seeded_nonzero ref64 o 0); auto using ref64_ok.
  - reflexivity.
  - apply temper64_bij.
  - cbn [r_n ref64] in Hi, E.
    eexists _, i, _. split.
    + apply (mt64_stream s o x); auto. intros j Hj. apply mt_stream_init; cbn [r_n r_m ref64]; lia.
    + split; [exact Hi|]. split.
      * rewrite nth_error_map. rewrite (nth_error_nth' _ O) by (rewrite seq_length; lia).
        rewrite seq_nth by lia. cbn [option_map]. reflexivity.
      * rewrite <- temper64_ref. exact E.
Qed.

(** Uninitialised memory is really observable in the model. *)
Lemma mt_unseeded : mt_run mt_alloc [MGen32] = Undef.
Proof. vm_compute. reflexivity. Qed.

Lemma mt32_defined (o : mt_op) (ops : list mt_op) :
  is_seeding o = true -> Forall (mt_op_ok 32) (o :: ops) ->
  exists l, mt_run mt_alloc (o :: ops) = Ret l /\ length l = S (length ops).
Proof.
  intros Hs Hok. rewrite (mt_run_ok o ops mt_alloc st0 Hs Hok).
  - eexists. split; [reflexivity|]. apply srun_length.
  - cbn [mt_mem mt_alloc]. apply repeat_length.
Qed.
Lemma mt64_defined (o : mt_op) (ops : list mt_op) :
  is_seeding o = true -> Forall (mt_op_ok 64) (o :: ops) ->
  exists l, mt64_run mt64_alloc (o :: ops) = Ret l /\ length l = S (length ops).
Proof.
  intros Hs Hok. rewrite (mt64_run_ok o ops mt64_alloc st0 Hs Hok eq_refl).
  eexists. split; [reflexivity|]. apply srun_length.
Qed.

(** The transition of the state. *)
Lemma mt_state_bijection R :
  (3 <= r_n R)%nat /\ (2 <= r_m R < r_n R)%nat /\ 32 <= r_w R /\
  r_a R < 2 ^ r_w R /\ N.testbit (r_a R) (r_w R - 1) = true ->
  (forall x y k l, mt_recurrence R x -> mt_recurrence R y -> words R x -> words R y ->
     (same_state R x (S k) y (S l) <-> same_state R x k y l)) /\
  (forall x, mt_recurrence R x -> words R x ->
     exists y, mt_recurrence R y /\ words R y /\ same_state R y 1 x 0) /\
  (forall x y, mt_recurrence R x -> mt_recurrence R y ->
     mt_recurrence R (fun t => N.lxor (x t) (y t))).
Proof.
  intros (H1 & H2 & H3 & H4 & H5). split; [|split].
  - intros x y k l Hx Hy Wx Wy. split; [now apply state_prev|now apply state_next].
  - intros x Hx Wx. now apply state_pred.
  - intros x y Hx Hy. now apply recurrence_lin.
Qed.
Lemma mt32_state_bijection :
  (forall x y k l, mt_recurrence ref32 x -> mt_recurrence ref32 y -> words ref32 x -> words ref32 y ->
     (same_state ref32 x (S k) y (S l) <-> same_state ref32 x k y l)) /\
  (forall x, mt_recurrence ref32 x -> words ref32 x ->
     exists y, mt_recurrence ref32 y /\ words ref32 y /\ same_state ref32 y 1 x 0) /\
  (forall x y, mt_recurrence ref32 x -> mt_recurrence ref32 y ->
     mt_recurrence ref32 (fun t => N.lxor (x t) (y t))).
Proof. apply mt_state_bijection, ref32_ok. Qed.
Lemma mt64_state_bijection :
  (forall x y k l, mt_recurrence ref64 x -> mt_recurrence ref64 y -> words ref64 x -> words ref64 y ->
     (same_state ref64 x (S k) y (S l) <-> same_state ref64 x k y l)) /\
  (forall x, mt_recurrence ref64 x -> words ref64 x ->
     exists y, mt_recurrence ref64 y /\ words ref64 y /\ same_state ref64 y 1 x 0) /\
  (forall x y, mt_recurrence ref64 x -> mt_recurrence ref64 y ->
     mt_recurrence ref64 (fun t => N.lxor (x t) (y t))).
Proof. apply mt_state_bijection, ref64_ok. Qed.

Lemma mt32_seeded_nonzero o k : is_seeding o = true ->
  nonzero_at ref32 (mt_stream ref32 (seed_words ref32 o)) k.
Proof. intros H. apply seeded_nonzero; auto using ref32_ok. Qed.
Lemma mt64_seeded_nonzero o k : is_seeding o = true ->
  nonzero_at ref64 (mt_stream ref64 (seed_words ref64 o)) k.
Proof. intros H. apply seeded_nonzero; auto using ref64_ok. Qed.

(** Existence and uniqueness of the reference sequences. *)
Lemma ref32_sequence_exists (init : nat -> N) :
  exists x, mt_recurrence ref32 x /\ (forall i, (i < 624)%nat -> x i = init i) /\
    forall y, mt_recurrence ref32 y -> (forall i, (i < 624)%nat -> y i = init i) -> forall t, y t = x t.
Proof.
  exists (mt_stream ref32 init). split; [apply mt_stream_rec; cbn [r_n r_m ref32]; lia|]. split.
  - intros i Hi. apply mt_stream_init; cbn [r_n r_m ref32]; lia.
  - intros y Hy Hi t. apply (mt_unique ref32); cbn [r_n r_m ref32]; try lia; auto.
    + apply mt_stream_rec; cbn [r_n r_m ref32]; lia.
    + intros i Hi2. rewrite mt_stream_init by (cbn [r_n r_m ref32]; lia). auto.
Qed.
Lemma ref64_sequence_exists (init : nat -> N) :
  exists x, mt_recurrence ref64 x /\ (forall i, (i < 312)%nat -> x i = init i) /\
    forall y, mt_recurrence ref64 y -> (forall i, (i < 312)%nat -> y i = init i) -> forall t, y t = x t.
Proof.
  exists (mt_stream ref64 init). split; [apply mt_stream_rec; cbn [r_n r_m ref64]; lia|]. split.
  - intros i Hi. apply mt_stream_init; cbn [r_n r_m ref64]; lia.
  - intros y Hy Hi t. apply (mt_unique ref64); cbn [r_n r_m ref64]; try lia; auto.
    + apply mt_stream_rec; cbn [r_n r_m ref64]; lia.
    + intros i Hi2. rewrite mt_stream_init by (cbn [r_n r_m ref64]; lia). auto.
Qed.
Lemma chain_exists R key : (2 <= r_n R)%nat -> exists z, array_chain R key z.
Proof. intros H. exists (zseq R key). now apply zseq_chain. Qed.

Lemma by_array_ref32 key z : array_chain ref32 key z ->
  by_array ref32 key 0 = 2 ^ 31 /\
  forall t, (rounds ref32 key <= t < rounds ref32 key + 623)%nat ->
    by_array ref32 key (S (t mod 623)) = z t.
Proof. apply (by_array_ref ref32). cbn [r_n ref32]. lia. Qed.
Lemma by_array_ref64 key z : array_chain ref64 key z ->
  by_array ref64 key 0 = 2 ^ 63 /\
  forall t, (rounds ref64 key <= t < rounds ref64 key + 311)%nat ->
    by_array ref64 key (S (t mod 311)) = z t.
Proof. apply (by_array_ref ref64). cbn [r_n ref64]. lia. Qed.

Lemma seed_low32 v ops : Forall (mt_op_ok 32) ops ->
  mt_run mt_alloc (MSeed v :: ops) = mt_run mt_alloc (MSeed (v mod 2 ^ 32) :: ops).
Proof.
  intros Hok.
  assert (L : length (mt_mem mt_alloc) = N.to_nat 1024) by (cbn [mt_mem mt_alloc]; apply repeat_length).
  assert (E : seed_mem par32 (mt_mem mt_alloc) v = seed_mem par32 (mt_mem mt_alloc) (v mod 2 ^ 32)).
  { unfold seed_mem. do 2 f_equal. cbn [p_w par32]. unfold trunc. rewrite N.mod_mod by discriminate.
    reflexivity. }
  unfold mt_run. cbn [mt_run_gen mt_step]. unfold mt_seed. now rewrite E.
Qed.
