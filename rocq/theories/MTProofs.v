(** The generators of the model produce the sequences of MTSpec.v. *)
From Coq Require Import Arith NArith ZArith List Bool Lia.
From Verif Require Import Base UtilModel WordLemmas UtilProofs2 MTModel MTSpec MTClient MTSeedProofs.
Import ListNotations.
Local Open Scope N_scope.

(** * Words *)
Lemma genrand_lt R s i : genrand R s i < 2 ^ r_w R.
Proof.
  pose proof (pow2_pos (r_w R)). destruct i; cbn [genrand]; apply N.mod_lt; lia.
Qed.
Lemma zseq_lt R key t : zseq R key t < 2 ^ r_w R.
Proof.
  pose proof (pow2_pos (r_w R)). unfold zseq, zval, zfun.
  destruct (Nat.ltb t (rounds R key)); apply N.mod_lt; lia.
Qed.
Lemma by_array_lt R key i : 1 <= r_w R -> by_array R key i < 2 ^ r_w R.
Proof.
  intros Hw. destruct i; cbn [by_array]; [apply N.pow_lt_mono_r; lia|apply zseq_lt].
Qed.

Lemma join_lt (w a b : N) : 31 <= w -> a < 2 ^ w -> join a b < 2 ^ w.
Proof.
  intros Hw Ha. unfold join. replace w with (w - 31 + 31) by lia. apply cat_lt.
  - apply N.mod_lt. discriminate.
  - apply N.div_lt_upper_bound; [discriminate|]. rewrite <- N.pow_add_r.
    now replace (31 + (w - 31)) with w by lia.
Qed.
Lemma twist_lt R u : r_a R < 2 ^ r_w R -> u < 2 ^ r_w R -> twist R u < 2 ^ r_w R.
Proof.
  intros Ha Hu. unfold twist. apply lxor_lt.
  - apply N.le_lt_trans with u; [|exact Hu]. apply N.div_le_upper_bound; lia.
  - destruct (N.odd u); [exact Ha|apply pow2_pos].
Qed.

Lemma stream_lt R init : (2 <= r_n R)%nat -> (1 <= r_m R < r_n R)%nat -> 31 <= r_w R ->
  r_a R < 2 ^ r_w R -> (forall i, init i < 2 ^ r_w R) ->
  forall t, mt_stream R init t < 2 ^ r_w R.
Proof.
  intros Hn Hm Hw Ha Hi t. induction t as [t IH] using lt_wf_ind.
  destruct (Nat.lt_ge_cases t (r_n R)) as [Ht|Ht].
  - rewrite mt_stream_init by auto. apply Hi.
  - replace t with (t - r_n R + r_n R)%nat by lia. rewrite mt_stream_rec by auto.
    apply lxor_lt; [apply IH; lia|]. apply twist_lt; [exact Ha|].
    apply join_lt; [exact Hw|]. apply IH. lia.
Qed.

Lemma land_high (k a : N) : a < 2 ^ (k + 31) ->
  N.land a (N.shiftl (N.ones k) 31) = a / 2 ^ 31 * 2 ^ 31.
Proof.
  intros Ha. rewrite <- N.shiftr_div_pow2, <- N.shiftl_mul_pow2.
  apply N.bits_inj. intros i. rewrite N.land_spec.
  destruct (N.ltb_spec i 31).
  - rewrite !N.shiftl_spec_low by lia. apply andb_false_r.
  - rewrite !N.shiftl_spec_high' by lia. rewrite N.shiftr_spec by lia.
    replace (i - 31 + 31) with i by lia.
    destruct (N.ltb_spec (i - 31) k).
    + rewrite N.ones_spec_low by lia. apply andb_true_r.
    + rewrite N.ones_spec_high by lia.
      rewrite (bits_above (k + 31) a i) by (auto; lia). reflexivity.
Qed.

Lemma join_mask (k a b : N) : a < 2 ^ (k + 31) ->
  N.lor (N.land a (N.shiftl (N.ones k) 31)) (N.land b (N.ones 31)) = join a b.
Proof.
  intros Ha. rewrite land_high by auto. rewrite N.land_ones. unfold join.
  apply N.bits_inj. intros i. rewrite cat_spec by (apply N.mod_lt; discriminate).
  rewrite N.lor_spec. destruct (N.ltb_spec i 31).
  - rewrite N.mul_pow2_bits_low by lia. reflexivity.
  - rewrite N.mul_pow2_bits_high by lia. rewrite (N.mod_pow2_bits_high b 31 i) by lia.
    apply orb_false_r.
Qed.

Lemma twist_mag R u c : N.lxor (N.lxor c (wshr u 1)) (if N.land u 1 =? 0 then 0 else r_a R)
  = N.lxor c (twist R u).
Proof.
  unfold twist, wshr. rewrite N.lxor_assoc. f_equal.
  rewrite N.shiftr_div_pow2. change (2 ^ 1) with 2. f_equal.
  change 1 with (N.ones 1) at 1. rewrite N.land_ones. change (2 ^ 1) with 2.
  rewrite <- N.bit0_mod, N.bit0_odd. now destruct (N.odd u).
Qed.

Lemma temper32_ref y : temper32 y = ref_temper32 y.
Proof.
  unfold temper32, ref_temper32, wshl, wshr, trunc. cbv zeta.
  now rewrite !N.shiftr_div_pow2, !N.shiftl_mul_pow2.
Qed.
Lemma temper64_ref y : temper64 y = ref_temper64 y.
Proof.
  unfold temper64, ref_temper64, wshl, wshr, trunc. cbv zeta.
  now rewrite !N.shiftr_div_pow2, !N.shiftl_mul_pow2.
Qed.

Lemma ref_temper32_lt y : y < 2 ^ 32 -> ref_temper32 y < 2 ^ 32.
Proof.
  intros H. unfold ref_temper32. cbv zeta.
  repeat match goal with
  | |- N.lxor ?a ?b < _ => apply lxor_lt
  | |- N.land _ _ < _ => apply land_lt
  | |- _ mod _ < _ => apply N.mod_lt; discriminate
  | |- _ / _ < _ => rewrite <- N.shiftr_div_pow2; apply shiftr_lt
  end; auto.
Qed.
Lemma ref_temper64_lt y : y < 2 ^ 64 -> ref_temper64 y < 2 ^ 64.
Proof.
  intros H. unfold ref_temper64. cbv zeta.
  repeat match goal with
  | |- N.lxor ?a ?b < _ => apply lxor_lt
  | |- N.land _ _ < _ => apply land_lt
  | |- _ mod _ < _ => apply N.mod_lt; discriminate
  | |- _ / _ < _ => rewrite <- N.shiftr_div_pow2; apply shiftr_lt
  end; auto.
Qed.

(** * MersenneTwister *)
Definition cell (j : nat) : nat := N.to_nat (N.of_nat j mod 1024).

Definition inv32 (x : nat -> N) (k : nat) (s : mt32) : Prop :=
  length (mt_mem s) = N.to_nat 1024 /\
  mt_i s = (624 + N.of_nat k) mod 1024 /\
  (forall j, (k <= j < k + 624)%nat -> holds (mt_mem s) (cell j) (x j)).

Lemma cell_lt j : (cell j < N.to_nat 1024)%nat.
Proof.
  unfold cell. pose proof (N.mod_lt (N.of_nat j) 1024 ltac:(discriminate)). lia.
Qed.
Lemma cell_neq i j : (i < j < i + N.to_nat 1024)%nat -> cell i <> cell j.
Proof.
  intros H E. unfold cell in E. apply N2Nat.inj in E.
  pose proof (N.div_mod (N.of_nat i) 1024 ltac:(discriminate)) as Hi.
  pose proof (N.div_mod (N.of_nat j) 1024 ltac:(discriminate)) as Hj.
  rewrite <- E in Hj.
  set (a := N.of_nat i / 1024) in *. set (b := N.of_nat j / 1024) in *.
  set (r := N.of_nat i mod 1024) in *. clearbody a b r. lia.
Qed.

Lemma read_index (c : N) (k j : nat) :
  c < 1024 -> (c + 624 + N.of_nat k) mod 1024 = N.of_nat j mod 1024 ->
  N.to_nat (N.land (wadd 32 c ((624 + N.of_nat k) mod 1024)) 0x3ff) = cell j.
Proof.
  intros Hc H. unfold cell. f_equal.
  change 0x3ff with (N.ones 10). rewrite N.land_ones. change (2 ^ 10) with 1024.
  pose proof (N.mod_lt (624 + N.of_nat k) 1024 ltac:(discriminate)).
  rewrite wadd_small by (change (2 ^ 32) with 4294967296; lia).
  rewrite N.add_mod_idemp_r by discriminate. rewrite N.add_assoc. exact H.
Qed.

Lemma mt_next_ok (x : nat -> N) (k : nat) (s : mt32) :
  mt_recurrence ref32 x -> (forall t, x t < 2 ^ 32) -> inv32 x k s ->
  exists s', mt_next s = Ret (ref_temper32 (x (624 + k)%nat), s') /\ inv32 x (S k) s'.
Proof.
  intros Hx Hw (Hl & Hi & Hh). destruct s as [m mti]. cbn [mt_mem mt_i] in *. subst mti.
  assert (Ea : (1024 + N.of_nat k) mod 1024 = N.of_nat k mod 1024).
  { replace (1024 + N.of_nat k) with (N.of_nat k + 1 * 1024) by lia. now rewrite N.mod_add. }
  assert (Eb : (1025 + N.of_nat k) mod 1024 = N.of_nat (S k) mod 1024).
  { replace (1025 + N.of_nat k) with (N.of_nat (S k) + 1 * 1024) by lia. now rewrite N.mod_add. }
  assert (Ec : (797 + 624 + N.of_nat k) mod 1024 = N.of_nat (k + 397) mod 1024).
  { replace (797 + 624 + N.of_nat k) with (N.of_nat (k + 397) + 1 * 1024) by lia. now rewrite N.mod_add. }
  unfold mt_next. cbn [mt_mem mt_i].
  rewrite (read_index 400 k k) by (auto; lia).
  rewrite (rd_holds _ _ (x k)) by (apply Hh; lia). cbn [bind].
  rewrite (read_index 401 k (S k)) by (auto; lia).
  rewrite (rd_holds _ _ (x (S k))) by (apply Hh; lia). cbn [bind].
  rewrite (read_index 797 k (k + 397)) by (auto; lia).
  rewrite (rd_holds _ _ (x (k + 397)%nat)) by (apply Hh; lia). cbn [bind].
  change 0x80000000 with (N.shiftl (N.ones 1) 31). change 0x7fffffff with (N.ones 31).
  rewrite (join_mask 1) by apply Hw.
  change 0x9908b0df with (r_a ref32). rewrite twist_mag.
  pose proof (Hx k) as Hk. cbn [r_n r_m ref32] in Hk. rewrite <- Hk.
  replace (N.to_nat ((624 + N.of_nat k) mod 1024)) with (cell (k + 624))
    by (unfold cell; do 2 f_equal; lia).
  rewrite wr_ok by (rewrite Hl; apply cell_lt). cbn [bind].
  rewrite (rd_holds _ _ (x (k + 624)%nat)) by (apply holds_same; rewrite Hl; apply cell_lt).
  cbn [bind]. rewrite temper32_ref.
  rewrite (Nat.add_comm 624 k). eexists. split; [reflexivity|].
  split; [|split]; cbn [mt_mem mt_i].
  - rewrite upd_length; rewrite Hl; [reflexivity|apply cell_lt].
  - change 0x3ff with (N.ones 10). rewrite N.land_ones. change (2 ^ 10) with 1024.
    pose proof (N.mod_lt (624 + N.of_nat k) 1024 ltac:(discriminate)).
    rewrite wadd_small by (change (2 ^ 32) with 4294967296; lia).
    rewrite N.add_mod_idemp_l by discriminate. f_equal. lia.
  - intros j Hj. destruct (Nat.eq_dec j (k + 624)) as [->|Hne].
    + apply holds_same. rewrite Hl. apply cell_lt.
    + apply holds_other; [rewrite Hl; apply cell_lt| |apply Hh; lia].
      intros E. symmetry in E. revert E. apply cell_neq. lia.
Qed.

Definition sim32 (st : mt_spec_state) (s : mt32) : Prop :=
  mt_recurrence ref32 (fst st) /\ (forall t, fst st t < 2 ^ 32) /\ inv32 (fst st) (snd st) s.

Lemma par32_of : par32 = par_of ref32. Proof. reflexivity. Qed.
Lemma par64_of : par64 = par_of ref64. Proof. reflexivity. Qed.

Lemma inv32_init init m mi : length m = N.to_nat 1024 -> mi = 624 ->
  (forall j, (j < 624)%nat -> holds m j (init j)) -> (forall i, init i < 2 ^ 32) ->
  sim32 (mt_stream ref32 init, O) (mkMT m mi).
Proof.
  intros Hl -> H Hlt. cbn [fst snd]. split; [|split].
  - apply mt_stream_rec; cbn [r_n r_m ref32]; lia.
  - apply (stream_lt ref32); cbn [r_n r_m r_w r_a ref32]; try lia; auto; reflexivity.
  - split; [exact Hl|]. split; [reflexivity|]. cbn [mt_mem fst snd].
    intros j Hj. unfold cell. rewrite N.mod_small by lia. rewrite Nat2N.id.
    rewrite mt_stream_init by (cbn [r_n r_m ref32]; lia). apply H. lia.
Qed.

Lemma char_word_ok R c : 8 <= r_w R -> c < 256 -> char_word (r_w R) c = byte_word R c.
Proof.
  intros Hw Hc. unfold char_word, byte_word, to_signed, of_int.
  change (2 ^ (8 - 1)) with 128. change (2 ^ Z.of_N 8)%Z with 256%Z.
  assert (H8 : 2 ^ 8 <= 2 ^ r_w R) by (apply N.pow_le_mono_r; lia).
  change (2 ^ 8) with 256 in H8.
  assert (HZ : (2 ^ Z.of_N (r_w R))%Z = Z.of_N (2 ^ r_w R)) by now rewrite N2Z.inj_pow.
  rewrite HZ. set (W := 2 ^ r_w R) in *. clearbody W. clear HZ.
  destruct (N.ltb_spec c 128).
  - rewrite Z.mod_small by lia. lia.
  - replace ((Z.of_N c - 256) mod Z.of_N W)%Z with (Z.of_N c - 256 + Z.of_N W)%Z; [lia|].
    apply (Z.mod_unique _ _ (-1)); lia.
Qed.

Lemma string_buf R (s : list N) : 8 <= r_w R -> Forall (fun c => c < 256) s ->
  exists rest, c_str_words (r_w R) s = string_key R s ++ rest /\
    (s <> [] -> length (string_key R s) = length s).
Proof.
  intros Hw Hs. unfold c_str_words.
  destruct s as [|a s].
  - exists []. split; [|congruence]. cbn [app map string_key]. f_equal.
  - exists [0]. split.
    + rewrite map_app. cbn [string_key]. f_equal.
    apply map_ext_in. intros c Hc. apply char_word_ok; auto.
      rewrite Forall_forall in Hs. auto.
    + intros _. unfold string_key. now rewrite map_length.
Qed.
Lemma string_key_nonempty R s : string_key R s <> [].
Proof. destruct s; discriminate. Qed.

(** An empty string behaves like the key {0}: the code reads the terminating
    zero for every j, because j is reset to 0 in every round. *)
Lemma array_loop1_zero_len P : forall k key i j m, (j = 0)%nat ->
  array_loop1 P k key 0 i j m = array_loop1 P k key 1 i j m.
Proof.
  induction k as [|k IH]; intros key i j m ->; [reflexivity|].
  cbn [array_loop1]. destruct (rd m i); cbn [bind]; try reflexivity.
  destruct (rd m (i - 1)); cbn [bind]; try reflexivity.
  destruct (nth_error key 0); try reflexivity.
  destruct (wr m i _); cbn [bind]; try reflexivity.
  match goal with |- context [bind ?r _] => destruct r as [[i2 m2]| | | |] end;
    cbn [bind]; try reflexivity.
  cbn. apply IH. reflexivity.
Qed.

Lemma seed_string_mem R m s : (2 <= r_n R)%nat -> 8 <= r_w R ->
  Forall (fun c => c < 256) s -> (r_n R <= length m)%nat ->
  exists m', seed_array_mem (par_of R) m (c_str_words (r_w R) s) (length s) = Ret m' /\
    length m' = length m /\
    (forall j, (j < r_n R)%nat -> holds m' j (by_array R (string_key R s) j)).
Proof.
  intros Hn Hw Hs Hl.
  destruct (string_buf R s Hw Hs) as (rest & E & L).
  rewrite E.
  destruct (seed_array_by_array R Hn m (string_key R s) rest (string_key_nonempty R s) ltac:(lia) Hl)
    as (m' & E' & L' & H').
  destruct s as [|a s].
  - exists m'. split; [|auto]. rewrite <- E'. unfold seed_array_mem.
    destruct (seed_mem (par_of R) m 19650218); cbn [bind length string_key]; try reflexivity.
    cbn [p_n par_of]. destruct (Nat.ltb_spec 0 (r_n R)); [|lia].
    destruct (Nat.ltb_spec 1 (r_n R)); [|lia].
    now rewrite array_loop1_zero_len.
  - exists m'. rewrite L in E' by discriminate. auto.
Qed.

Lemma gen64_cat hi lo : hi < 2 ^ 32 -> lo < 2 ^ 32 -> N.lor (wshl 64 hi 32) lo = hi * 2 ^ 32 + lo.
Proof.
  intros Hh Hl. apply N.bits_inj. intros i.
  rewrite cat_spec by auto. rewrite N.lor_spec, wshl_spec.
  destruct (N.ltb_spec i 32).
  - replace ((i <? 64) && (32 <=? i)) with false; [apply orb_false_l|].
    destruct (N.ltb_spec i 64), (N.leb_spec 32 i); cbn; auto; lia.
  - rewrite (bits_above 32 lo i) by auto. rewrite orb_false_r.
    destruct (N.ltb_spec i 64), (N.leb_spec 32 i); cbn; auto; try lia.
    symmetry. apply (bits_above 32); auto; lia.
Qed.

Definition spec32_step := mt_spec_step ref32 ref_temper32
    (fun o k => (o k, 1%nat)) (fun o k => (o k * 2 ^ 32 + o (S k), 2%nat)).

Lemma mt_step_ok (st : mt_spec_state) (s : mt32) (o : mt_op) :
  mt_op_ok 32 o ->
  (if is_seeding o then length (mt_mem s) = N.to_nat 1024 else sim32 st s) ->
  exists s', mt_step s o = Ret (fst (spec32_step st o), s') /\
    sim32 (snd (spec32_step st o)) s'.
Proof.
  intros Ho Hs. destruct o as [v|key|str| |]; cbn [is_seeding] in Hs; cbn [mt_step].
  - unfold mt_seed. rewrite par32_of.
    destruct (seed_mem_ok ref32 ltac:(cbn; lia) (mt_mem s) v) as (m' & E & L & H).
    { rewrite Hs. cbn [r_n ref32]. lia. }
    rewrite E. cbn [bind noval]. eexists. split; [reflexivity|].
    cbn [spec32_step mt_spec_step snd]. apply inv32_init; [congruence|reflexivity|exact H|].
    apply (genrand_lt ref32).
  - unfold mt_seed_array. rewrite par32_of. destruct Ho as (Hk & _).
    destruct (seed_array_by_array ref32 ltac:(cbn; lia) (mt_mem s) key [] Hk ltac:(cbn; lia))
      as (m' & E & L & H).
    { rewrite Hs. cbn [r_n ref32]. lia. }
    rewrite app_nil_r in E. rewrite E. cbn [bind noval]. eexists. split; [reflexivity|].
    cbn [spec32_step mt_spec_step snd]. apply inv32_init; [congruence|reflexivity|exact H|].
    intros i. apply (by_array_lt ref32). cbn. lia.
  - unfold mt_seed_string, mt_seed_array. rewrite par32_of.
    destruct (seed_string_mem ref32 (mt_mem s) str ltac:(cbn; lia) ltac:(cbn; lia) Ho)
      as (m' & E & L & H).
    { rewrite Hs. cbn [r_n ref32]. lia. }
    cbn [r_w ref32] in E. rewrite E. cbn [bind noval]. eexists. split; [reflexivity|].
    cbn [spec32_step mt_spec_step snd]. apply inv32_init; [congruence|reflexivity|exact H|].
    intros i. apply (by_array_lt ref32). cbn. lia.
  - destruct Hs as (Hr & Hlt & Hi). unfold mt_getUint32.
    destruct (mt_next_ok _ _ _ Hr Hlt Hi) as (s' & E & Hi'). rewrite E. cbn [val bind].
    eexists. split; [reflexivity|].
    split; [exact Hr|]. split; [exact Hlt|]. cbn [snd fst spec32_step mt_spec_step].
    replace (snd st + 1)%nat with (S (snd st)) by lia. exact Hi'.
  - destruct Hs as (Hr & Hlt & Hi). unfold mt_getUint64.
    destruct (mt_next_ok _ _ _ Hr Hlt Hi) as (s' & E & Hi'). rewrite E. cbn [val bind].
    destruct (mt_next_ok _ _ _ Hr Hlt Hi') as (s'' & E' & Hi''). rewrite E'. cbn [val bind].
    eexists. split.
    + rewrite gen64_cat by (apply ref_temper32_lt, Hlt). reflexivity.
    + split; [exact Hr|]. split; [exact Hlt|]. cbn [snd fst spec32_step mt_spec_step].
      replace (snd st + 2)%nat with (S (S (snd st))) by lia. exact Hi''.
Qed.

Lemma mt_run_sim ops : forall st s, Forall (mt_op_ok 32) ops -> sim32 st s ->
  mt_run s ops = Ret (spec32_run st ops).
Proof.
  induction ops as [|o ops IH]; intros st s Hok Hs; [reflexivity|].
  inversion_clear Hok as [|? ? Ho Hops].
  destruct (mt_step_ok st s o Ho) as (s' & E & Hs').
  { destruct (is_seeding o); [apply Hs|exact Hs]. }
  unfold mt_run, spec32_run in *. cbn [mt_run_gen mt_spec_run]. rewrite E. cbn [bind].
  unfold spec32_step in *.
  destruct (mt_spec_step _ _ _ _ _ _) as [e st'] in *. cbn [fst snd] in *.
  rewrite (IH st' s' Hops Hs'). reflexivity.
Qed.

Lemma mt_run_ok (o : mt_op) (ops : list mt_op) (s : mt32) (st : mt_spec_state) :
  is_seeding o = true -> Forall (mt_op_ok 32) (o :: ops) ->
  length (mt_mem s) = N.to_nat 1024 ->
  mt_run s (o :: ops) = Ret (spec32_run st (o :: ops)).
Proof.
  intros Hseed Hok Hl. inversion_clear Hok as [|? ? Ho Hops].
  destruct (mt_step_ok st s o Ho) as (s' & E & Hs'); [now rewrite Hseed|].
  unfold mt_run, spec32_run. cbn [mt_run_gen mt_spec_run]. rewrite E. cbn [bind].
  pose proof (mt_run_sim ops _ s' Hops Hs') as H. unfold mt_run, spec32_run, spec32_step in *.
  destruct (mt_spec_step _ _ _ _ _ _) as [e st'] in *. cbn [fst snd] in *.
  rewrite H. reflexivity.
Qed.

(** * MersenneTwister64 *)
Definition inv64 (x : nat -> N) (k : nat) (s : mt64) : Prop :=
  length (mt64_mem s) = 312%nat /\ (mt64_i s = k mod 312)%nat /\
  (forall j, (k <= j < k + 312)%nat -> holds (mt64_mem s) (j mod 312) (x j)).

Lemma mt64_next_ok (x : nat -> N) (k : nat) (s : mt64) :
  mt_recurrence ref64 x -> (forall t, x t < 2 ^ 64) -> inv64 x k s ->
  exists s', mt64_next s = Ret (ref_temper64 (x (312 + k)%nat), s') /\ inv64 x (S k) s'.
Proof.
  intros Hx Hw (Hl & Hi & Hh). destruct s as [m mti]. cbn [mt64_mem mt64_i] in *. subst mti.
  unfold mt64_next. cbn [mt64_mem mt64_i].
  rewrite !Nat.add_mod_idemp_l by discriminate.
  rewrite (rd_holds _ _ (x k)) by (apply Hh; lia). cbn [bind].
  rewrite (rd_holds _ _ (x (k + 1)%nat)) by (apply Hh; lia). cbn [bind].
  rewrite (rd_holds _ _ (x (k + 156)%nat)) by (apply Hh; lia). cbn [bind].
  change 0xFFFFFFFF80000000 with (N.shiftl (N.ones 33) 31). change 0x7fffffff with (N.ones 31).
  rewrite (join_mask 33) by apply Hw.
  change 0xB5026F5AA96619E9 with (r_a ref64). rewrite twist_mag.
  pose proof (Hx k) as Hk. cbn [r_n r_m ref64] in Hk.
  replace (k + 1)%nat with (S k) by lia. rewrite <- Hk.
  pose proof (Nat.mod_upper_bound k 312 ltac:(discriminate)) as Hb.
  rewrite wr_ok by lia. cbn [bind].
  rewrite (rd_holds _ _ (x (k + 312)%nat)) by (apply holds_same; lia).
  cbn [bind]. rewrite temper64_ref.
  rewrite (Nat.add_comm 312 k). eexists. split; [reflexivity|].
  split; [|split]; cbn [mt64_mem mt64_i].
  - rewrite upd_length; lia.
  - reflexivity.
  - intros j Hj. destruct (Nat.eq_dec j (k + 312)) as [->|Hne].
    + replace ((k + 312) mod 312)%nat with (k mod 312)%nat.
      * apply holds_same. lia.
      * rewrite <- (Nat.mod_add k 1 312) by discriminate. reflexivity.
    + apply holds_other; [lia| |apply Hh; lia].
      apply (mod_range_neq ref64); cbn [r_n ref64]; lia.
Qed.

Definition sim64 (st : mt_spec_state) (s : mt64) : Prop :=
  mt_recurrence ref64 (fst st) /\ (forall t, fst st t < 2 ^ 64) /\ inv64 (fst st) (snd st) s.

Lemma inv64_init init m mi : length m = 312%nat -> mi = O ->
  (forall j, (j < 312)%nat -> holds m j (init j)) -> (forall i, init i < 2 ^ 64) ->
  sim64 (mt_stream ref64 init, O) (mkMT64 m mi).
Proof.
  intros Hl -> H Hlt. cbn [fst snd]. split; [|split].
  - apply mt_stream_rec; cbn [r_n r_m ref64]; lia.
  - apply (stream_lt ref64); cbn [r_n r_m r_w r_a ref64]; try lia; auto; reflexivity.
  - split; [exact Hl|]. split; [reflexivity|]. cbn [mt64_mem fst snd].
    intros j Hj. rewrite Nat.mod_small by lia.
    rewrite mt_stream_init by (cbn [r_n r_m ref64]; lia). apply H. lia.
Qed.

Definition spec64_step := mt_spec_step ref64 ref_temper64
    (fun o k => (o k / 2 ^ 32, 1%nat)) (fun o k => (o k, 1%nat)).

Lemma mt64_step_ok (st : mt_spec_state) (s : mt64) (o : mt_op) :
  mt_op_ok 64 o ->
  (if is_seeding o then length (mt64_mem s) = 312%nat else sim64 st s) ->
  exists s', mt64_step s o = Ret (fst (spec64_step st o), s') /\
    sim64 (snd (spec64_step st o)) s'.
Proof.
  intros Ho Hs. destruct o as [v|key|str| |]; cbn [is_seeding] in Hs; cbn [mt64_step].
  - unfold mt64_seed. rewrite par64_of.
    destruct (seed_mem_ok ref64 ltac:(cbn; lia) (mt64_mem s) v) as (m' & E & L & H).
    { rewrite Hs. cbn [r_n ref64]. lia. }
    rewrite E. cbn [bind noval]. eexists. split; [reflexivity|].
    cbn [spec64_step mt_spec_step snd]. apply inv64_init; [congruence|reflexivity|exact H|].
    apply (genrand_lt ref64).
  - unfold mt64_seed_array. rewrite par64_of. destruct Ho as (Hk & _).
    destruct (seed_array_by_array ref64 ltac:(cbn; lia) (mt64_mem s) key [] Hk ltac:(cbn; lia))
      as (m' & E & L & H).
    { rewrite Hs. cbn [r_n ref64]. lia. }
    rewrite app_nil_r in E. rewrite E. cbn [bind noval]. eexists. split; [reflexivity|].
    cbn [spec64_step mt_spec_step snd]. apply inv64_init; [congruence|reflexivity|exact H|].
    intros i. apply (by_array_lt ref64). cbn. lia.
  - unfold mt64_seed_string, mt64_seed_array. rewrite par64_of.
    destruct (seed_string_mem ref64 (mt64_mem s) str ltac:(cbn; lia) ltac:(cbn; lia) Ho)
      as (m' & E & L & H).
    { rewrite Hs. cbn [r_n ref64]. lia. }
    cbn [r_w ref64] in E. rewrite E. cbn [bind noval]. eexists. split; [reflexivity|].
    cbn [spec64_step mt_spec_step snd]. apply inv64_init; [congruence|reflexivity|exact H|].
    intros i. apply (by_array_lt ref64). cbn. lia.
  - destruct Hs as (Hr & Hlt & Hi). unfold mt64_getUint32.
    destruct (mt64_next_ok _ _ _ Hr Hlt Hi) as (s' & E & Hi'). rewrite E. cbn [val bind].
    eexists. split.
    + rewrite trunc_small.
      * unfold wshr. rewrite N.shiftr_div_pow2. reflexivity.
      * unfold wshr. rewrite N.shiftr_div_pow2. apply N.div_lt_upper_bound; [discriminate|].
        rewrite <- N.pow_add_r. apply ref_temper64_lt, Hlt.
    + split; [exact Hr|]. split; [exact Hlt|]. cbn [snd fst spec64_step mt_spec_step].
      replace (snd st + 1)%nat with (S (snd st)) by lia. exact Hi'.
  - destruct Hs as (Hr & Hlt & Hi). unfold mt64_getUint64.
    destruct (mt64_next_ok _ _ _ Hr Hlt Hi) as (s' & E & Hi'). rewrite E. cbn [val bind].
    eexists. split; [reflexivity|].
    split; [exact Hr|]. split; [exact Hlt|]. cbn [snd fst spec64_step mt_spec_step].
    replace (snd st + 1)%nat with (S (snd st)) by lia. exact Hi'.
Qed.

Lemma mt64_run_sim ops : forall st s, Forall (mt_op_ok 64) ops -> sim64 st s ->
  mt64_run s ops = Ret (spec64_run st ops).
Proof.
  induction ops as [|o ops IH]; intros st s Hok Hs; [reflexivity|].
  inversion_clear Hok as [|? ? Ho Hops].
  destruct (mt64_step_ok st s o Ho) as (s' & E & Hs').
  { destruct (is_seeding o); [apply Hs|exact Hs]. }
  unfold mt64_run, spec64_run in *. cbn [mt_run_gen mt_spec_run]. rewrite E. cbn [bind].
  unfold spec64_step in *.
  destruct (mt_spec_step _ _ _ _ _ _) as [e st'] in *. cbn [fst snd] in *.
  rewrite (IH st' s' Hops Hs'). reflexivity.
Qed.

Lemma mt64_run_ok (o : mt_op) (ops : list mt_op) (s : mt64) (st : mt_spec_state) :
  is_seeding o = true -> Forall (mt_op_ok 64) (o :: ops) ->
  length (mt64_mem s) = 312%nat ->
  mt64_run s (o :: ops) = Ret (spec64_run st (o :: ops)).
Proof.
  intros Hseed Hok Hl. inversion_clear Hok as [|? ? Ho Hops].
  destruct (mt64_step_ok st s o Ho) as (s' & E & Hs'); [now rewrite Hseed|].
  unfold mt64_run, spec64_run. cbn [mt_run_gen mt_spec_run]. rewrite E. cbn [bind].
  pose proof (mt64_run_sim ops _ s' Hops Hs') as H. unfold mt64_run, spec64_run, spec64_step in *.
  destruct (mt_spec_step _ _ _ _ _ _) as [e st'] in *. cbn [fst snd] in *.
  rewrite H. reflexivity.
Qed.
