(** Seeding: the loops of the model compute the sequences of MTSpec.v. *)
From Coq Require Import Arith NArith ZArith List Bool Lia.
From Verif Require Import Base UtilModel WordLemmas UtilProofs2 MTModel MTSpec.
Import ListNotations.
Local Open Scope N_scope.

Definition par_of (R : ref_params) : mt_params :=
  mkMTP (r_w R) (r_n R) (r_sh R) (r_f R) (r_c1 R) (r_c2 R).

Definition holds (m : mem) (i : nat) (v : N) : Prop := nth_error m i = Some (Some v).

Lemma rd_holds m i v : holds m i v -> rd m i = Ret v.
Proof. intros H. unfold rd. now rewrite H. Qed.
Lemma wr_ok m i v : (i < length m)%nat -> wr m i v = Ret (upd m i (Some v)).
Proof. intros H. unfold wr. apply Nat.ltb_lt in H. now rewrite H. Qed.
Lemma holds_same m i v : (i < length m)%nat -> holds (upd m i (Some v)) i v.
Proof. intros H. unfold holds. now rewrite upd_same. Qed.
Lemma holds_other m i j v u : (i < length m)%nat -> i <> j -> holds m j u ->
  holds (upd m i (Some v)) j u.
Proof. intros H Hij Hj. unfold holds. now rewrite upd_other. Qed.
Lemma holds_lt m i v : holds m i v -> (i < length m)%nat.
Proof. intros H. apply nth_error_Some. unfold holds in H. congruence. Qed.

Lemma scramble_scr R x : scramble (par_of R) x = scr R x.
Proof. unfold scramble, scr, wshr, par_of. cbn [p_sh]. now rewrite N.shiftr_div_pow2. Qed.

Section S.
Variable R : ref_params.
Hypothesis Hn : (2 <= r_n R)%nat.
Notation P := (par_of R).
Notation n := (r_n R).
Notation W := (2 ^ r_w R).

Lemma W_pos : W <> 0. Proof. pose proof (pow2_pos (r_w R)). lia. Qed.

Lemma seed_loop_ok (s : N) : forall cnt i m,
  (1 <= i)%nat -> (i + cnt <= length m)%nat ->
  (forall j, (j < i)%nat -> holds m j (genrand R s j)) ->
  exists m', seed_loop P cnt i m = Ret m' /\ length m' = length m /\
    (forall j, (j < i + cnt)%nat -> holds m' j (genrand R s j)) /\
    (forall j, (i + cnt <= j)%nat -> nth_error m' j = nth_error m j).
Proof.
  induction cnt as [|c IH]; intros i m Hi Hl H.
  - exists m. cbn. repeat split; auto. intros j Hj. apply H. lia.
  - cbn [seed_loop]. rewrite (rd_holds _ _ (genrand R s (i - 1))) by (apply H; lia).
    cbn [bind]. rewrite wr_ok by lia. cbn [bind]. rewrite scramble_scr.
    set (v := wadd _ _ _).
    assert (Ev : v = genrand R s i).
    { destruct i as [|i]; [lia|].
      unfold v, wadd, wmul, trunc. cbn [p_w p_f par_of genrand].
      pose proof W_pos. rewrite <- N.add_mod by auto. now rewrite Nat.sub_1_r. }
    destruct (IH (S i) (upd m i (Some v))) as (m' & E & L & A & B).
    + lia.
    + rewrite upd_length; lia.
    + intros j Hj. destruct (Nat.eq_dec i j) as [<-|Hij].
      * rewrite <- Ev. apply holds_same. lia.
      * apply holds_other; [lia|auto|]. apply H. lia.
    + exists m'. rewrite E. split; [reflexivity|]. split; [|split].
      * rewrite L, upd_length; lia.
      * intros j Hj. apply A. lia.
      * intros j Hj. rewrite B by lia. rewrite upd_other; [reflexivity|lia|lia].
Qed.

Lemma seed_mem_ok (m : mem) (s : N) : (n <= length m)%nat ->
  exists m', seed_mem P m s = Ret m' /\ length m' = length m /\
    (forall j, (j < n)%nat -> holds m' j (genrand R s j)).
Proof.
  intros Hl. unfold seed_mem. rewrite wr_ok by lia. cbn [bind p_n par_of p_w].
  destruct (seed_loop_ok s (n - 1) 1 (upd m 0 (Some (trunc (r_w R) s)))) as (m' & E & L & A & _).
  - lia.
  - rewrite upd_length; lia.
  - intros j Hj. assert (j = O) by lia. subst j. cbn [genrand]. apply holds_same. lia.
  - exists m'. split; [exact E|]. rewrite upd_length in L by lia. split; [exact L|].
    intros j Hj. apply A. lia.
Qed.

(** * Array seeding *)
Notation c := (cyc R).
Lemma c_pos : (1 <= c)%nat. Proof. unfold cyc. lia. Qed.

Lemma mod_succ (t k : nat) : (1 <= k)%nat ->
  (S t mod k = if Nat.leb k (S (t mod k)) then 0 else S (t mod k))%nat.
Proof.
  intros Hk. pose proof (Nat.mod_upper_bound t k ltac:(lia)) as Hb.
  pose proof (Nat.div_mod t k ltac:(lia)) as Ht.
  destruct (Nat.leb_spec k (S (t mod k))).
  - symmetry. apply (Nat.mod_unique (S t) k (S (t / k))); lia.
  - symmetry. apply (Nat.mod_unique (S t) k (t / k)); lia.
Qed.

Lemma mod_range_neq (k t u : nat) : (1 <= k)%nat -> (t < u < t + k)%nat -> (t mod k <> u mod k)%nat.
Proof.
  intros Hk H E.
  pose proof (Nat.div_mod t k ltac:(lia)) as Ht. pose proof (Nat.div_mod u k ltac:(lia)) as Hu.
  rewrite <- E in Hu. set (a := (t / k)%nat) in *. set (b := (u / k)%nat) in *.
  assert (a < b)%nat by nia. nia.
Qed.

(** Invariant after [t] writes. *)
Definition inv (z : nat -> N) (t : nat) (m : mem) : Prop :=
  (n <= length m)%nat /\
  holds m (t mod c) (zprev R z t) /\
  (forall u, (t <= u < t + c)%nat -> holds m (u mod c + 1) (zold R z u)).

(** The common tail of both loop bodies. *)
Definition wrap_step (m1 : mem) (i1 : nat) : res (nat * mem) :=
  if Nat.leb n i1 then
    do last <- rd m1 (n - 1);
    do m2 <- wr m1 0 last;
    Ret (1%nat, m2)
  else Ret (i1, m1).

Lemma inv_step z t m : inv z t m ->
  exists m2, wrap_step (upd m (t mod c + 1) (Some (z t))) (S (t mod c + 1))
             = Ret (S t mod c + 1, m2)%nat /\
    length m2 = length m /\ inv z (S t) m2.
Proof.
  intros (Hl & Hp & Ho). pose proof c_pos as Hc.
  pose proof (Nat.mod_upper_bound t c ltac:(lia)) as Hb.
  assert (Ec : (c + 1 = n)%nat) by (unfold cyc; lia).
  assert (Hnew : forall u, (S t <= u < S t + c)%nat ->
     holds (upd m (t mod c + 1) (Some (z t))) (u mod c + 1) (zold R z u)).
  { intros u Hu. destruct (Nat.eq_dec u (t + c)) as [->|Hne].
    - replace ((t + c) mod c)%nat with (t mod c)%nat.
      + unfold zold. destruct (Nat.ltb_spec (t + c) c); [lia|].
        replace (t + c - c)%nat with t by lia. apply holds_same. lia.
      + rewrite <- (Nat.mod_add t 1 c) by lia. f_equal. lia.
    - apply holds_other; [lia| |apply Ho; lia].
      pose proof (mod_range_neq c t u Hc ltac:(lia)). lia. }
  unfold wrap_step. rewrite (mod_succ t c Hc).
  destruct (Nat.leb_spec n (S (t mod c + 1))) as [Hw|Hw].
  - assert (Et : (t mod c = c - 1)%nat) by lia.
    destruct (Nat.leb_spec c (S (t mod c))); [|lia].
    rewrite (rd_holds _ _ (z t)).
    2:{ replace (n - 1)%nat with (t mod c + 1)%nat by lia. apply holds_same. lia. }
    cbn [bind]. rewrite wr_ok by (rewrite upd_length; lia). cbn [bind].
    eexists. split; [reflexivity|]. split; [rewrite !upd_length; rewrite ?upd_length; lia|].
    split; [rewrite !upd_length; rewrite ?upd_length; lia|]. split.
    + rewrite (mod_succ t c Hc). destruct (Nat.leb_spec c (S (t mod c))); [|lia].
      cbn [zprev]. apply holds_same. rewrite upd_length; lia.
    + intros u Hu. apply holds_other; [rewrite upd_length; lia|lia|]. now apply Hnew.
  - destruct (Nat.leb_spec c (S (t mod c))); [lia|].
    exists (upd m (t mod c + 1) (Some (z t))). split; [do 2 f_equal; lia|].
    split; [rewrite upd_length; lia|].
    split; [rewrite upd_length; lia|]. split; [|exact Hnew].
    rewrite (mod_succ t c Hc). destruct (Nat.leb_spec c (S (t mod c))); [lia|].
    replace (S (t mod c)) with (t mod c + 1)%nat by lia. cbn [zprev]. apply holds_same. lia.
Qed.

Section Key.
Variable key : list N.
Hypothesis Hkey : key <> [].
Variable z : nat -> N.
Hypothesis Hz : array_chain R key z.

Lemma key_len : (1 <= length key)%nat.
Proof. destruct key; [congruence|cbn; lia]. Qed.

(** [buf] is the memory behind the pointer: the key and possibly more. *)
Variable rest : list N.
Notation buf := (key ++ rest).

Lemma buf_nth j : (j < length key)%nat -> nth_error buf j = Some (nth j key 0).
Proof.
  intros Hj. rewrite nth_error_app1 by auto. now apply nth_error_nth'.
Qed.

Lemma array_loop1_ok : forall k t m, (t + k <= rounds R key)%nat -> inv z t m ->
  exists m', array_loop1 P k buf (length key) (t mod c + 1) (t mod length key) m
             = Ret ((t + k) mod c + 1, m')%nat /\ length m' = length m /\ inv z (t + k) m'.
Proof.
  pose proof key_len as HL. pose proof W_pos as HW.
  induction k as [|k IH]; intros t m Ht Hi.
  - exists m. rewrite Nat.add_0_r. cbn. auto.
  - cbn [array_loop1].
    destruct (inv_step z t m Hi) as (m2 & E2 & L2 & I2).
    destruct Hi as (Hl & Hp & Ho).
    pose proof (Nat.mod_upper_bound t c ltac:(pose proof c_pos; lia)) as Hb.
    assert (Ec : (c + 1 = n)%nat) by (unfold cyc; lia).
    rewrite (rd_holds _ _ (zold R z t)) by (apply Ho; pose proof c_pos; lia). cbn [bind].
    rewrite (rd_holds _ _ (zprev R z t)) by (replace (t mod c + 1 - 1)%nat with (t mod c)%nat by lia; exact Hp).
    cbn [bind]. pose proof (Nat.mod_upper_bound t (length key) ltac:(lia)) as Hj.
    rewrite buf_nth by auto. rewrite wr_ok by lia. cbn [bind].
    rewrite scramble_scr.
    set (v := wadd _ _ _).
    assert (Ev : v = z t).
    { rewrite (Hz t). unfold zfun. destruct (Nat.ltb_spec t (rounds R key)); [|lia].
      unfold v, wadd, wmul, trunc. cbn [p_w p_c1 par_of].
      now rewrite <- N.add_mod by auto. }
    clearbody v. subst v.
    fold (wrap_step (upd m (t mod c + 1) (Some (z t))) (S (t mod c + 1))).
    change (p_n P) with n. fold (wrap_step (upd m (t mod c + 1) (Some (z t))) (S (t mod c + 1))).
    rewrite E2. cbn [bind].
    rewrite <- (mod_succ t (length key) HL).
    destruct (IH (S t) m2 ltac:(lia) I2) as (m' & E & L & I').
    exists m'. rewrite E. replace (t + S k)%nat with (S t + k)%nat by lia.
    split; [reflexivity|]. split; [congruence|exact I'].
Qed.

Lemma array_loop2_ok : forall k t m, (rounds R key <= t)%nat -> inv z t m ->
  exists m', array_loop2 P k (t mod c + 1) m = Ret m' /\ length m' = length m /\ inv z (t + k) m'.
Proof.
  pose proof W_pos as HW.
  induction k as [|k IH]; intros t m Ht Hi.
  - exists m. rewrite Nat.add_0_r. cbn. auto.
  - cbn [array_loop2].
    destruct (inv_step z t m Hi) as (m2 & E2 & L2 & I2).
    destruct Hi as (Hl & Hp & Ho).
    pose proof (Nat.mod_upper_bound t c ltac:(pose proof c_pos; lia)) as Hb.
    assert (Ec : (c + 1 = n)%nat) by (unfold cyc; lia).
    rewrite (rd_holds _ _ (zold R z t)) by (apply Ho; pose proof c_pos; lia). cbn [bind].
    rewrite (rd_holds _ _ (zprev R z t)) by (replace (t mod c + 1 - 1)%nat with (t mod c)%nat by lia; exact Hp).
    cbn [bind]. rewrite wr_ok by lia. cbn [bind].
    rewrite scramble_scr.
    set (v := wsub _ _ _).
    assert (Ev : v = z t).
    { rewrite (Hz t). unfold zfun. destruct (Nat.ltb_spec t (rounds R key)); [lia|].
      unfold v, wsub, wmul, trunc. cbn [p_w p_c2 par_of].
      now rewrite N.mod_mod by auto. }
    clearbody v. subst v.
    change (p_n P) with n. fold (wrap_step (upd m (t mod c + 1) (Some (z t))) (S (t mod c + 1))).
    rewrite E2. cbn [bind].
    destruct (IH (S t) m2 ltac:(lia) I2) as (m' & E & L & I').
    exists m'. rewrite E. replace (t + S k)%nat with (S t + k)%nat by lia.
    split; [reflexivity|]. split; [congruence|exact I'].
Qed.

Lemma last_time_range q : (q < c)%nat ->
  (rounds R key <= last_time R key q < rounds R key + c)%nat /\ (last_time R key q mod c = q)%nat.
Proof.
  intros Hq. unfold last_time. set (K := rounds R key).
  pose proof (Nat.mod_upper_bound (q + (c - K mod c)) c ltac:(lia)).
  split; [lia|].
  pose proof (Nat.mod_upper_bound K c ltac:(lia)) as HK.
  rewrite Nat.add_mod_idemp_r by lia.
  pose proof (Nat.div_mod K c ltac:(lia)) as HD.
  replace (K + (q + (c - K mod c)))%nat with (q + (K / c + 1) * c)%nat by nia.
  rewrite Nat.mod_add by lia. now apply Nat.mod_small.
Qed.

Lemma seed_array_mem_ok (m : mem) : 1 <= r_w R -> (n <= length m)%nat ->
  exists m', seed_array_mem P m buf (length key) = Ret m' /\ length m' = length m /\
    holds m' 0 (2 ^ (r_w R - 1)) /\
    (forall q, (q < c)%nat -> holds m' (S q) (z (last_time R key q))).
Proof.
  intros Hw Hl. pose proof c_pos as Hc. assert (Ec : (c + 1 = n)%nat) by (unfold cyc; lia).
  unfold seed_array_mem.
  destruct (seed_mem_ok m 19650218 Hl) as (m0 & E0 & L0 & H0). rewrite E0. cbn [bind].
  assert (I0 : inv z 0 m0).
  { split; [lia|]. rewrite Nat.mod_0_l by lia. split; [apply H0; lia|].
    intros u Hu. rewrite Nat.mod_small by lia. unfold zold.
    destruct (Nat.ltb_spec u c); [|lia]. replace (u + 1)%nat with (S u) by lia. apply H0. lia. }
  change (p_n P) with n.
  replace (if Nat.ltb (length key) n then n else length key) with (rounds R key)
    by (unfold rounds; destruct (Nat.ltb_spec (length key) n); lia).
  destruct (array_loop1_ok (rounds R key) 0 m0 ltac:(lia) I0) as (m1 & E1 & L1 & I1).
  rewrite !Nat.mod_0_l in E1 by (pose proof key_len; lia). cbn [Nat.add] in E1.
  rewrite E1. cbn [bind]. cbn [Nat.add] in I1.
  destruct (array_loop2_ok (n - 1) (rounds R key) m1 ltac:(lia) I1) as (m2 & E2 & L2 & I2).
  rewrite E2. cbn [bind]. rewrite wr_ok by lia.
  eexists. split; [reflexivity|]. split; [rewrite upd_length; lia|].
  split.
  - replace (2 ^ (r_w R - 1)) with (wshl (p_w P) 1 (p_w P - 1)); [apply holds_same; lia|].
    cbn [p_w par_of]. unfold wshl, trunc. rewrite N.shiftl_1_l. apply N.mod_small.
    apply N.pow_lt_mono_r; lia.
  - intros q Hq. apply holds_other; [lia|lia|].
    destruct (last_time_range q Hq) as (HR & HM).
    destruct I2 as (_ & _ & I2).
    specialize (I2 (last_time R key q + c)%nat ltac:(unfold cyc in *; lia)).
    replace ((last_time R key q + c) mod c)%nat with q in I2.
    + unfold zold in I2. destruct (Nat.ltb_spec (last_time R key q + c) c); [lia|].
      replace (last_time R key q + c - c)%nat with (last_time R key q) in I2 by lia.
      now replace (S q) with (q + 1)%nat by lia.
    + rewrite <- HM at 1. rewrite <- (Nat.mod_add _ 1 c) by lia. f_equal. lia.
Qed.
End Key.

(** The executable sequence satisfies the recurrence. *)
Lemma zlist_length key t : length (zlist R key t) = t.
Proof. induction t as [|t IH]; [reflexivity|]. cbn [zlist length]. now rewrite IH. Qed.
Lemma zlist_nth key d : forall t i, (i < t)%nat -> nth i (zlist R key t) d = zseq R key (t - 1 - i).
Proof.
  induction t as [|t IH]; intros i Hi; [lia|]. cbn [zlist].
  destruct i as [|i]; cbn [nth].
  - replace (S t - 1 - 0)%nat with t by lia. reflexivity.
  - rewrite IH by lia. f_equal. lia.
Qed.
Lemma zseq_chain key : array_chain R key (zseq R key).
Proof.
  intros t. unfold zseq at 1, zval. f_equal.
  - destruct t as [|t]; reflexivity.
  - unfold zold. pose proof c_pos. destruct (Nat.ltb_spec t c).
    + apply nth_overflow. rewrite zlist_length. lia.
    + rewrite zlist_nth by lia. f_equal. lia.
Qed.
Lemma chain_unique key z z' : array_chain R key z -> array_chain R key z' -> forall t, z t = z' t.
Proof.
  intros H H' t. induction t as [t IH] using lt_wf_ind.
  rewrite (H t), (H' t). f_equal.
  - destruct t as [|t]; [reflexivity|]. apply IH. lia.
  - unfold zold. pose proof c_pos. destruct (Nat.ltb_spec t c); [reflexivity|]. apply IH. lia.
Qed.

Lemma seed_array_by_array (m : mem) key rest : key <> [] -> 1 <= r_w R -> (n <= length m)%nat ->
  exists m', seed_array_mem P m (key ++ rest) (length key) = Ret m' /\ length m' = length m /\
    (forall j, (j < n)%nat -> holds m' j (by_array R key j)).
Proof.
  intros Hk Hw Hl.
  destruct (seed_array_mem_ok key Hk _ (zseq_chain key) rest m Hw Hl) as (m' & E & L & H0 & H1).
  exists m'. split; [exact E|]. split; [exact L|].
  intros [|q] Hj; [exact H0|]. apply H1. unfold cyc. lia.
Qed.

(** * The sequence of the recurrence *)
Hypothesis Hm : (1 <= r_m R < n)%nat.
Lemma xlist_nth init d : forall t i, (i < t)%nat -> nth i (xlist R init t) d = mt_stream R init (t - 1 - i).
Proof.
  induction t as [|t IH]; intros i Hi; [lia|]. cbn [xlist].
  destruct i as [|i]; cbn [nth].
  - replace (S t - 1 - 0)%nat with t by lia. reflexivity.
  - rewrite IH by lia. f_equal. lia.
Qed.
Lemma mt_stream_init init i : (i < n)%nat -> mt_stream R init i = init i.
Proof. intros H. unfold mt_stream, xval. destruct (Nat.ltb_spec i n); [reflexivity|lia]. Qed.
Lemma mt_stream_rec init : mt_recurrence R (mt_stream R init).
Proof.
  intros k. unfold mt_stream at 1, xval. destruct (Nat.ltb_spec (k + n) n); [lia|].
  rewrite !xlist_nth by lia.
  replace (k + n - 1 - (n - r_m R - 1))%nat with (k + r_m R)%nat by lia.
  replace (k + n - 1 - (n - 1))%nat with k by lia.
  replace (k + n - 1 - (n - 2))%nat with (S k) by lia. reflexivity.
Qed.
Lemma mt_unique x y : mt_recurrence R x -> mt_recurrence R y ->
  (forall i, (i < n)%nat -> x i = y i) -> forall t, x t = y t.
Proof.
  intros Hx Hy H t. induction t as [t IH] using lt_wf_ind.
  destruct (Nat.lt_ge_cases t n) as [Ht|Ht]; [now apply H|].
  replace t with (t - n + n)%nat by lia. rewrite Hx, Hy.
  rewrite !(IH (t - n)%nat), !(IH (S (t - n))), !(IH (t - n + r_m R)%nat) by lia. reflexivity.
Qed.
End S.
