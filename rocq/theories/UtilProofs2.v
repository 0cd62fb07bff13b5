(** Proofs about util.hpp: tables and bit vectors. *)
From Coq Require Import NArith ZArith List Bool Lia ZifyBool ZifyNat ZifyN.
From Verif Require Import Base WordLemmas UtilModel UtilSpec UtilProofs.
Import ListNotations.
Local Open Scope N_scope.
Ltac Zify.zify_post_hook ::= Z.div_mod_to_equations.

(** * Array update *)
Lemma upd_length (A : Type) (l : list A) (i : nat) (x : A) :
  (i < length l)%nat -> length (upd l i x) = length l.
Proof.
  intros H. unfold upd. rewrite app_length. cbn [length].
  rewrite firstn_length, skipn_length. lia.
Qed.

Lemma upd_same (A : Type) (l : list A) (i : nat) (x : A) :
  (i < length l)%nat -> nth_error (upd l i x) i = Some x.
Proof.
  intros H. unfold upd. rewrite nth_error_app2; rewrite firstn_length; [|lia].
  replace (i - Nat.min i (length l))%nat with O by lia. reflexivity.
Qed.

Lemma upd_other (A : Type) (l : list A) (i j : nat) (x : A) :
  (i < length l)%nat -> i <> j -> nth_error (upd l i x) j = nth_error l j.
Proof.
  intros H Hij. unfold upd.
  destruct (Nat.lt_ge_cases j i) as [Hlt|Hge].
  - rewrite nth_error_app1 by (rewrite firstn_length; lia).
    rewrite <- (firstn_skipn i l) at 2. rewrite nth_error_app1; [reflexivity|].
    rewrite firstn_length; lia.
  - rewrite nth_error_app2 by (rewrite firstn_length; lia).
    rewrite firstn_length. replace (j - Nat.min i (length l))%nat with (S (j - S i))%nat by lia.
    cbn [nth_error].
    rewrite <- (firstn_skipn (S i) l) at 2. rewrite nth_error_app2; rewrite firstn_length; [|lia].
    f_equal. lia.
Qed.

Lemma nth_error_ext (A : Type) (l l' : list A) :
  (forall i, nth_error l i = nth_error l' i) -> l = l'.
Proof.
  revert l'; induction l as [|a l IH]; intros [|a' l'] H; auto.
  - specialize (H O). discriminate.
  - specialize (H O). discriminate.
  - pose proof (H O) as H0. cbn in H0. injection H0 as ->. f_equal. apply IH.
    intros i. exact (H (S i)).
Qed.

Lemma upd_upd (A : Type) (l : list A) (i : nat) (x y : A) :
  (i < length l)%nat -> upd (upd l i x) i y = upd l i y.
Proof.
  intros H. apply nth_error_ext. intros j.
  destruct (Nat.eq_dec i j) as [->|Hij].
  - rewrite !upd_same; auto. rewrite upd_length; auto.
  - rewrite !upd_other; auto. rewrite upd_length; auto.
Qed.

Lemma upd_id (A : Type) (l : list A) (i : nat) (x : A) :
  nth_error l i = Some x -> upd l i x = l.
Proof.
  intros H. assert (Hi : (i < length l)%nat) by (apply nth_error_Some; congruence).
  apply nth_error_ext. intros j.
  destruct (Nat.eq_dec i j) as [->|Hij]; [rewrite upd_same; auto|now rewrite upd_other].
Qed.

Ltac ifs := repeat match goal with
  |- context [if ?b then _ else _] => destruct b eqn:? end.

(** * fill_table *)
Lemma land_pow2_testbit (i k : N) : negb (N.land i (2 ^ k) =? 0) = N.testbit i k.
Proof.
  destruct (N.testbit i k) eqn:E.
  - destruct (N.eqb_spec (N.land i (2 ^ k)) 0) as [H|H]; [|reflexivity].
    exfalso. assert (B : N.testbit (N.land i (2 ^ k)) k = true).
    { rewrite N.land_spec, E, N.pow2_bits_true. reflexivity. }
    rewrite H, N.bits_0 in B. discriminate.
  - destruct (N.eqb_spec (N.land i (2 ^ k)) 0) as [H|H]; [reflexivity|].
    exfalso. apply H. apply N.bits_inj. intros j. rewrite N.land_spec, N.bits_0, N.pow2_bits_eqb.
    destruct (N.eqb_spec k j) as [<-|_]; [now rewrite E|apply andb_false_r].
Qed.

Lemma select_xor_high (i k : N) (src : list N) : i < 2 ^ k -> select_xor i src k = 0.
Proof.
  revert k; induction src as [|s src IH]; intros k Hk; [reflexivity|].
  cbn [select_xor]. rewrite (bits_above k i k) by (auto; lia).
  rewrite IH; [reflexivity|]. eapply N.lt_trans; [exact Hk|]. apply N.pow_lt_mono_r; lia.
Qed.

Lemma fill_inner_ok (i : N) (src : list N) : i < 2 ^ 30 ->
  (forall k, 2 ^ k <= i -> (N.to_nat k < length src)%nat) ->
  forall fuel k dist d, (32 <= fuel + k)%nat -> (0 < fuel)%nat -> (k <= 31)%nat ->
  nth_error dist (N.to_nat i) = Some d ->
  fill_inner fuel dist src i (2 ^ N.of_nat k) (N.of_nat k)
  = Ret (upd dist (N.to_nat i)
           (N.lxor d (select_xor i (skipn k src) (N.of_nat k)))).
Proof.
  intros Hi Hsrc. induction fuel as [|f IH]; intros k dist d Hf Hf0 Hk Hd; [lia|].
  assert (Hlen : (N.to_nat i < length dist)%nat) by (apply nth_error_Some; congruence).
  cbn [fill_inner]. destruct (N.leb_spec (2 ^ N.of_nat k) i) as [Hle|Hgt].
  - assert (Hk30 : N.of_nat k < 30).
    { apply (N.pow_lt_mono_r_iff 2); [lia|]. eapply N.le_lt_trans; [exact Hle|exact Hi]. }
    rewrite land_pow2_testbit.
    assert (Hs : (k < length src)%nat) by (pose proof (Hsrc _ Hle); lia).
    destruct (nth_error src k) as [s|] eqn:Es; [|apply nth_error_None in Es; lia].
    assert (Esk : skipn k src = s :: skipn (S k) src).
    { clear -Es. revert src Es. induction k as [|k IH]; intros [|a src] Es; try discriminate.
      - cbn in *. congruence.
      - cbn [skipn]. cbn in Es. rewrite (IH src Es). reflexivity. }
    rewrite Esk. cbn [select_xor].
    assert (Hub : (2 ^ 30 <=? 2 ^ N.of_nat k) = false).
    { apply N.leb_gt. apply N.pow_lt_mono_r; lia. }
    assert (Ek : 2 * 2 ^ N.of_nat k = 2 ^ N.of_nat (S k)).
    { rewrite Nat2N.inj_succ, N.pow_succ_r'. reflexivity. }
    replace (N.of_nat k + 1) with (N.of_nat (S k)) by lia.
    destruct (N.testbit i (N.of_nat k)).
    + rewrite Hd, Nat2N.id, Es. cbn [bind]. rewrite Hub, Ek.
      rewrite (IH (S k) _ (N.lxor d s)); try lia; [|now apply upd_same].
      rewrite upd_upd by auto. now rewrite N.lxor_assoc.
    + cbn [bind]. rewrite Hub, Ek. rewrite N.lxor_0_l. rewrite (IH (S k) _ d); try lia; auto.
  - rewrite select_xor_high by auto. rewrite N.lxor_0_r. now rewrite upd_id.
Qed.

Lemma fill_outer_ok (src : list N) : forall cnt i dist,
  N.of_nat cnt + i <= 2 ^ 30 -> (cnt + N.to_nat i <= length dist)%nat ->
  (forall k, 2 ^ k < N.of_nat cnt + i -> (N.to_nat k < length src)%nat) ->
  exists dist', fill_outer cnt dist src i = Ret dist' /\
    length dist' = length dist /\
    forall j, nth_error dist' j =
      if ((i <=? N.of_nat j) && (N.of_nat j <? N.of_nat cnt + i))
      then option_map (fun d => N.lxor d (select_xor (N.of_nat j) src 0)) (nth_error dist j)
      else nth_error dist j.
Proof.
  induction cnt as [|c IH]; intros i dist Hi Hlen Hsrc.
  - exists dist. cbn [fill_outer]. split; [reflexivity|]. split; [reflexivity|].
    intros j. ifs; [exfalso; lia|reflexivity].
  - cbn [fill_outer].
    destruct (nth_error dist (N.to_nat i)) as [d|] eqn:Ed;
      [|apply nth_error_None in Ed; lia].
    change (fill_inner 33 dist src i 1 0)
      with (fill_inner 33 dist src i (2 ^ N.of_nat 0) (N.of_nat 0)).
    rewrite (fill_inner_ok i src ltac:(lia) ltac:(intros k Hk; apply Hsrc; lia) 33 0 dist d)
      by (auto; lia).
    cbn [bind skipn N.of_nat].
    set (dist1 := upd dist (N.to_nat i) (N.lxor d (select_xor i src 0))).
    assert (L1 : length dist1 = length dist) by (apply upd_length; lia).
    destruct (IH (i + 1) dist1) as (dist' & E & L & H); try lia.
    { intros k Hk. apply Hsrc. lia. }
    exists dist'. split; [exact E|]. split; [lia|].
    intros j. rewrite H. unfold dist1.
    destruct (Nat.eq_dec (N.to_nat i) j) as [<-|Hij].
    + rewrite upd_same by lia. rewrite Ed, N2Nat.id.
      ifs; try reflexivity; exfalso; lia.
    + rewrite upd_other by lia.
      ifs; try reflexivity; exfalso; lia.
Qed.

Lemma fill_table_ok (dist src : list N) (size : N) :
  1 <= size -> size <= 2 ^ 30 -> (N.to_nat size <= length dist)%nat ->
  (forall k, 2 ^ k < size -> (N.to_nat k < length src)%nat) ->
  exists dist', fill_table dist src size = Ret dist' /\
    length dist' = length dist /\
    forall j d, nth_error dist j = Some d ->
      nth_error dist' j =
        Some (if N.of_nat j <? size then N.lxor d (select_xor (N.of_nat j) src 0) else d).
Proof.
  intros H1 Hs Hlen Hsrc. unfold fill_table.
  destruct (fill_outer_ok src (N.to_nat (size - 1)) 1 dist) as (dist' & E & L & H); try lia.
  { intros k Hk. apply Hsrc. lia. }
  exists dist'. split; [exact E|]. split; [exact L|].
  intros j d Hd. rewrite H, Hd.
  destruct (N.ltb_spec (N.of_nat j) size) as [Hj|Hj].
  - ifs; [reflexivity|].
    assert (j = O) by lia. subst j. cbn [N.of_nat].
    rewrite select_xor_high by (cbn; lia). now rewrite N.lxor_0_r.
  - ifs; [exfalso; lia|reflexivity].
Qed.

Lemma select_xor_lxor (i j : N) (src : list N) (k : N) :
  select_xor (N.lxor i j) src k = N.lxor (select_xor i src k) (select_xor j src k).
Proof.
  revert k; induction src as [|s src IH]; intros k; [reflexivity|].
  cbn [select_xor]. rewrite IH, N.lxor_spec.
  set (a := select_xor i src (k + 1)). set (b := select_xor j src (k + 1)).
  apply N.bits_inj. intros n. rewrite !N.lxor_spec.
  destruct (N.testbit i k), (N.testbit j k); cbn [xorb]; rewrite ?N.bits_0;
    destruct (N.testbit s n), (N.testbit a n), (N.testbit b n); reflexivity.
Qed.

(** * getBitOfPos / setBitOfPos *)
Lemma getBitOfPos_ok (w x p : N) : p < w ->
  getBitOfPos w x (Z.of_N p) = Ret (N.b2n (N.testbit x p)).
Proof.
  intros Hp. unfold getBitOfPos. match goal with |- context [if ?b then _ else _] => destruct b eqn:B; [|exfalso; lia] end.
  rewrite N2Z.id. f_equal. change 1 with (N.ones 1). rewrite N.land_ones.
  unfold wshr. rewrite <- N.bit0_mod, N.shiftr_spec by lia. f_equal.
Qed.

Lemma setBitOfPos_ok (w x p b : N) : p < w -> x < 2 ^ w ->
  exists y, setBitOfPos w x (Z.of_N p) b = Ret y /\ y < 2 ^ w /\
    forall i, N.testbit y i = if i =? p then N.testbit b 0 else N.testbit x i.
Proof.
  intros Hp Hx. unfold setBitOfPos. match goal with |- context [if ?b then _ else _] => destruct b eqn:B; [|exfalso; lia] end. clear B.
  rewrite N2Z.id. eexists. split; [reflexivity|]. split.
  - apply lor_lt; [now apply land_lt|apply wshl_lt].
  - intros i. rewrite N.lor_spec, N.land_spec, wshl_spec.
    assert (Hb : forall j, N.testbit (N.land b 1) j = if j =? 0 then N.testbit b 0 else false).
    { intros j. rewrite N.land_spec. change 1 with (2 ^ 0). rewrite N.pow2_bits_eqb.
      rewrite (N.eqb_sym 0 j). destruct (N.eqb_spec j 0) as [->|]; [apply andb_true_r|apply andb_false_r]. }
    rewrite Hb.
    destruct (N.lt_ge_cases i w) as [Hi|Hi].
    + rewrite wnot_spec by auto. rewrite wshl_spec.
      change 1 with (2 ^ 0). rewrite N.pow2_bits_eqb.
      destruct (N.eqb_spec i p) as [->|Hip].
      * rewrite N.sub_diag. cbn [N.eqb].
        replace ((p <? w) && (p <=? p)) with true by lia.
        now rewrite andb_false_r.
      * destruct ((i <? w) && (p <=? i)) eqn:C.
        -- replace (0 =? i - p) with false by lia. replace (i - p =? 0) with false by lia.
           now rewrite andb_true_r, orb_false_r.
        -- now rewrite andb_true_r, orb_false_r.
    + rewrite (bits_above w x i) by auto.
      replace ((i <? w) && (p <=? i)) with false by lia.
      destruct (N.eqb_spec i p); [lia|reflexivity].
Qed.

Lemma setBitOfPos_zero (w p : N) : p < w -> setBitOfPos w 0 (Z.of_N p) 1 = Ret (2 ^ p).
Proof.
  intros Hp. destruct (setBitOfPos_ok w 0 p 1 Hp (pow2_pos w)) as (y & E & Hy & H).
  rewrite E. f_equal. apply N.bits_inj. intros i. rewrite H, N.bits_0, N.pow2_bits_eqb.
  rewrite (N.eqb_sym p i). now destruct (i =? p).
Qed.

(** * Vectors *)
Lemma toGF2Vec_loop_ok (value : N) : forall cnt : nat,
  toGF2Vec_loop (S cnt) value (2 ^ N.of_nat cnt)
  = map (fun i => N.testbit value (N.of_nat i)) (rev (seq 0 (S cnt))).
Proof.
  induction cnt as [|c IH].
  - cbn [toGF2Vec_loop seq rev app map]. rewrite land_pow2_testbit. reflexivity.
  - assert (E : toGF2Vec_loop (S (S c)) value (2 ^ N.of_nat (S c))
              = negb (N.land value (2 ^ N.of_nat (S c)) =? 0)
                :: toGF2Vec_loop (S c) value (wshr (2 ^ N.of_nat (S c)) 1)) by reflexivity.
    rewrite E. rewrite land_pow2_testbit.
    replace (wshr (2 ^ N.of_nat (S c)) 1) with (2 ^ N.of_nat c).
    + rewrite IH. rewrite (seq_S (S c)). rewrite rev_app_distr. reflexivity.
    + unfold wshr. rewrite N.shiftr_div_pow2, Nat2N.inj_succ, N.pow_succ_r'.
      change (2 ^ 1) with 2. rewrite N.mul_comm, N.div_mul; lia.
Qed.

Lemma toGF2Vec_ok (w value : N) : 0 < w ->
  toGF2Vec w value = map (fun i => N.testbit value (N.of_nat i)) (rev (seq 0 (N.to_nat w))).
Proof.
  intros Hw. unfold toGF2Vec.
  replace (N.to_nat w) with (S (N.to_nat (w - 1))) by lia.
  replace (wshl w 1 (w - 1)) with (2 ^ N.of_nat (N.to_nat (w - 1))).
  - apply toGF2Vec_loop_ok.
  - unfold wshl. rewrite N.shiftl_mul_pow2, N.mul_1_l, N2Nat.id.
    symmetry. apply trunc_small. apply N.pow_lt_mono_r; lia.
Qed.

Lemma nth_error_rev_seq (n i : nat) : (i < n)%nat ->
  nth_error (rev (seq 0 n)) i = Some (n - 1 - i)%nat.
Proof.
  intros Hi. rewrite (nth_error_nth' _ O) by (rewrite rev_length, seq_length; lia).
  rewrite rev_nth; rewrite seq_length; [|lia]. rewrite seq_nth by lia. f_equal. lia.
Qed.

Lemma toGF2Vec_nth (w value : N) (i : nat) : (i < N.to_nat w)%nat ->
  nth_error (toGF2Vec w value) i = Some (N.testbit value (w - 1 - N.of_nat i)).
Proof.
  intros Hi. rewrite toGF2Vec_ok by lia.
  rewrite nth_error_map, nth_error_rev_seq by auto. cbn [option_map]. do 2 f_equal. lia.
Qed.
Lemma toGF2Vec_length (w value : N) : 0 < w -> length (toGF2Vec w value) = N.to_nat w.
Proof. intros Hw. rewrite toGF2Vec_ok by auto. now rewrite map_length, rev_length, seq_length. Qed.

(** Value of a bit list, most significant bit first. *)
Definition bits_val (v : list bool) : N := fold_left (fun a (b : bool) => 2 * a + N.b2n b) v 0.

Lemma fold_bits_val (v : list bool) (a : N) :
  fold_left (fun a (b : bool) => 2 * a + N.b2n b) v a
  = a * 2 ^ N.of_nat (length v) + bits_val v.
Proof.
  unfold bits_val. revert a; induction v as [|b v IH]; intros a.
  - cbn [fold_left length N.of_nat]. change (2 ^ 0) with 1. lia.
  - cbn [fold_left length]. rewrite IH, (IH (2 * 0 + _)), Nat2N.inj_succ, N.pow_succ_r'. lia.
Qed.

Lemma bits_val_cons (b : bool) (v : list bool) :
  bits_val (b :: v) = N.b2n b * 2 ^ N.of_nat (length v) + bits_val v.
Proof. unfold bits_val at 1. cbn [fold_left]. rewrite fold_bits_val. lia. Qed.

Lemma bits_val_lt (v : list bool) : bits_val v < 2 ^ N.of_nat (length v).
Proof.
  induction v as [|b v IH]; [reflexivity|]. rewrite bits_val_cons. cbn [length].
  rewrite Nat2N.inj_succ, N.pow_succ_r'. destruct b; cbn [N.b2n]; lia.
Qed.

Lemma junk_loop_ok (junk w : N) : forall (v : list bool) (result : N),
  N.of_nat (length v) <= w ->
  (forall i, N.of_nat (length v) > i -> N.testbit result i = false) ->
  forall mask, (v <> [] -> mask = 2 ^ (N.of_nat (length v) - 1)) ->
  fromGF2Vec_junk_loop junk w v (length v) (Z.of_N (N.of_nat (length v)) - 1) mask result
  = Ret (N.lxor result (bits_val v)).
Proof.
  induction v as [|b v IH]; intros result Hw Hr mask Hm.
  - cbn [length fromGF2Vec_junk_loop]. unfold bits_val. cbn [fold_left]. now rewrite N.lxor_0_r.
  - rewrite (Hm ltac:(discriminate)). cbn [length fromGF2Vec_junk_loop].
    replace (Z.of_N (N.of_nat (S (length v))) - 1 - 1)%Z
      with (Z.of_N (N.of_nat (length v)) - 1)%Z by lia.
    replace (N.of_nat (S (length v)) - 1) with (N.of_nat (length v)) by lia.
    set (k := N.of_nat (length v)) in *.
    assert (Eres : (if b then N.lor result (2 ^ k) else result)
                   = N.lxor result (N.b2n b * 2 ^ k)).
    { destruct b; cbn [N.b2n].
      - rewrite N.mul_1_l. apply N.bits_inj. intros i.
        rewrite N.lor_spec, N.lxor_spec, N.pow2_bits_eqb.
        destruct (N.eqb_spec k i) as [<-|_].
        + rewrite Hr; [reflexivity|]. cbn [length]. lia.
        + now destruct (N.testbit result i).
      - now rewrite N.mul_0_l, N.lxor_0_r. }
    rewrite Eres, IH.
    + f_equal. rewrite N.lxor_assoc. f_equal. rewrite bits_val_cons. fold k.
      symmetry. apply N.add_nocarry_lxor.
      apply N.bits_inj. intros i. rewrite N.land_spec, N.bits_0.
      destruct (N.lt_ge_cases i k) as [Hi|Hi].
      * rewrite N.mul_pow2_bits_low by auto. reflexivity.
      * rewrite (bits_above k (bits_val v) i); [apply andb_false_r|apply bits_val_lt|auto].
    + cbn [length] in Hw. unfold k. lia.
    + intros i Hi. rewrite N.lxor_spec, Hr by (cbn [length]; lia).
      rewrite N.mul_pow2_bits_low by (unfold k; lia). reflexivity.
    + intros Hv. unfold setBitOfPos_junk.
      assert (Hk : 0 < k) by (unfold k; destruct v; [congruence|cbn; lia]).
      replace (Z.of_N k - 1)%Z with (Z.of_N (k - 1)) by lia.
      rewrite setBitOfPos_zero; [reflexivity|]. cbn [length] in Hw. unfold k. lia.
Qed.

Lemma fromGF2Vec_junk_ok (junk w : N) (v : list bool) :
  0 < w -> length v = N.to_nat w -> fromGF2Vec_junk junk w v = Ret (bits_val v).
Proof.
  intros Hw Hv. unfold fromGF2Vec_junk. cbv zeta.
  replace (Z.of_N w - 1)%Z with (Z.of_N (N.of_nat (length v)) - 1)%Z by lia.
  rewrite <- Hv. rewrite junk_loop_ok.
  - now rewrite N.lxor_0_l.
  - lia.
  - intros i _. apply N.bits_0.
  - intros _. unfold setBitOfPos_junk.
    replace (Z.of_N (N.of_nat (length v)) - 1)%Z with (Z.of_N (N.of_nat (length v) - 1)) by lia.
    rewrite setBitOfPos_zero by lia. reflexivity.
Qed.

Lemma bits_val_testbit (v : list bool) (i : nat) : (i < length v)%nat ->
  nth_error v i = Some (N.testbit (bits_val v) (N.of_nat (length v - 1 - i))).
Proof.
  revert i; induction v as [|b v IH]; intros i Hi; [cbn in Hi; lia|].
  rewrite bits_val_cons, cat_spec by apply bits_val_lt.
  destruct i as [|i].
  - cbn [nth_error length]. destruct (N.ltb_spec (N.of_nat (S (length v) - 1 - 0)) (N.of_nat (length v))); [lia|].
    replace (N.of_nat (S (length v) - 1 - 0) - N.of_nat (length v)) with 0 by lia.
    now destruct b.
  - cbn [nth_error length] in *. rewrite IH by lia.
    destruct (N.ltb_spec (N.of_nat (S (length v) - 1 - S i)) (N.of_nat (length v))); [|lia].
    do 3 f_equal. lia.
Qed.

Lemma from_to_GF2Vec (junk w x : N) : 0 < w -> x < 2 ^ w ->
  fromGF2Vec_junk junk w (toGF2Vec w x) = Ret x.
Proof.
  intros Hw Hx. rewrite fromGF2Vec_junk_ok by (auto using toGF2Vec_length).
  f_equal. pose proof (toGF2Vec_length w x Hw) as L.
  apply (word_ext w); [|auto|].
  - pose proof (bits_val_lt (toGF2Vec w x)) as H. rewrite L, N2Nat.id in H. exact H.
  - intros i Hi.
    pose proof (bits_val_testbit (toGF2Vec w x) (N.to_nat (w - 1 - i)) ltac:(lia)) as H1.
    pose proof (toGF2Vec_nth w x (N.to_nat (w - 1 - i)) ltac:(lia)) as H2.
    rewrite H1 in H2. injection H2 as H2. rewrite L in H2.
    replace (N.of_nat (N.to_nat w - 1 - N.to_nat (w - 1 - i))) with i in H2 by lia.
    replace (w - 1 - N.of_nat (N.to_nat (w - 1 - i))) with i in H2 by lia.
    exact H2.
Qed.

Lemma to_from_GF2Vec (junk w : N) (v : list bool) : 0 < w -> length v = N.to_nat w ->
  exists x, fromGF2Vec_junk junk w v = Ret x /\ x < 2 ^ w /\ toGF2Vec w x = v.
Proof.
  intros Hw Hv. exists (bits_val v). split; [now apply fromGF2Vec_junk_ok|]. split.
  - pose proof (bits_val_lt v) as H. rewrite Hv, N2Nat.id in H. exact H.
  - apply nth_error_ext. intros i.
    destruct (Nat.lt_ge_cases i (N.to_nat w)) as [Hi|Hi].
    + rewrite toGF2Vec_nth by auto. rewrite bits_val_testbit by lia.
      do 2 f_equal. lia.
    + assert (H1 : nth_error v i = None) by (apply nth_error_None; lia).
      assert (H2 : nth_error (toGF2Vec w (bits_val v)) i = None)
        by (apply nth_error_None; rewrite toGF2Vec_length by auto; lia).
      congruence.
Qed.

(** Strictly read, the conversion always executes a shift by -1. *)
Lemma from_loop_undef (w : N) : forall (v : list bool) (mask result : N),
  v <> [] -> N.of_nat (length v) <= w ->
  fromGF2Vec_loop w v (length v) (Z.of_N (N.of_nat (length v)) - 1) mask result = Undef.
Proof.
  induction v as [|b v IH]; intros mask result Hne Hw; [congruence|].
  cbn [length fromGF2Vec_loop].
  replace (Z.of_N (N.of_nat (S (length v))) - 1 - 1)%Z
    with (Z.of_N (N.of_nat (length v)) - 1)%Z by lia.
  destruct v as [|b' v'].
  - cbn [length]. unfold setBitOfPos. cbn. reflexivity.
  - replace (Z.of_N (N.of_nat (length (b' :: v'))) - 1)%Z
      with (Z.of_N (N.of_nat (length (b' :: v')) - 1)) by (cbn [length]; lia).
    rewrite setBitOfPos_zero by (cbn [length] in *; lia). cbn [bind].
    replace (Z.of_N (N.of_nat (length (b' :: v')) - 1))
      with (Z.of_N (N.of_nat (length (b' :: v'))) - 1)%Z by (cbn [length]; lia).
    apply IH; [discriminate|cbn [length] in *; lia].
Qed.

Lemma fromGF2Vec_undef (w : N) (v : list bool) : 0 < w -> length v = N.to_nat w ->
  fromGF2Vec w v = Undef.
Proof.
  intros Hw Hv. unfold fromGF2Vec. cbv zeta.
  replace (Z.of_N w - 1)%Z with (Z.of_N (w - 1)) by lia.
  rewrite setBitOfPos_zero by lia. cbn [bind].
  replace (Z.of_N (w - 1)) with (Z.of_N (N.of_nat (length v)) - 1)%Z by lia.
  rewrite <- Hv. apply from_loop_undef; [|lia].
  destruct v; [cbn in Hv; lia|discriminate].
Qed.
