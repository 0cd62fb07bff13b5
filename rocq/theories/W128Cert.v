(** Proofs about the byte shifts of SFMT and the period certification. *)
From Coq Require Import NArith ZArith List Bool Lia ZifyBool ZifyNat ZifyN.
From Verif Require Import Base UtilModel WordLemmas UtilSpec UtilProofs UtilProofs2 UtilProofs3 W128Model W128Spec W128Proofs.
Local Open Scope N_scope.

Lemma shiftr32_lt x : x < 2 ^ 64 -> wshr x 32 < 2 ^ 32.
Proof.
  intros H. apply lt_pow2_bits. intros i Hi. rewrite wshr_spec. apply (bits_above 64); [auto|lia].
Qed.
Lemma join32 x : x < 2 ^ 64 -> N.lor (wshl 64 (wshr x 32) 32) (trunc 32 x) = x.
Proof.
  intros H. apply (word_ext 64); [apply lor_lt; [apply wshl_lt|apply N.lt_trans with (2 ^ 32); [apply trunc_lt|reflexivity]]|auto|].
  intros i Hi. rewrite N.lor_spec, wshl_spec, wshr_spec, trunc_spec. ncases; cbn [andb orb]; [reflexivity|]. rewrite orb_false_r. f_equal. lia.
Qed.
Lemma join32' x : x < 2 ^ 64 -> N.lor (trunc 32 x) (N.shiftl (trunc 32 (wshr x 32)) 32) = x.
Proof.
  intros H. rewrite (trunc_small 32 (wshr x 32)) by now apply shiftr32_lt. rewrite <- (join32 x H) at 3. rewrite N.lor_comm. f_equal.
  unfold wshl. rewrite trunc_small; auto. rewrite N.shiftl_mul_pow2. change (2 ^ 64) with (2 ^ 32 * 2 ^ 32). pose proof (shiftr32_lt x H). nia.
Qed.
Lemma of32_halves a b : a < 2 ^ 64 -> b < 2 ^ 64 -> w_of32 (trunc 32 a) (trunc 32 (wshr a 32)) (trunc 32 b) (trunc 32 (wshr b 32)) = W128 a b.
Proof. intros A B. unfold w_of32. now rewrite !join32'. Qed.

Lemma rshift128_shr x s : wok x -> (1 <= s <= 7)%Z -> rshift128 x s = w_shr x (s * 8).
Proof.
  intros [A B] H. unfold rshift128, w_shr, w32. rewrite !join32, !shr64_ok, !shl64_ok by (auto; lia). cbn [bind]. zcases.
  rewrite of32_halves; [now rewrite N.lor_comm|apply lor_lt; [now apply shiftr_lt|apply wshl_lt]|now apply shiftr_lt].
Qed.
Lemma lshift128_shl x s : wok x -> (1 <= s <= 7)%Z -> lshift128 x s = w_shl x (s * 8).
Proof.
  intros [A B] H. unfold lshift128, w_shl, w32. rewrite !join32, !shr64_ok, !shl64_ok by (auto; lia). cbn [bind]. zcases.
  rewrite of32_halves; [now rewrite N.lor_comm|apply wshl_lt|apply lor_lt; [apply wshl_lt|now apply shiftr_lt]].
Qed.
Lemma rshift128_ok x s : wok x -> (1 <= s <= 7)%Z -> exists r, rshift128 x s = Ret r /\ wok r /\ wval r = wval x / 2 ^ (8 * Z.to_N s).
Proof. intros A H. rewrite rshift128_shr by auto. replace (8 * Z.to_N s) with (Z.to_N (s * 8)) by lia. apply w_shr_spec; [auto|lia]. Qed.
Lemma lshift128_ok x s : wok x -> (1 <= s <= 7)%Z -> exists r, lshift128 x s = Ret r /\ wok r /\ wval r = (wval x * 2 ^ (8 * Z.to_N s)) mod 2 ^ 128.
Proof. intros A H. rewrite lshift128_shl by auto. replace (8 * Z.to_N s) with (Z.to_N (s * 8)) by lia. apply w_shl_spec; [auto|lia]. Qed.
Lemma shift128_bad x s : ~ (1 <= s <= 7)%Z -> rshift128 x s = Undef /\ lshift128 x s = Undef.
Proof.
  intros H. unfold rshift128, lshift128. destruct (Z.eq_dec s 0) as [->|N0].
  - split; reflexivity.
  - split; [rewrite (shr64_bad _ (s * 8))|rewrite (shl64_bad _ (s * 8))]; try lia; reflexivity.
Qed.

(** The 32-bit words are the digits to the base 2^32. *)
Lemma w32_bit x i j : wok x -> (i < 4)%nat -> N.testbit (w32 x i) j = if j <? 32 then N.testbit (wval x) (32 * N.of_nat i + j) else false.
Proof.
  intros W H. rewrite wval_bit by auto. pose proof W as [A B].
  destruct i as [|[|[|[|i]]]]; [| | | |lia]; cbn [w32]; rewrite ?trunc_spec, ?wshr_spec; ncases; auto; try (f_equal; lia).
  - apply top64; [auto|lia].
  - apply top64; [auto|lia].
Qed.
Lemma w32_lt x i : wok x -> w32 x i < 2 ^ 32.
Proof. intros [A B]. destruct i as [|[|[|i]]]; cbn [w32]; auto using trunc_lt, shiftr32_lt. Qed.
Lemma w32_and a b i : w32 (w_and a b) i = N.land (w32 a i) (w32 b i).
Proof.
  apply N.bits_inj. intros j. destruct i as [|[|[|i]]]; cbn [w32 w_and u0 u1]; rewrite ?trunc_spec, ?wshr_spec, !N.land_spec, ?trunc_spec, ?wshr_spec; try reflexivity; ncases; reflexivity.
Qed.
Lemma of32_ok a b c d : a < 2 ^ 32 -> b < 2 ^ 32 -> c < 2 ^ 32 -> d < 2 ^ 32 ->
  wok (w_of32 a b c d) /\ forall i, N.testbit (wval (w_of32 a b c d)) i =
    if i <? 32 then N.testbit a i else if i <? 64 then N.testbit b (i - 32) else if i <? 96 then N.testbit c (i - 64) else N.testbit d (i - 96).
Proof.
  assert (J : forall x y, x < 2 ^ 32 -> y < 2 ^ 32 -> N.lor x (N.shiftl y 32) < 2 ^ 64).
  { intros x y X Y. apply lor_lt; [apply N.lt_trans with (2 ^ 32); [auto|reflexivity]|].
    rewrite N.shiftl_mul_pow2. change (2 ^ 64) with (2 ^ 32 * 2 ^ 32). nia. }
  assert (K : forall x y j, x < 2 ^ 32 -> N.testbit (N.lor x (N.shiftl y 32)) j = if j <? 32 then N.testbit x j else N.testbit y (j - 32)).
  { intros x y j X. rewrite N.lor_spec. destruct (N.ltb_spec j 32).
    - rewrite N.shiftl_spec_low by auto. apply orb_false_r.
    - rewrite N.shiftl_spec_high, (bits_above 32 x) by (auto; lia). reflexivity. }
  intros A B C D. assert (W : wok (w_of32 a b c d)) by (split; apply J; auto). split; [auto|].
  intros i. rewrite wval_bit by auto. cbn [u0 u1 w_of32]. rewrite !K by auto. ncases; auto; f_equal; lia.
Qed.
Lemma put32_ok x i v : wok x -> (i < 4)%nat -> v < 2 ^ 32 ->
  wok (w_put32 x i v) /\ forall j, N.testbit (wval (w_put32 x i v)) j =
    if (32 * N.of_nat i <=? j) && (j <? 32 * N.of_nat i + 32) then N.testbit v (j - 32 * N.of_nat i) else N.testbit (wval x) j.
Proof.
  intros W H V. assert (T : forall j, 128 <= j -> N.testbit (wval x) j = false) by (intros; apply (bits_above 128); [now apply wval_lt|auto]).
  pose proof (fun k => w32_lt x k W) as L.
  destruct i as [|[|[|[|i]]]]; [| | | |lia]; cbn [w_put32];
  match goal with |- wok (w_of32 ?a ?b ?c ?d) /\ _ => destruct (of32_ok a b c d) as [W' E]; auto end; split; auto; intros j; rewrite E, ?w32_bit by (auto; lia);
  ncases; cbn [andb]; rewrite ?T by lia; auto; try (f_equal; lia); (rewrite (bits_above 32 v) by (auto; lia); reflexivity).
Qed.

Lemma put_flip x i k : wok x -> (i < 4)%nat -> k < 32 ->
  wok (w_put32 x i (N.lxor (w32 x i) (2 ^ k))) /\ flips (wval x) (wval (w_put32 x i (N.lxor (w32 x i) (2 ^ k)))) (32 * N.of_nat i + k).
Proof.
  intros W H K. assert (P : 2 ^ k < 2 ^ 32) by (apply N.pow_lt_mono_r; lia).
  destruct (put32_ok x i (N.lxor (w32 x i) (2 ^ k)) W H) as [W' E]. { apply lxor_lt; auto using w32_lt. }
  split; [auto|]. intros j. rewrite E. rewrite N.lxor_spec, w32_bit by auto.
  destruct (N.eqb_spec j (32 * N.of_nat i + k)) as [->|J].
  - ncases. cbn [andb]. replace (32 * N.of_nat i + k - 32 * N.of_nat i) with k by lia. rewrite N.pow2_bits_true. apply xorb_true_r.
  - ncases; cbn [andb]; auto. rewrite N.pow2_bits_false by lia. rewrite xorb_false_r. f_equal. lia.
Qed.

(** Parity of the number of ones. *)
Definition parl (f : nat -> bool) (s n : nat) : bool := fold_right xorb false (map f (seq s n)).
Lemma odd_filter {A} (f : A -> bool) l : Nat.odd (length (filter f l)) = fold_right xorb false (map f l).
Proof.
  induction l as [|a l IH]; [reflexivity|]. cbn [filter map fold_right]. destruct (f a); cbn [length].
  - rewrite Nat.odd_succ, <- Nat.negb_odd, IH. now destruct (fold_right _ _ _).
  - rewrite IH. now destruct (fold_right _ _ _).
Qed.
Lemma parl_ext f g s n : (forall i, (s <= i < s + n)%nat -> f i = g i) -> parl f s n = parl g s n.
Proof. intros H. unfold parl. f_equal. apply map_ext_in. intros i Hi. apply in_seq in Hi. auto. Qed.
Lemma parl_flip f k n : forall s, parl (fun j => xorb (f j) (j =? k)%nat) s n = xorb ((s <=? k)%nat && (k <? s + n)%nat) (parl f s n).
Proof.
  unfold parl. induction n as [|n IH]; intros s; cbn [seq map fold_right].
  - destruct (Nat.leb_spec s k), (Nat.ltb_spec k (s + 0)); auto; lia.
  - rewrite IH. destruct (Nat.eqb_spec s k), (Nat.leb_spec s k), (Nat.leb_spec (S s) k), (Nat.ltb_spec k (S s + n)), (Nat.ltb_spec k (s + S n)); try lia; cbn [andb];
      destruct (f s), (fold_right xorb false (map f (seq (S s) n))); auto.
Qed.
Lemma inner_parl a b : inner a b = parl (fun i => N.testbit a (N.of_nat i) && N.testbit b (N.of_nat i)) 0 128.
Proof. unfold inner, popcount, parl. rewrite odd_filter. f_equal. apply map_ext. intros i. apply N.land_spec. Qed.

Lemma inner_flip a a' b i : i < 128 -> flips a a' i -> N.testbit b i = true -> inner a' b = negb (inner a b).
Proof.
  intros L F B. rewrite !inner_parl. rewrite (parl_ext _ (fun j => xorb (N.testbit a (N.of_nat j) && N.testbit b (N.of_nat j)) (j =? N.to_nat i)%nat)).
  - rewrite parl_flip. destruct (Nat.leb_spec 0 (N.to_nat i)), (Nat.ltb_spec (N.to_nat i) (0 + 128)); try lia. now destruct (parl _ _ _).
  - intros j Hj. rewrite F. destruct (N.eqb_spec (N.of_nat j) i) as [E|E].
    + subst i. rewrite Nat2N.id, Nat.eqb_refl, B. now destruct (N.testbit a _).
    + destruct (Nat.eqb_spec j (N.to_nat i)); [lia|]. now rewrite xorb_false_r.
Qed.

Lemma popcount_app m n x : popcount (m + n) x = (popcount m x + popcount n (N.shiftr x (N.of_nat m)))%nat.
Proof.
  unfold popcount. rewrite seq_app, filter_app, app_length. f_equal. cbn [Nat.add].
  assert (G : forall n s, length (filter (fun i => N.testbit x (N.of_nat i)) (seq (s + m) n)) = length (filter (fun i => N.testbit (N.shiftr x (N.of_nat m)) (N.of_nat i)) (seq s n))).
  { clear. induction n as [|n IH]; intros s; [reflexivity|]. cbn [seq filter]. rewrite shiftr_bit. replace (N.of_nat s + N.of_nat m) with (N.of_nat (s + m)) by lia.
    specialize (IH (S s)). cbn [Nat.add] in IH. destruct (N.testbit x (N.of_nat (s + m))); cbn [length]; now rewrite IH. }
  apply (G n 0%nat).
Qed.
Lemma popcount_ext w x y : (forall i, i < N.of_nat w -> N.testbit x i = N.testbit y i) -> popcount w x = popcount w y.
Proof. intros H. unfold popcount. f_equal. apply filter_ext_in. intros i Hi. apply in_seq in Hi. apply H. lia. Qed.

Lemma ones_sum x : wok x -> (popcount 128 (wval x) = popcount 32 (w32 x 0) + popcount 32 (w32 x 1) + popcount 32 (w32 x 2) + popcount 32 (w32 x 3))%nat.
Proof.
  intros W. assert (G : forall i y, (i < 4)%nat -> (forall j, N.testbit y j = N.testbit (wval x) (32 * N.of_nat i + j)) -> popcount 32 (w32 x i) = popcount 32 y).
  { intros i y I Y. apply popcount_ext. intros j Hj. rewrite w32_bit, Y by auto. destruct (N.ltb_spec j 32); [reflexivity|lia]. }
  rewrite (G 0%nat (wval x)), (G 1%nat (N.shiftr (wval x) 32)), (G 2%nat (N.shiftr (N.shiftr (wval x) 32) 32)), (G 3%nat (N.shiftr (N.shiftr (N.shiftr (wval x) 32) 32) 32)); try lia;
    try (intros j; rewrite !shiftr_bit; apply (f_equal (N.testbit (wval x))); lia); try (intros j; reflexivity).
  rewrite (popcount_app 32 96), (popcount_app 32 64), (popcount_app 32 32). rewrite !Nat.add_assoc. reflexivity.
Qed.

Lemma pc_bits_ok cnt : forall k st par i, wok st -> wok par -> (i < 4)%nat -> (k + cnt = 32)%nat ->
  match pc_bits cnt (2 ^ N.of_nat k) st par i with
  | Some st' => exists j, (k <= j < 32)%nat /\ N.testbit (w32 par i) (N.of_nat j) = true /\
      (forall l, (k <= l < j)%nat -> N.testbit (w32 par i) (N.of_nat l) = false) /\
      st' = w_put32 st i (N.lxor (w32 st i) (2 ^ N.of_nat j))
  | None => forall l, (k <= l < 32)%nat -> N.testbit (w32 par i) (N.of_nat l) = false
  end.
Proof.
  induction cnt as [|c IH]; intros k st par i A B I K; cbn [pc_bits]; [intros l Hl; lia|].
  assert (T : (N.land (2 ^ N.of_nat k) (w32 par i) =? 0) = negb (N.testbit (w32 par i) (N.of_nat k))).
  { destruct (N.testbit (w32 par i) (N.of_nat k)) eqn:E; cbn [negb].
    - apply N.eqb_neq. intros Z. assert (Y : N.testbit (N.land (2 ^ N.of_nat k) (w32 par i)) (N.of_nat k) = true) by (rewrite N.land_spec, N.pow2_bits_true, E; reflexivity).
      rewrite Z, N.bits_0 in Y. discriminate.
    - apply N.eqb_eq. apply N.bits_inj. intros j. rewrite N.land_spec, N.bits_0, N.pow2_bits_eqb. destruct (N.eqb_spec (N.of_nat k) j); [subst; now rewrite E|reflexivity]. }
  rewrite T, negb_involutive. destruct (N.testbit (w32 par i) (N.of_nat k)) eqn:E.
  - exists k. split; [lia|]. split; [auto|]. split; [lia|reflexivity].
  - destruct c as [|c']. { cbn [pc_bits]. intros l Hl. replace l with k by lia. auto. }
    assert (S2 : wshl 32 (2 ^ N.of_nat k) 1 = 2 ^ N.of_nat (S k)).
    { unfold wshl. rewrite N.shiftl_mul_pow2. change (2 ^ 1) with 2. rewrite N.mul_comm, <- N.pow_succ_r by lia. rewrite <- Nnat.Nat2N.inj_succ. apply trunc_small. apply N.pow_lt_mono_r; lia. }
    rewrite S2. specialize (IH (S k) st par i A B I ltac:(lia)). destruct (pc_bits _ _ _ _ _) as [st'|].
    + destruct IH as [j [J1 [J2 [J3 J4]]]]. exists j. split; [lia|]. split; [auto|]. split; [|auto]. intros l Hl. destruct (Nat.eq_dec l k); [subst; auto|apply J3; lia].
    + intros l Hl. destruct (Nat.eq_dec l k); [subst; auto|apply IH; lia].
Qed.

(** The lowest one bit of the parity vector decides which bit is changed. *)
Definition first_flip (st st' par : N) : Prop :=
  exists i, i < 128 /\ N.testbit par i = true /\ (forall j, j < i -> N.testbit par j = false) /\ flips st st' i.

Lemma flip_at st par i k : wok st -> wok par -> (i < 4)%nat -> (k < 32)%nat ->
  (forall j, j < 32 * N.of_nat i -> N.testbit (wval par) j = false) ->
  N.testbit (w32 par i) (N.of_nat k) = true -> (forall l, (0 <= l < k)%nat -> N.testbit (w32 par i) (N.of_nat l) = false) ->
  wok (w_put32 st i (N.lxor (w32 st i) (2 ^ N.of_nat k))) /\ first_flip (wval st) (wval (w_put32 st i (N.lxor (w32 st i) (2 ^ N.of_nat k)))) (wval par).
Proof.
  intros A B I K L T F. destruct (put_flip st i (N.of_nat k) A I ltac:(lia)) as [W P]. split; [auto|].
  exists (32 * N.of_nat i + N.of_nat k). split; [lia|]. split.
  { rewrite w32_bit in T by auto. destruct (N.of_nat k <? 32); [auto|discriminate]. }
  split; [|auto]. intros j Hj. destruct (N.lt_ge_cases j (32 * N.of_nat i)); [auto|].
  specialize (F (N.to_nat (j - 32 * N.of_nat i)) ltac:(lia)). rewrite w32_bit in F by auto. destruct (N.ltb_spec (N.of_nat (N.to_nat (j - 32 * N.of_nat i))) 32); [|lia].
  rewrite <- F. f_equal. lia.
Qed.
Lemma pc_words_ok cnt : forall i st par, wok st -> wok par -> (i + cnt = 4)%nat ->
  (forall j, j < 32 * N.of_nat i -> N.testbit (wval par) j = false) -> wval par <> 0 ->
  fst (pc_words cnt i st par) = 0%Z /\ wok (snd (pc_words cnt i st par)) /\ first_flip (wval st) (wval (snd (pc_words cnt i st par))) (wval par).
Proof.
  induction cnt as [|c IH]; intros i st par A B I L NZ; cbn [pc_words].
  - exfalso. apply NZ. apply N.bits_inj. intros j. rewrite N.bits_0. destruct (N.lt_ge_cases j 128); [apply L; lia|apply (bits_above 128); [now apply wval_lt|auto]].
  - pose proof (pc_bits_ok 32 0 st par i A B ltac:(lia) ltac:(lia)) as P. change (2 ^ N.of_nat 0) with 1 in P. destruct (pc_bits 32 1 st par i) as [st'|].
    + destruct P as [k [K1 [K2 [K3 ->]]]]. cbn [fst snd]. split; [auto|]. apply flip_at; auto; lia.
    + apply IH; auto; [lia|]. intros j Hj. destruct (N.lt_ge_cases j (32 * N.of_nat i)); [auto|].
      specialize (P (N.to_nat (j - 32 * N.of_nat i)) ltac:(lia)). rewrite w32_bit in P by (auto; lia). destruct (N.ltb_spec (N.of_nat (N.to_nat (j - 32 * N.of_nat i))) 32); [|lia].
      rewrite <- P. f_equal. lia.
Qed.

Lemma odd_land c : (Z.land (Z.of_nat c) 1 =? 1)%Z = Nat.odd c.
Proof.
  change 1%Z with (Z.ones 1). rewrite Z.land_ones by lia. change (2 ^ 1)%Z with 2%Z. change (Z.ones 1) with 1%Z. rewrite Zmod_odd.
  destruct (Z.odd (Z.of_nat c)) eqn:E; rewrite Zodd_even_bool in E; destruct (Nat.odd c) eqn:F; auto; exfalso.
  - rewrite <- Nat.negb_even in F. apply negb_false_iff in F. apply Nat.even_spec in F. destruct F as [d ->]. apply negb_true_iff in E. replace (Z.of_nat (2 * d)) with (2 * Z.of_nat d)%Z in E by lia. rewrite Z.even_mul in E. discriminate.
  - apply Nat.odd_spec in F. destruct F as [d ->]. apply negb_false_iff in E. replace (Z.of_nat (2 * d + 1)) with (1 + 2 * Z.of_nat d)%Z in E by lia. rewrite Z.even_add_mul_2 in E. discriminate.
Qed.

Lemma cert_test st par : wok st -> wok par ->
  (Z.land (Z.of_N (count_bit32 (w32 (w_and st par) 0)) + Z.of_N (count_bit32 (w32 (w_and st par) 1)) + Z.of_N (count_bit32 (w32 (w_and st par) 2)) + Z.of_N (count_bit32 (w32 (w_and st par) 3))) 1 =? 1)%Z
  = inner (wval st) (wval par).
Proof.
  intros A B. destruct (w_and_ok st par A B) as [W E]. rewrite !count_bit32_ok by now apply w32_lt. unfold inner. rewrite <- E, ones_sum by auto.
  rewrite !nat_N_Z, <- !Nat2Z.inj_add. apply odd_land.
Qed.

Lemma cert_cases st par : wok st -> wok par -> wval par <> 0 ->
  (inner (wval st) (wval par) = true -> periodCertification st par = (1%Z, st)) /\
  (inner (wval st) (wval par) = false -> exists st', periodCertification st par = (0%Z, st') /\ wok st' /\ first_flip (wval st) (wval st') (wval par)).
Proof.
  intros A B NZ. unfold periodCertification. rewrite cert_test by auto. split; intros ->; [reflexivity|].
  destruct (N.eqb_spec (N.land (w32 par 0) 1) 1) as [E|E].
  - eexists. split; [reflexivity|]. apply (flip_at st par 0 0); auto; try lia. rewrite land1 in E. cbn [N.of_nat]. now destruct (N.testbit (w32 par 0) 0).
  - destruct (pc_words_ok 4 0 st par A B ltac:(lia) ltac:(intros; lia) NZ) as [F G]. destruct (pc_words 4 0 st par) as [r s]. cbn [fst snd] in *. subst r. exists s. auto.
Qed.
Lemma cert_ok st par : wok st -> wok par -> wval par <> 0 ->
  wok (snd (periodCertification st par)) /\ inner (wval (snd (periodCertification st par))) (wval par) = true.
Proof.
  intros A B NZ. destruct (cert_cases st par A B NZ) as [T F]. destruct (inner (wval st) (wval par)) eqn:E.
  - rewrite T by auto. auto.
  - destruct (F eq_refl) as [st' [-> [W [i [I [P [_ Q]]]]]]]. cbn [snd]. split; [auto|]. rewrite (inner_flip _ _ _ i I Q P), E. reflexivity.
Qed.
Lemma cert_zero st : periodCertification st w_zero = (0%Z, st).
Proof.
  unfold periodCertification. replace (w_and st w_zero) with w_zero by (unfold w_and, w_zero; cbn [u0 u1]; now rewrite !N.land_0_r).
  vm_compute. reflexivity.
Qed.

(** * dSFMT *)
Lemma ones_sum64 x : wok x -> (popcount 128 (wval x) = popcount 64 (u0 x) + popcount 64 (u1 x))%nat.
Proof.
  intros W. rewrite (popcount_app 64 64). f_equal; apply popcount_ext; intros i Hi; rewrite ?shiftr_bit, wval_bit by auto.
  - destruct (N.ltb_spec i 64); [reflexivity|lia].
  - destruct (N.ltb_spec (i + N.of_nat 64) 64); [lia|]. apply (f_equal (N.testbit (u1 x))). lia.
Qed.
Lemma dcert_test x : wok x ->
  (Z.land (Z.of_N (count_bit64 (u0 x)) + Z.of_N (count_bit64 (u1 x))) 1 =? 1)%Z = Nat.odd (popcount 128 (wval x)).
Proof.
  intros W. rewrite !count_bit64_ok by apply W. rewrite ones_sum64 by auto. rewrite !nat_N_Z, <- Nat2Z.inj_add. apply odd_land.
Qed.
Lemma dcert_test' x a b : wok x -> wval x = N.land a b ->
  (Z.land (Z.of_N (count_bit64 (u0 x)) + Z.of_N (count_bit64 (u1 x))) 1 =? 1)%Z = inner a b.
Proof. intros W E. rewrite dcert_test by auto. unfold inner. now rewrite E. Qed.
Lemma flip_u0 x k : wok x -> k < 64 -> wok (W128 (N.lxor (u0 x) (2 ^ k)) (u1 x)) /\ flips (wval x) (wval (W128 (N.lxor (u0 x) (2 ^ k)) (u1 x))) k.
Proof.
  intros W K. assert (P : 2 ^ k < 2 ^ 64) by (apply N.pow_lt_mono_r; lia). pose proof W as [A B].
  assert (W' : wok (W128 (N.lxor (u0 x) (2 ^ k)) (u1 x))) by (split; cbn [u0 u1]; [apply lxor_lt; auto|auto]). split; [auto|].
  intros j. rewrite !wval_bit by auto. cbn [u0 u1]. rewrite N.lxor_spec, N.pow2_bits_eqb, (N.eqb_sym k j).
  destruct (N.eqb_spec j k) as [->|J]; ncases; rewrite ?xorb_true_r, ?xorb_false_r; reflexivity.
Qed.
Lemma flip_u1 x k : wok x -> k < 64 -> wok (W128 (u0 x) (N.lxor (u1 x) (2 ^ k))) /\ flips (wval x) (wval (W128 (u0 x) (N.lxor (u1 x) (2 ^ k)))) (64 + k).
Proof.
  intros W K. assert (P : 2 ^ k < 2 ^ 64) by (apply N.pow_lt_mono_r; lia). pose proof W as [A B].
  assert (W' : wok (W128 (u0 x) (N.lxor (u1 x) (2 ^ k)))) by (split; cbn [u0 u1]; [auto|apply lxor_lt; auto]). split; [auto|].
  intros j. rewrite !wval_bit by auto. cbn [u0 u1]. rewrite N.lxor_spec, N.pow2_bits_eqb.
  destruct (N.eqb_spec j (64 + k)) as [->|J]; ncases; rewrite ?xorb_true_r, ?xorb_false_r; reflexivity.
Qed.
Lemma dc_bits_ok cnt : forall k word par, (k + cnt = 64)%nat ->
  match dc_bits cnt (2 ^ N.of_nat k) word par with
  | Some y => exists j, (k <= j < 64)%nat /\ N.testbit par (N.of_nat j) = true /\ y = N.lxor word (2 ^ N.of_nat j)
  | None => forall l, (k <= l < 64)%nat -> N.testbit par (N.of_nat l) = false
  end.
Proof.
  induction cnt as [|c IH]; intros k word par K; cbn [dc_bits]; [intros l Hl; lia|].
  assert (T : (N.land (2 ^ N.of_nat k) par =? 0) = negb (N.testbit par (N.of_nat k))).
  { destruct (N.testbit par (N.of_nat k)) eqn:E; cbn [negb].
    - apply N.eqb_neq. intros Z. assert (Y : N.testbit (N.land (2 ^ N.of_nat k) par) (N.of_nat k) = true) by (rewrite N.land_spec, N.pow2_bits_true, E; reflexivity).
      rewrite Z, N.bits_0 in Y. discriminate.
    - apply N.eqb_eq. apply N.bits_inj. intros j. rewrite N.land_spec, N.bits_0, N.pow2_bits_eqb. destruct (N.eqb_spec (N.of_nat k) j); [subst; now rewrite E|reflexivity]. }
  rewrite T, negb_involutive. destruct (N.testbit par (N.of_nat k)) eqn:E.
  - exists k. split; [lia|]. split; [auto|reflexivity].
  - destruct c as [|c']. { cbn [dc_bits]. intros l Hl. replace l with k by lia. auto. }
    assert (S2 : wshl 64 (2 ^ N.of_nat k) 1 = 2 ^ N.of_nat (S k)).
    { unfold wshl. rewrite N.shiftl_mul_pow2. change (2 ^ 1) with 2. rewrite N.mul_comm, <- N.pow_succ_r by lia. rewrite <- Nnat.Nat2N.inj_succ. apply trunc_small. apply N.pow_lt_mono_r; lia. }
    rewrite S2. specialize (IH (S k) word par ltac:(lia)). destruct (dc_bits _ _ _ _) as [y|].
    + destruct IH as [j [J1 [J2 J3]]]. exists j. split; [lia|]. auto.
    + intros l Hl. destruct (Nat.eq_dec l k); [subst; auto|apply IH; lia].
Qed.

Definition one_flip (st st' par : N) : Prop := exists i, i < 128 /\ N.testbit par i = true /\ flips st st' i.
Lemma dcert_cases lung par fix_ (noFix : bool) : wok lung -> wok par -> wok fix_ -> wval par <> 0 ->
  let v (y : w128) := if noFix then wval y else N.lxor (wval y) (wval fix_) in
  (inner (v lung) (wval par) = true -> dsfmt_certification lung par fix_ noFix = (1%Z, lung)) /\
  (inner (v lung) (wval par) = false -> exists lung', dsfmt_certification lung par fix_ noFix = (0%Z, lung') /\ wok lung' /\ one_flip (wval lung) (wval lung') (wval par)).
Proof.
  intros A B F NZ v; unfold dsfmt_certification.
  set (tmp := if noFix then w_and lung par else w_and (w_xor lung fix_) par).
  assert (T : wok tmp /\ wval tmp = N.land (v lung) (wval par)).
  { subst tmp v. destruct noFix; [apply w_and_ok; auto|]. destruct (w_xor_ok lung fix_ A F) as [X Y]. destruct (w_and_ok _ par X B) as [P Q]. split; [auto|]. now rewrite Q, Y. }
  destruct T as [T1 T2]. rewrite (dcert_test' tmp _ _ T1 T2). clearbody tmp. split; intros ->; [reflexivity|].
  pose proof B as [B0 B1].
  assert (H1 : forall k, k < 64 -> N.testbit (u1 par) k = true -> wok (W128 (u0 lung) (N.lxor (u1 lung) (2 ^ k))) /\ one_flip (wval lung) (wval (W128 (u0 lung) (N.lxor (u1 lung) (2 ^ k)))) (wval par)).
  { intros k K E. destruct (flip_u1 lung k A K) as [W Q]. split; [auto|]. exists (64 + k). split; [lia|]. split; [|auto]. rewrite wval_bit by auto. ncases. now replace (64 + k - 64) with k by lia. }
  destruct (N.eqb_spec (N.land (u1 par) 1) 1) as [E|E].
  - eexists. split; [reflexivity|]. apply (H1 0); [lia|]. rewrite land1 in E. now destruct (N.testbit (u1 par) 0).
  - pose proof (dc_bits_ok 64 0 (u1 lung) (u1 par) eq_refl) as P. change (2 ^ N.of_nat 0) with 1 in P. destruct (dc_bits 64 1 (u1 lung) (u1 par)) as [y|].
    + destruct P as [k [K [P ->]]]. eexists. split; [reflexivity|]. apply H1; [lia|auto].
    + pose proof (dc_bits_ok 64 0 (u0 lung) (u0 par) eq_refl) as Q. change (2 ^ N.of_nat 0) with 1 in Q. destruct (dc_bits 64 1 (u0 lung) (u0 par)) as [y|].
      * destruct Q as [k [K [Q ->]]]. eexists. split; [reflexivity|]. destruct (flip_u0 lung (N.of_nat k) A ltac:(lia)) as [W R]. split; [auto|]. exists (N.of_nat k). split; [lia|]. split; [|auto].
        rewrite wval_bit by auto. ncases. auto.
      * exfalso. apply NZ. apply N.bits_inj. intros j. rewrite N.bits_0, wval_bit by auto. destruct (N.ltb_spec j 64).
        -- rewrite <- (Nnat.N2Nat.id j). apply Q. lia.
        -- destruct (N.lt_ge_cases j 128); [|apply top64; [auto|lia]]. rewrite <- (Nnat.N2Nat.id (j - 64)). apply P. lia.
Qed.
Lemma flips_xor a a' c i : flips a a' i -> flips (N.lxor a c) (N.lxor a' c) i.
Proof. intros F j. rewrite !N.lxor_spec, F. destruct (j =? i), (N.testbit a j), (N.testbit c j); reflexivity. Qed.
Lemma dcert_ok lung par fix_ (noFix : bool) : wok lung -> wok par -> wok fix_ -> wval par <> 0 ->
  let st' := snd (dsfmt_certification lung par fix_ noFix) in
  wok st' /\ inner (if noFix then wval st' else N.lxor (wval st') (wval fix_)) (wval par) = true.
Proof.
  intros A B F NZ. cbv zeta. destruct (dcert_cases lung par fix_ noFix A B F NZ) as [T G]. cbv beta zeta in T, G. destruct (inner _ (wval par)) eqn:E in T, G.
  - rewrite T by auto. auto.
  - destruct (G eq_refl) as [st' [-> [W [i [I [P Q]]]]]]. cbn [snd]. split; [auto|]. destruct noFix.
    + rewrite (inner_flip _ _ _ i I Q P), E. reflexivity.
    + rewrite (inner_flip _ _ _ i I (flips_xor _ _ _ _ Q) P), E. reflexivity.
Qed.
Lemma inner_zero a : inner a (wval w_zero) = false.
Proof. change (wval w_zero) with 0. unfold inner. rewrite N.land_0_r. reflexivity. Qed.
