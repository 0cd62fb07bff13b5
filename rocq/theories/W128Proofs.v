(** Proofs about 128-bit words and the period certification. *)
From Coq Require Import NArith ZArith List Bool Lia ZifyBool ZifyNat ZifyN.
From Verif Require Import Base UtilModel WordLemmas UtilSpec UtilProofs UtilProofs2 UtilProofs3 W128Model W128Spec.
Local Open Scope N_scope.

Lemma wval_bit x i : wok x -> N.testbit (wval x) i = if i <? 64 then N.testbit (u0 x) i else N.testbit (u1 x) (i - 64).
Proof. intros [H0 H1]. apply (cat_spec 64 (u1 x) (u0 x) i H0). Qed.

Lemma wval_lt x : wok x -> wval x < 2 ^ 128.
Proof. intros [H0 H1]. apply (cat_lt 64 64); auto. Qed.

Lemma wval_inj x y : wok x -> wok y -> wval x = wval y -> x = y.
Proof.
  destruct x as [a b], y as [c d]. unfold wok, wval. cbn [u0 u1]. intros [A B] [C D] E.
  assert (b = d) by nia. subst. f_equal. lia.
Qed.

Lemma wext x v : wok x -> (forall i, 128 <= i -> N.testbit v i = false) ->
  (forall i, i < 64 -> N.testbit (u0 x) i = N.testbit v i) ->
  (forall i, i < 64 -> N.testbit (u1 x) i = N.testbit v (i + 64)) -> wval x = v.
Proof.
  intros Hx Hv H0 H1. apply N.bits_inj. intros i. rewrite wval_bit by auto.
  destruct (N.ltb_spec i 64) as [L|L]; [auto|].
  destruct (N.lt_ge_cases i 128) as [L2|L2].
  - rewrite H1 by lia. f_equal. lia.
  - rewrite Hv by lia. apply (bits_above 64); [apply Hx|lia].
Qed.

Lemma shl64_ok x s : (0 <= s < 64)%Z -> shl64 x s = Ret (wshl 64 x (Z.to_N s)).
Proof. intros H. unfold shl64. destruct (_ && _)%bool eqn:E; [auto|lia]. Qed.
Lemma shr64_ok x s : (0 <= s < 64)%Z -> shr64 x s = Ret (wshr x (Z.to_N s)).
Proof. intros H. unfold shr64. destruct (_ && _)%bool eqn:E; [auto|lia]. Qed.
Lemma shl64_bad x s : ~ (0 <= s < 64)%Z -> shl64 x s = Undef.
Proof. intros H. unfold shl64. destruct (_ && _)%bool eqn:E; [lia|auto]. Qed.
Lemma shr64_bad x s : ~ (0 <= s < 64)%Z -> shr64 x s = Undef.
Proof. intros H. unfold shr64. destruct (_ && _)%bool eqn:E; [lia|auto]. Qed.

Ltac zcases := repeat match goal with
  | |- context [(?a =? ?b)%Z] => destruct (Z.eqb_spec a b); try lia
  | |- context [(?a <? ?b)%Z] => destruct (Z.ltb_spec a b); try lia
  | |- context [(?a <=? ?b)%Z] => destruct (Z.leb_spec a b); try lia
  end.
Ltac ncases := repeat match goal with
  | |- context [(?a <? ?b)] => destruct (N.ltb_spec a b); try lia
  | |- context [(?a <=? ?b)] => destruct (N.leb_spec a b); try lia
  | |- context [(?a =? ?b)] => destruct (N.eqb_spec a b); try lia
  end.

Lemma shiftr_bit x k i : N.testbit (N.shiftr x k) i = N.testbit x (i + k).
Proof. apply N.shiftr_spec. lia. Qed.

Lemma top64 x i : x < 2 ^ 64 -> 64 <= i -> N.testbit x i = false.
Proof. apply bits_above. Qed.

Lemma w_shr_spec x s : wok x -> (0 <= s < 128)%Z ->
  exists r, w_shr x s = Ret r /\ wok r /\ wval r = wval x / 2 ^ Z.to_N s.
Proof.
  intros Hx Hs. pose proof Hx as [H0 H1]. rewrite <- N.shiftr_div_pow2. unfold w_shr.
  destruct (Z.eqb_spec s 0) as [->|N0]. { exists x. split; [auto|]. split; [auto|]. change (Z.to_N 0) with 0. now rewrite N.shiftr_0_r. }
  destruct (Z.eqb_spec s 64) as [->|N64].
  - eexists. split; [reflexivity|]. assert (W : wok (W128 (u1 x) 0)) by (split; cbn; [auto|reflexivity]).
    split; [auto|]. apply wext; auto; cbn [u0 u1]; intros i Hi; rewrite (shiftr_bit (wval x)), (wval_bit x) by auto.
    + ncases. apply top64; [auto|lia].
    + ncases. f_equal. lia.
    + ncases. rewrite (top64 (u1 x)) by (auto; lia). apply N.bits_0.
  - destruct (Z.leb_spec 64 s).
    + rewrite shr64_ok by lia. eexists. split; [reflexivity|].
      assert (W : wok (W128 (wshr (u1 x) (Z.to_N (s - 64))) 0)) by (split; cbn [u0 u1]; [now apply shiftr_lt|reflexivity]).
      split; [auto|]. apply wext; auto; cbn [u0 u1]; intros i Hi; rewrite (shiftr_bit (wval x)), (wval_bit x) by auto; rewrite ?wshr_spec.
      * ncases. apply top64; [auto|lia].
      * ncases. f_equal. lia.
      * ncases. rewrite (top64 (u1 x)) by (auto; lia). apply N.bits_0.
    + rewrite shl64_ok, !shr64_ok by lia. cbn [bind]. eexists. split; [reflexivity|].
      match goal with |- wok ?y /\ _ => assert (W : wok y) by (split; cbn [u0 u1]; [apply lor_lt; [apply wshl_lt|now apply shiftr_lt]|now apply shiftr_lt]) end.
      split; [auto|]. apply wext; auto; cbn [u0 u1]; intros i Hi; rewrite (shiftr_bit (wval x)), (wval_bit x) by auto; rewrite ?N.lor_spec, ?wshl_spec, ?wshr_spec.
      * ncases. apply top64; [auto|lia].
      * ncases; cbn [andb orb]; [reflexivity|].
        rewrite (top64 (u0 x) (i + Z.to_N s)) by (auto; lia). rewrite orb_false_r. f_equal. lia.
      * ncases. f_equal. lia.
Qed.
Lemma w_shl_spec x s : wok x -> (0 <= s < 128)%Z ->
  exists r, w_shl x s = Ret r /\ wok r /\ wval r = (wval x * 2 ^ Z.to_N s) mod 2 ^ 128.
Proof.
  intros Hx Hs. pose proof Hx as [H0 H1]. rewrite <- N.shiftl_mul_pow2. fold (trunc 128 (N.shiftl (wval x) (Z.to_N s))). fold (wshl 128 (wval x) (Z.to_N s)).
  unfold w_shl.
  destruct (Z.eqb_spec s 0) as [->|N0].
  { exists x. split; [auto|]. split; [auto|]. change (Z.to_N 0) with 0. unfold wshl. rewrite N.shiftl_0_r, trunc_small; auto. now apply wval_lt. }
  destruct (Z.eqb_spec s 64) as [->|N64].
  - eexists. split; [reflexivity|]. assert (W : wok (W128 0 (u0 x))) by (split; cbn; [reflexivity|auto]).
    split; [auto|]. apply wext; auto; cbn [u0 u1]; intros i Hi; rewrite wshl_spec; rewrite ?wval_bit by auto.
    + ncases; reflexivity.
    + ncases; cbn [andb]; apply N.bits_0.
    + ncases. cbn [andb]. f_equal. lia.
  - destruct (Z.ltb_spec 64 s).
    + rewrite shl64_ok by lia. eexists. split; [reflexivity|].
      match goal with |- wok ?y /\ _ => assert (W : wok y) by (split; cbn [u0 u1]; [reflexivity|apply wshl_lt]) end.
      split; [auto|]. apply wext; auto; cbn [u0 u1]; intros i Hi; rewrite !wshl_spec; rewrite ?wval_bit by auto.
      * ncases; reflexivity.
      * ncases; cbn [andb]; apply N.bits_0.
      * ncases; cbn [andb]; f_equal; lia.
    + rewrite shr64_ok, !shl64_ok by lia. cbn [bind]. eexists. split; [reflexivity|].
      match goal with |- wok ?y /\ _ => assert (W : wok y) by (split; cbn [u0 u1]; [apply wshl_lt|apply lor_lt; [now apply shiftr_lt|apply wshl_lt]]) end.
      split; [auto|]. apply wext; auto; cbn [u0 u1]; intros i Hi; rewrite ?N.lor_spec, ?wshr_spec, !wshl_spec; rewrite ?wval_bit by auto.
      * ncases; reflexivity.
      * ncases; cbn [andb]; auto.
      * destruct (N.ltb_spec (i + 64 - Z.to_N s) 64); ncases; cbn [andb]; rewrite ?orb_false_r.
        -- f_equal. lia.
        -- rewrite (top64 (u0 x)) by (auto; lia). cbn [orb]. f_equal. lia.
Qed.
Lemma w_shift_bad x s : ~ (0 <= s < 128)%Z -> w_shr x s = Undef /\ w_shl x s = Undef.
Proof.
  intros H. unfold w_shr, w_shl. split; zcases.
  - rewrite shr64_bad by lia. reflexivity.
  - rewrite shl64_bad by lia. reflexivity.
  - rewrite shl64_bad by lia. reflexivity.
  - rewrite shr64_bad by lia. reflexivity.
Qed.

Lemma w_mask_spec n : (0 <= n <= 128)%Z ->
  exists r, w_mask n = Ret r /\ wok r /\ wval r = 2 ^ 128 - 2 ^ (128 - Z.to_N n).
Proof.
  intros Hn. unfold w_mask.
  assert (K : forall k, (0 <= k < 64)%Z -> exists m, shr64 (wnot 64 0) k = Ret m /\ wnot 64 m = 2 ^ 64 - 2 ^ (64 - Z.to_N k)).
  { intros k Hk. rewrite shr64_ok by auto. eexists. split; [reflexivity|]. set (j := Z.to_N k). assert (Hj : j < 64) by lia. clearbody j.
    pose proof (N.pow_le_mono_r 2 (64 - j) 64 ltac:(lia) ltac:(lia)).
    apply N.bits_inj. intros i. unfold wnot at 1. rewrite N.lxor_spec, wshr_spec. unfold wnot. rewrite N.lxor_0_l.
    replace (2 ^ 64 - 2 ^ (64 - j)) with (N.shiftl (N.ones j) (64 - j)).
    2:{ rewrite N.shiftl_mul_pow2, N.ones_equiv, <- N.sub_1_r, N.mul_sub_distr_r, <- N.pow_add_r. replace (j + (64 - j)) with 64 by lia. lia. }
    destruct (N.lt_ge_cases i (64 - j)).
    - rewrite N.shiftl_spec_low, !N.ones_spec_low by lia. reflexivity.
    - rewrite N.shiftl_spec_high, N.ones_spec_high by lia. destruct (N.lt_ge_cases i 64).
      + rewrite !N.ones_spec_low by lia. reflexivity.
      + rewrite !N.ones_spec_high by lia. reflexivity. }
  destruct (Z.eqb_spec n 128) as [->|N128].
  { eexists. split; [reflexivity|]. split; [split; reflexivity|reflexivity]. }
  assert (P : 2 ^ 128 = 2 ^ 64 * 2 ^ 64) by reflexivity.
  destruct (Z.ltb_spec n 64).
  - destruct (K n ltac:(lia)) as [m [-> E]]. cbn [bind]. rewrite E. eexists. split; [reflexivity|].
    replace (128 - Z.to_N n) with (64 + (64 - Z.to_N n)) by lia. rewrite N.pow_add_r.
    pose proof (pow2_pos (64 - Z.to_N n)). pose proof (N.pow_le_mono_r 2 (64 - Z.to_N n) 64 ltac:(lia) ltac:(lia)).
    unfold wok, wval. cbn [u0 u1]. split; [split; [reflexivity|lia]|]. rewrite P, N.mul_sub_distr_r. lia.
  - destruct (K (n - 64)%Z ltac:(lia)) as [m [-> E]]. cbn [bind]. rewrite E. eexists. split; [reflexivity|].
    replace (64 - Z.to_N (n - 64)) with (128 - Z.to_N n) by lia.
    pose proof (pow2_pos (128 - Z.to_N n)). pose proof (N.pow_le_mono_r 2 (128 - Z.to_N n) 64 ltac:(lia) ltac:(lia)).
    unfold wok, wval. cbn [u0 u1]. split; [split; [lia|reflexivity]|].
    replace (2 ^ 128) with (0xffffffffffffffff * 2 ^ 64 + 2 ^ 64) by reflexivity. lia.
Qed.
Lemma w_mask_bad n : ~ (0 <= n <= 128)%Z -> w_mask n = Undef.
Proof. intros H. unfold w_mask. zcases; rewrite shr64_bad by lia; reflexivity. Qed.

(** The bitwise operations. *)
Lemma w_and_ok a b : wok a -> wok b -> wok (w_and a b) /\ wval (w_and a b) = N.land (wval a) (wval b).
Proof.
  intros A B. assert (W : wok (w_and a b)) by (split; cbn [u0 u1 w_and]; apply land_lt; apply A). split; [auto|].
  apply N.bits_inj. intros i. rewrite N.land_spec, !wval_bit by auto. cbn [u0 u1 w_and]. rewrite !N.land_spec. now destruct (i <? 64).
Qed.
Lemma w_xor_ok a b : wok a -> wok b -> wok (w_xor a b) /\ wval (w_xor a b) = N.lxor (wval a) (wval b).
Proof.
  intros A B. assert (W : wok (w_xor a b)) by (split; cbn [u0 u1 w_xor]; apply lxor_lt; apply A || apply B). split; [auto|].
  apply N.bits_inj. intros i. rewrite N.lxor_spec, !wval_bit by auto. cbn [u0 u1 w_xor]. rewrite !N.lxor_spec. now destruct (i <? 64).
Qed.
Lemma w_or_ok a b : wok a -> wok b -> wok (w_or a b) /\ wval (w_or a b) = N.lor (wval a) (wval b).
Proof.
  intros A B. assert (W : wok (w_or a b)) by (split; cbn [u0 u1 w_or]; apply lor_lt; apply A || apply B). split; [auto|].
  apply N.bits_inj. intros i. rewrite N.lor_spec, !wval_bit by auto. cbn [u0 u1 w_or]. rewrite !N.lor_spec. now destruct (i <? 64).
Qed.
Lemma wnot_sub w x : x < 2 ^ w -> wnot w x = 2 ^ w - 1 - x.
Proof.
  intros H. assert (E : wnot w x + x = N.ones w).
  { rewrite N.add_nocarry_lxor.
    - unfold wnot. rewrite N.lxor_assoc, (N.lxor_comm (N.ones w)), <- N.lxor_assoc, N.lxor_nilpotent. apply N.lxor_0_l.
    - apply N.bits_inj. intros i. rewrite N.land_spec, N.bits_0. unfold wnot. rewrite N.lxor_spec. destruct (N.lt_ge_cases i w).
      + rewrite N.ones_spec_low by auto. now destruct (N.testbit x i).
      + rewrite (bits_above w x i) by auto. apply andb_false_r. }
  rewrite N.ones_equiv in E. lia.
Qed.
Lemma w_not_ok a : wok a -> wok (w_not a) /\ wval (w_not a) = 2 ^ 128 - 1 - wval a.
Proof.
  intros [A0 A1]. split; [split; cbn [u0 u1 w_not]; now apply wnot_lt|]. unfold wval. cbn [u0 u1 w_not]. rewrite !wnot_sub by auto.
  replace (2 ^ 128) with (2 ^ 64 * 2 ^ 64) by reflexivity. nia.
Qed.
Lemma w_eq_ok a b : wok a -> wok b -> w_eq a b = true <-> wval a = wval b.
Proof.
  intros A B. unfold w_eq. rewrite andb_true_iff, !N.eqb_eq. split.
  - intros [E F]. unfold wval. now rewrite E, F.
  - intros E. apply wval_inj in E; auto. now subst.
Qed.
Lemma w_isZero_ok a : wok a -> w_isZero a = true <-> wval a = 0.
Proof. intros A. unfold w_isZero, wval. rewrite andb_true_iff, !N.eqb_eq. lia. Qed.
Lemma w_consts : wval w_zero = 0 /\ wval w_one = 1 /\ forall x, wval (w_convert x) = x.
Proof. split; [reflexivity|]. split; [reflexivity|]. intros x. reflexivity. Qed.

Lemma land1 x : N.land x 1 = N.b2n (N.testbit x 0).
Proof. change 1 with (N.ones 1). rewrite N.land_ones. change (2 ^ 1) with 2. symmetry. apply N.bit0_mod. Qed.

Lemma w_getBit_ok x pos : wok x -> (0 <= pos < 128)%Z -> w_getBit x pos = Ret (N.b2n (N.testbit (wval x) (Z.to_N pos))).
Proof.
  intros A H. rewrite wval_bit by auto. unfold w_getBit. zcases; rewrite ?shr64_ok by lia; cbn [bind]; rewrite ?land1, ?wshr_spec; ncases; try reflexivity.
  - subst. reflexivity.
  - subst. reflexivity.
  - do 3 f_equal. lia.
Qed.
Lemma w_getBit_bad x pos : ~ (0 <= pos < 128)%Z -> w_getBit x pos = Undef.
Proof. intros H. unfold w_getBit. zcases; rewrite shr64_bad by lia; reflexivity. Qed.

(** One 64-bit half of setBitOfPos. *)
Lemma put_bit x p b i : x < 2 ^ 64 -> p < 64 ->
  N.testbit (N.lor (N.land x (wnot 64 (wshl 64 1 p))) (wshl 64 (N.land b 1) p)) i = if i =? p then N.testbit b 0 else N.testbit x i.
Proof.
  intros Hx Hp. rewrite N.lor_spec, N.land_spec, land1, wshl_spec. destruct (N.lt_ge_cases i 64) as [L|L].
  - rewrite wnot_spec, wshl_spec by auto. change 1 with (N.b2n true). ncases; cbn [andb].
    + subst. rewrite N.sub_diag, !N.b2n_bit0. cbn. now rewrite andb_false_r.
    + rewrite (N.testbit_eqb (N.b2n true)), (N.testbit_eqb (N.b2n _)).
      assert (Z : forall c, N.b2n c / 2 ^ (i - p) = 0).
      { intros c. apply N.div_small. apply N.le_lt_trans with 1; [destruct c; cbn; lia|]. replace (i - p) with (N.succ (i - p - 1)) by lia. rewrite N.pow_succ_r by lia. pose proof (pow2_pos (i - p - 1)). lia. }
      rewrite !Z. cbn. now rewrite andb_true_r, orb_false_r.
    + cbn. now rewrite andb_true_r, orb_false_r.
  - rewrite (top64 x) by auto. ncases. reflexivity.
Qed.
Lemma put_bit_lt x p b : x < 2 ^ 64 -> N.lor (N.land x (wnot 64 (wshl 64 1 p))) (wshl 64 (N.land b 1) p) < 2 ^ 64.
Proof. intros H. apply lor_lt; [now apply land_lt|apply wshl_lt]. Qed.

Lemma w_setBit_shape x pos b : wok x -> (0 <= pos < 128)%Z ->
  w_setBit x pos b = Ret (if (pos <? 64)%Z then W128 (N.lor (N.land (u0 x) (wnot 64 (wshl 64 1 (Z.to_N pos)))) (wshl 64 (N.land b 1) (Z.to_N pos))) (u1 x)
     else W128 (u0 x) (N.lor (N.land (u1 x) (wnot 64 (wshl 64 1 (Z.to_N (pos - 64))))) (wshl 64 (N.land b 1) (Z.to_N (pos - 64))))).
Proof.
  intros A H. unfold w_setBit.
  assert (E : wshl 64 (N.land b 1) 0 = N.land b 1) by (rewrite land1; now destruct (N.testbit b 0)).
  zcases; rewrite ?shl64_ok by lia; cbn [bind]; try reflexivity.
  - subst. change (Z.to_N 0) with 0. now rewrite E.
  - subst. change (Z.to_N (64 - 64)) with 0. now rewrite E.
Qed.
Lemma w_setBit_ok x pos b : wok x -> (0 <= pos < 128)%Z ->
  exists r, w_setBit x pos b = Ret r /\ wok r /\
    forall i, N.testbit (wval r) i = if i =? Z.to_N pos then N.testbit b 0 else N.testbit (wval x) i.
Proof.
  intros A H. rewrite w_setBit_shape by auto. eexists. split; [reflexivity|]. pose proof A as [A0 A1].
  match goal with |- wok ?y /\ _ => assert (W : wok y) end.
  { destruct (Z.ltb_spec pos 64); split; cbn [u0 u1]; auto using put_bit_lt. }
  split; [auto|]. intros i. rewrite !wval_bit by auto. destruct (Z.ltb_spec pos 64); cbn [u0 u1].
  - destruct (N.ltb_spec i 64); [rewrite put_bit by (auto; lia); reflexivity|]. ncases. reflexivity.
  - destruct (N.ltb_spec i 64); [ncases; reflexivity|]. rewrite put_bit by (auto; lia). ncases; reflexivity.
Qed.
Lemma w_setBit_bad x pos b : ~ (0 <= pos < 128)%Z -> w_setBit x pos b = Undef.
Proof. intros H. unfold w_setBit. zcases; rewrite shl64_bad by lia; reflexivity. Qed.

Lemma w_reverse_ok x : wok x -> wok (w_reverse x) /\ (forall i, i < 128 -> N.testbit (wval (w_reverse x)) i = N.testbit (wval x) (127 - i)) /\ w_reverse (w_reverse x) = x.
Proof.
  intros [A0 A1]. destruct (reverse_bit64_all _ A0) as [B0 [C0 D0]]. destruct (reverse_bit64_all _ A1) as [B1 [C1 D1]].
  assert (W : wok (w_reverse x)) by (split; auto). split; [auto|]. split.
  - intros i Hi. rewrite !wval_bit by (split; auto). cbn [u0 u1 w_reverse]. ncases.
    + rewrite C1 by auto. f_equal. lia.
    + rewrite C0 by lia. f_equal. lia.
  - destruct x as [a b]. unfold w_reverse. cbn [u0 u1] in *. now rewrite D0, D1.
Qed.

Lemma low_shift x p : lowest_one_from_msb 64 x p -> forall y, wok (W128 0 x) -> wok y -> u0 y = 0 -> u1 y = x -> lowest_one_from_msb 128 (wval y) p.
Proof.
  intros [i [Hi [-> [T L]]]] y _ Hy E0 E1. exists (i + 64). split; [lia|]. split; [lia|]. split.
  - rewrite wval_bit by auto. ncases. rewrite E1. replace (i + 64 - 64) with i by lia. auto.
  - intros j Hj. rewrite wval_bit by auto. ncases; [rewrite E0; apply N.bits_0|]. rewrite E1. apply L. lia.
Qed.
Lemma low_keep y p : wok y -> lowest_one_from_msb 64 (u0 y) p -> lowest_one_from_msb 128 (wval y) (p + 64).
Proof.
  intros Hy [i [Hi [-> [T L]]]]. exists i. split; [lia|]. split; [lia|]. split.
  - rewrite wval_bit by auto. ncases. auto.
  - intros j Hj. rewrite wval_bit by auto. ncases. auto.
Qed.

Lemma w_calc_split x : u0 x <> 0 \/ u1 x <> 0 -> w_calc_1pos x = if u0 x =? 0 then calc_1pos64 (u1 x) else do p <- calc_1pos64 (u0 x); Ret (p + 64)%Z.
Proof.
  intros H. unfold w_calc_1pos, calc_1pos64, w_isZero. destruct (N.eqb_spec (u0 x) 0) as [E|E]; cbn [andb].
  - destruct (N.eqb_spec (u1 x) 0); [lia|reflexivity].
  - destruct (sneg 64 (to_signed 64 (u0 x))); reflexivity.
Qed.
Lemma w_calc_partial x : wok x -> u0 x <> 2 ^ 63 -> (u0 x = 0 -> u1 x <> 2 ^ 63) ->
  exists p, w_calc_1pos x = Ret p /\ (wval x = 0 -> p = (-1)%Z) /\ (wval x <> 0 -> lowest_one_from_msb 128 (wval x) p).
Proof.
  intros A B C. destruct (w_isZero x) eqn:Z.
  - exists (-1)%Z. unfold w_calc_1pos. rewrite Z. apply w_isZero_ok in Z; auto. split; [auto|]. split; [auto|]. intros. contradiction.
  - assert (NZ : wval x <> 0). { intros E. apply w_isZero_ok in E; auto. congruence. }
    assert (NN : u0 x <> 0 \/ u1 x <> 0). { destruct (N.eq_dec (u0 x) 0); [|auto]. right. unfold wval in NZ. lia. }
    rewrite w_calc_split by auto. pose proof A as [A0 A1]. destruct (N.eqb_spec (u0 x) 0) as [E|E].
    + destruct (calc_1pos64_all _ A1 (C E)) as [p [-> [_ Q]]]. exists p. split; [auto|]. split; [lia|]. intros _.
      apply (low_shift (u1 x) p); auto; [apply Q; lia|split; cbn; [reflexivity|auto]].
    + destruct (calc_1pos64_all _ A0 B) as [p [-> [_ Q]]]. exists (p + 64)%Z. split; [auto|]. split; [lia|]. intros _.
      apply low_keep; auto.
Qed.
Lemma w_calc_undef : exists x y, wok x /\ wok y /\ wval x = 2 ^ 127 /\ wval y = 2 ^ 63 + 2 ^ 64 /\ w_calc_1pos x = Undef /\ w_calc_1pos y = Undef.
Proof. exists (W128 0 (2 ^ 63)), (W128 (2 ^ 63) 1). repeat split. Qed.
Lemma w_calc_wrap_ok x : wok x -> (wval x = 0 -> w_calc_1pos_wrap x = (-1)%Z) /\ (wval x <> 0 -> lowest_one_from_msb 128 (wval x) (w_calc_1pos_wrap x)).
Proof.
  intros A. pose proof A as [A0 A1]. split.
  - intros E. apply w_isZero_ok in E; auto. unfold w_calc_1pos_wrap. now rewrite E.
  - intros E. assert (Z : w_isZero x = false). { destruct (w_isZero x) eqn:Z; auto. apply w_isZero_ok in Z; auto. contradiction. }
    assert (NN : u0 x <> 0 \/ u1 x <> 0). { destruct (N.eq_dec (u0 x) 0); [|auto]. right. unfold wval in E. lia. }
    assert (F : w_calc_1pos_wrap x = if u0 x =? 0 then calc_1pos64_wrap (u1 x) else (calc_1pos64_wrap (u0 x) + 64)%Z).
    { unfold w_calc_1pos_wrap, calc_1pos64_wrap. rewrite Z. destruct (N.eqb_spec (u0 x) 0); [|reflexivity]. destruct (N.eqb_spec (u1 x) 0); [lia|reflexivity]. }
    rewrite F. destruct (N.eqb_spec (u0 x) 0) as [G|G].
    + apply (low_shift (u1 x)); auto; [apply (calc_1pos64_wrap_all _ A1); lia|split; cbn; [reflexivity|auto]].
    + apply low_keep; auto. apply (calc_1pos64_wrap_all _ A0). auto.
Qed.
