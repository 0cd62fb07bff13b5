(** get_next of AlgorithmSIMDEquidistribution.hpp: which bits of the output it
    collects. *)
From Coq Require Import Arith NArith ZArith List Bool Lia.
From Verif Require Import Base WordLemmas UtilModel UtilProofs3 GenModel W128Model W128Spec W128Proofs W128Cert SfmtModel SimdModel.
Import ListNotations.
Local Open Scope N_scope.

(** The two cases the programs use: 4 words of 32 bits, 2 words of 64 bits. *)
Definition good_info (info : simd_info) (ew L : nat) : Prop :=
  (info = SI 128 32 4 /\ ew = 32%nat /\ L = 4%nat) \/ (info = SI 128 64 2 /\ ew = 64%nat /\ L = 2%nat).
(** Where the bit b, from the top or from the bottom, of lane c is. *)
Definition bit_pos (lsb : bool) (ew c b : nat) : nat := (ew * c + (if lsb then b else ew - 1 - b))%nat.

Lemma land_pow2 x i : (N.land x (2 ^ i) =? 0) = negb (N.testbit x i).
Proof.
  destruct (N.testbit x i) eqn:E; cbn [negb].
  - apply N.eqb_neq. intros H. assert (K : N.testbit (N.land x (2 ^ i)) i = false) by (rewrite H; apply N.bits_0).
    rewrite N.land_spec, E, N.pow2_bits_true in K. discriminate.
  - apply N.eqb_eq. apply N.bits_inj. intros j. rewrite N.land_spec, N.bits_0, N.pow2_bits_eqb.
    destruct (N.eqb_spec i j) as [<-|]; [now rewrite E|apply andb_false_r].
Qed.
Lemma sv_bits_ok ew word : forall cnt b k next mask, wok next -> (b + cnt <= ew)%nat -> (Z.of_nat cnt <= k + 1 <= 128)%Z ->
  ((0 < cnt)%nat -> mask = 2 ^ N.of_nat (ew - 1 - b)) ->
  exists r, sv_bits cnt word mask k next = Ret (k - Z.of_nat cnt, r)%Z /\ wok r /\
    forall i, N.testbit (wval r) i =
      if ((k - Z.of_nat cnt <? Z.of_N i) && (Z.of_N i <=? k))%Z
      then N.testbit word (N.of_nat (ew - 1 - b - Z.to_nat (k - Z.of_N i))) else N.testbit (wval next) i.
Proof.
  induction cnt as [|c IH]; intros b k next mask Wn Hb Hk Hm.
  - exists next. cbn [sv_bits]. replace (k - Z.of_nat 0)%Z with k by lia. split; [reflexivity|]. split; [auto|].
    intros i. destruct (_ && _)%bool eqn:E; [lia|reflexivity].
  - cbn [sv_bits]. rewrite Hm by lia. rewrite land_pow2.
    assert (Hp : (0 <= k < 128)%Z) by lia.
    destruct (w_setBit_ok next k (if negb (N.testbit word (N.of_nat (ew - 1 - b))) then 0 else 1) Wn Hp) as [n1 [E1 [W1 B1]]].
    rewrite E1. cbn [bind].
    destruct (IH (S b) (k - 1)%Z n1 (wshr (2 ^ N.of_nat (ew - 1 - b)) 1)) as [r [E [W B]]]; [auto|lia|lia| |].
    + intros Hc. unfold wshr. rewrite N.shiftr_div_pow2.
      replace (N.of_nat (ew - 1 - b)) with (N.of_nat (ew - 1 - S b) + 1) by lia.
      rewrite N.pow_add_r. apply N.div_mul. discriminate.
    + exists r. rewrite E. split; [f_equal; f_equal; lia|]. split; [auto|]. intros i. rewrite B, B1.
      destruct (N.eqb_spec i (Z.to_N k)) as [->|Ni].
      * rewrite !Z2N.id by lia. replace (k <=? k - 1)%Z with false by lia. rewrite andb_false_r.
        replace ((k - Z.of_nat (S c) <? k) && (k <=? k))%Z with true by lia.
        replace (ew - 1 - b - Z.to_nat (k - k))%nat with (ew - 1 - b)%nat by lia.
        destruct (N.testbit word _); reflexivity.
      * replace ((k - 1 - Z.of_nat c <? Z.of_N i) && (Z.of_N i <=? k - 1))%Z
          with ((k - Z.of_nat (S c) <? Z.of_N i) && (Z.of_N i <=? k))%Z by lia.
        destruct (_ && _)%bool eqn:E2; [|reflexivity]. f_equal. lia.
Qed.
Lemma sv_lanes_ok info ew v words L : sv_mask info = 2 ^ N.of_nat (ew - 1) -> (v <= ew)%nat -> (L * v <= 128)%nat -> length words = L ->
  forall cnt i next, wok next -> (i + cnt = L)%nat ->
  exists r, sv_lanes info v words cnt i (127 - Z.of_nat (i * v)) next = Ret r /\ wok r /\
    forall j, (j < 128)%nat -> N.testbit (wval r) (N.of_nat (127 - j)) =
      if ((i * v <=? j) && (j <? L * v))%nat then N.testbit (nth (j / v) words 0) (N.of_nat (ew - 1 - j mod v)) else N.testbit (wval next) (N.of_nat (127 - j)).
Proof.
  intros Hm Hv HL Hw. induction cnt as [|c IH]; intros i next Wn Hi.
  - exists next. cbn [sv_lanes]. split; [reflexivity|]. split; [auto|]. intros j Hj.
    replace L with i by lia. destruct (_ && _)%bool eqn:E; [lia|reflexivity].
  - cbn [sv_lanes]. assert (Li : (i < length words)%nat) by lia.
    rewrite (nth_error_nth' words 0 Li).
    assert (Hmul : (i * v + v <= L * v)%nat) by nia.
    destruct (sv_bits_ok ew (nth i words 0) v 0 (127 - Z.of_nat (i * v)) next (sv_mask info)) as [n1 [E1 [W1 B1]]]; auto; try lia.
    { intros _. rewrite Hm. f_equal. lia. }
    rewrite E1. cbn [bind].
    replace (127 - Z.of_nat (i * v) - Z.of_nat v)%Z with (127 - Z.of_nat ((i + 1) * v))%Z by nia.
    destruct (IH (i + 1)%nat n1) as [r [E [W B]]]; auto; [lia|].
    exists r. split; [auto|]. split; [auto|]. intros j Hj. rewrite B by auto. rewrite B1.
    replace ((i + 1) * v)%nat with (i * v + v)%nat by lia.
    destruct (Nat.leb_spec (i * v + v) j) as [L1|L1].
    + replace (i * v <=? j)%nat with true by lia. cbn [andb].
      destruct (Nat.ltb_spec j (L * v)) as [L2|L2]; [reflexivity|].
      destruct (_ && _)%bool eqn:E2; [lia|reflexivity].
    + cbn [andb]. destruct (Nat.leb_spec (i * v) j) as [L2|L2].
      * replace (j <? L * v)%nat with true by lia. cbn [andb].
        replace ((127 - Z.of_nat (i * v) - Z.of_nat v <? Z.of_N (N.of_nat (127 - j))) && (Z.of_N (N.of_nat (127 - j)) <=? 127 - Z.of_nat (i * v)))%Z with true by lia.
        assert (D : (j / v = i)%nat) by (symmetry; apply (Nat.div_unique j v i (j - i * v)); lia).
        assert (M : (j mod v = j - i * v)%nat) by (symmetry; apply (Nat.mod_unique j v i (j - i * v)); lia).
        rewrite D, M. f_equal. lia.
      * cbn [andb]. destruct (_ && _)%bool eqn:E2; [lia|reflexivity].
Qed.

Lemma sv_words_ok info ew L lsb w : good_info info ew L -> wok w ->
  length (sv_words info lsb w) = L /\ sv_mask info = 2 ^ N.of_nat (ew - 1) /\
  forall c b, (c < L)%nat -> (b < ew)%nat ->
    N.testbit (nth c (sv_words info lsb w) 0) (N.of_nat (ew - 1 - b)) = N.testbit (wval w) (N.of_nat (bit_pos lsb ew c b)).
Proof.
  intros [[-> [-> ->]]|[-> [-> ->]]] Ww; (split; [reflexivity|]; split; [reflexivity|]); intros c b Hc Hb.
  - unfold sv_words. cbn [si_bitMode Z.eqb Pos.eqb].
    assert (E : nth c (map (fun i : nat => if lsb then reverse_bit32 (w32 w i) else w32 w i) [0%nat; 1%nat; 2%nat; 3%nat]) 0
              = if lsb then reverse_bit32 (w32 w c) else w32 w c).
    { do 4 (destruct c as [|c]; [reflexivity|]). lia. }
    rewrite E. clear E. unfold bit_pos.
    assert (B : forall i, i < 32 -> N.testbit (w32 w c) i = N.testbit (wval w) (32 * N.of_nat c + i)).
    { intros i Hi. rewrite w32_bit by (auto; lia). replace (i <? 32) with true by lia. reflexivity. }
    pose proof (w32_lt w c Ww) as Lw. destruct lsb.
    + destruct (reverse_bit32_all _ Lw) as [_ [R _]]. rewrite R by lia. rewrite B by lia. f_equal. lia.
    + rewrite B by lia. f_equal. lia.
  - unfold sv_words. cbn [si_bitMode Z.eqb Pos.eqb].
    assert (E : nth c (map (fun x => if lsb then reverse_bit64 x else x) [u0 w; u1 w]) 0
              = if lsb then reverse_bit64 (if (c =? 0)%nat then u0 w else u1 w) else (if (c =? 0)%nat then u0 w else u1 w)).
    { do 2 (destruct c as [|c]; [reflexivity|]). lia. }
    rewrite E. clear E. unfold bit_pos.
    set (y := if (c =? 0)%nat then u0 w else u1 w).
    assert (Ly : y < 2 ^ 64) by (destruct Ww; unfold y; destruct (c =? 0)%nat; auto).
    assert (B : forall i, i < 64 -> N.testbit y i = N.testbit (wval w) (64 * N.of_nat c + i)).
    { intros i Hi. rewrite wval_bit by auto. unfold y. destruct (Nat.eqb_spec c 0) as [->|Nc].
      - replace (64 * N.of_nat 0 + i) with i by lia. replace (i <? 64) with true by lia. reflexivity.
      - assert (c = 1%nat) as -> by lia. replace (64 * N.of_nat 1 + i <? 64) with false by lia. replace (64 * N.of_nat 1 + i - 64) with i by lia. reflexivity. }
    destruct lsb.
    + destruct (reverse_bit64_all _ Ly) as [_ [R _]]. rewrite R by lia. rewrite B by lia. f_equal. lia.
    + rewrite B by lia. f_equal. lia.
Qed.

(** Position j from the top of the collected word is bit j mod v of lane j / v. *)
Lemma sv_pack_ok info ew L lsb v w : good_info info ew L -> wok w -> (1 <= v <= ew)%nat ->
  exists r, sv_pack info lsb v w = Ret r /\ wok r /\
    forall j, (j < 128)%nat -> N.testbit (wval r) (N.of_nat (127 - j)) =
      (j <? L * v)%nat && N.testbit (wval w) (N.of_nat (bit_pos lsb ew (j / v) (j mod v))).
Proof.
  intros Hi Ww Hv. destruct (sv_words_ok info ew L lsb w Hi Ww) as [H1 [H2 H3]].
  assert (HL : (L * v <= 128)%nat /\ si_elementNo info = L /\ si_bitSize info = 128%Z).
  { destruct Hi as [[-> [-> ->]]|[-> [-> ->]]]; cbn; lia. }
  destruct HL as [HL [E1 E2]]. unfold sv_pack. rewrite E1, E2.
  assert (W0 : wok w_zero) by (split; reflexivity).
  destruct (sv_lanes_ok info ew v (sv_words info lsb w) L H2 ltac:(lia) HL H1 L 0 w_zero W0 ltac:(lia)) as [r [E [W B]]].
  exists r. split; [exact E|]. split; [auto|]. intros j Hj. rewrite B by auto. cbn [Nat.mul Nat.leb andb].
  destruct (Nat.ltb_spec j (L * v)) as [Lj|Lj]; cbn [andb]; [|apply N.bits_0].
  apply H3; [apply Nat.div_lt_upper_bound; lia|]. pose proof (Nat.mod_upper_bound j v). lia.
Qed.
