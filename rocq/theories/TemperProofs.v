(** AlgorithmPartialBitPattern installs best patterns. *)
From Coq Require Import NArith ZArith List Bool Lia.
From Verif Require Import Base WordLemmas UtilSpec GenModel EquiModel TemperModel TemperSpec.
Import ListNotations.
Local Open Scope Z_scope.

Lemma cshl_ok W x k : 0 <= k < Z.of_N W -> cshl W x k = Ret (wshl W x (Z.to_N k)).
Proof. intros H. unfold cshl, sh_ok. rewrite (proj2 (Z.leb_le _ _)), (proj2 (Z.ltb_lt _ _)) by lia. reflexivity. Qed.
Lemma cshr_ok W x k : 0 <= k < Z.of_N W -> cshr W x k = Ret (wshr x (Z.to_N k)).
Proof. intros H. unfold cshr, sh_ok. rewrite (proj2 (Z.leb_le _ _)), (proj2 (Z.ltb_lt _ _)) by lia. reflexivity. Qed.
Lemma int_pow2_ok k : 0 <= k <= 30 -> int_pow2 k = Ret (2 ^ k).
Proof. intros H. unfold int_pow2. rewrite (proj2 (Z.leb_le _ _)), (proj2 (Z.leb_le _ _)) by lia. reflexivity. Qed.

Section Window.
Variables (W : N) (lsb : bool) (p size : nat).
Hypothesis Hs : (1 <= size)%nat.
Hypothesis Hp : (N.of_nat (p + size) <= W)%N.
Notation lo := (window_lo W lsb p size).
Notation bl := (Z.of_N W).

Lemma wnot0_bit j : (j < W)%N -> N.testbit (wnot W 0) j = true.
Proof. intros H. rewrite wnot_spec by exact H. reflexivity. Qed.
Lemma wnot0_lt : (wnot W 0 < 2 ^ W)%N.
Proof. apply wnot_lt. apply pow2_pos. Qed.
Lemma wnot0_spec j : N.testbit (wnot W 0) j = (j <? W)%N.
Proof.
  destruct (N.ltb_spec j W). now apply wnot0_bit.
  apply (bits_above W); [apply wnot0_lt|assumption].
Qed.

Lemma make_mask_ok : exists m, pb_make_mask W bl lsb (Z.of_nat p) (Z.of_nat size) = Ret m /\
  (m < 2 ^ W)%N /\ window_mask lo size m.
Proof.
  unfold pb_make_mask.
  replace (Z.of_nat p + Z.of_nat size >? bl) with false by (symmetry; rewrite Z.gtb_ltb; apply Z.ltb_ge; lia).
  unfold window_lo. destruct lsb.
  - rewrite cshr_ok by lia. cbn [bind]. rewrite cshl_ok by lia. cbn [bind]. rewrite cshr_ok by lia.
    eexists; split; [reflexivity|]. split. apply shiftr_lt. apply wshl_lt.
    intros j. rewrite wshr_spec, wshl_spec, wshr_spec, wnot0_spec.
    destruct (N.ltb_spec (j + Z.to_N (bl - Z.of_nat p - Z.of_nat size)) W);
    destruct (N.leb_spec (Z.to_N (bl - Z.of_nat size)) (j + Z.to_N (bl - Z.of_nat p - Z.of_nat size))); cbn;
    try (split; [discriminate|lia]).
    rewrite N.ltb_lt. lia.
  - rewrite cshl_ok by lia. cbn [bind]. rewrite cshr_ok by lia. cbn [bind]. rewrite cshl_ok by lia.
    eexists; split; [reflexivity|]. split. apply wshl_lt.
    intros j. rewrite wshl_spec, wshr_spec, wshl_spec, wnot0_spec.
    destruct (N.ltb_spec j W), (N.leb_spec (Z.to_N (bl - Z.of_nat p - Z.of_nat size)) j); cbn; try (split; [discriminate|lia]).
    destruct (N.ltb_spec (j - Z.to_N (bl - Z.of_nat p - Z.of_nat size) + Z.to_N (bl - Z.of_nat size)) W),
      (N.leb_spec (Z.to_N (Z.of_nat p)) (j - Z.to_N (bl - Z.of_nat p - Z.of_nat size) + Z.to_N (bl - Z.of_nat size))); cbn;
    try (split; [discriminate|lia]).
    rewrite N.ltb_lt. lia.
Qed.

(** The pattern number i. *)
Definition pat (i : N) : N := N.shiftl i lo.
Lemma lo_le : (lo + N.of_nat size <= W)%N.
Proof. unfold window_lo. destruct lsb; lia. Qed.
Lemma pat_window i : (i < 2 ^ N.of_nat size)%N -> in_window lo size (pat i).
Proof.
  intros Hi j. unfold pat. destruct (N.le_gt_cases lo j) as [L|L].
  - rewrite N.shiftl_spec_high' by exact L. intros H. split; [exact L|].
    destruct (N.lt_ge_cases (j - lo) (N.of_nat size)) as [?|G]; [lia|].
    rewrite (bits_above _ _ _ Hi G) in H. discriminate.
  - rewrite N.shiftl_spec_low by exact L. discriminate.
Qed.
Lemma window_pat q : in_window lo size q -> exists i, (i < 2 ^ N.of_nat size)%N /\ q = pat i.
Proof.
  intros H. exists (N.shiftr q lo). split.
  - apply lt_pow2_bits. intros j Hj. rewrite N.shiftr_spec by lia.
    destruct (N.testbit q (j + lo)) eqn:E; [|reflexivity]. apply H in E. lia.
  - unfold pat. apply N.bits_inj. intros j. destruct (N.le_gt_cases lo j) as [L|L].
    + rewrite N.shiftl_spec_high' by exact L. rewrite N.shiftr_spec by lia. f_equal. lia.
    + rewrite N.shiftl_spec_low by exact L. destruct (N.testbit q j) eqn:E; [|reflexivity].
      apply H in E. lia.
Qed.
Lemma pat_lt i : (i < 2 ^ N.of_nat size)%N -> (pat i < 2 ^ W)%N.
Proof.
  intros Hi. apply lt_pow2_bits. intros j Hj. destruct (N.testbit (pat i) j) eqn:E; [|reflexivity].
  apply (pat_window i Hi) in E. pose proof lo_le. lia.
Qed.
Lemma pat_mono i j : (i <= j)%N -> (pat i <= pat j)%N.
Proof. intros H. unfold pat. rewrite !N.shiftl_mul_pow2. nia. Qed.
Lemma pattern_ok i : (i < 2 ^ N.of_nat size)%N ->
  (if lsb then cshl W (trunc W i) (Z.of_nat p) else cshl W (trunc W i) (bl - Z.of_nat p - Z.of_nat size)) = Ret (pat i).
Proof.
  intros Hi.
  assert (Hw : (i < 2 ^ W)%N).
  { eapply N.lt_le_trans; [exact Hi|]. apply N.pow_le_mono_r; [lia|]. pose proof lo_le. lia. }
  rewrite trunc_small by exact Hw.
  pose proof (pat_lt i Hi) as L. pose proof lo_le. unfold pat, window_lo in *.
  destruct lsb; rewrite cshl_ok by lia; f_equal; unfold wshl.
  - rewrite <- nat_N_Z, N2Z.id. now apply trunc_small.
  - replace (Z.to_N (bl - Z.of_nat p - Z.of_nat size)) with (W - N.of_nat p - N.of_nat size)%N by lia.
    now apply trunc_small.
Qed.
End Window.

Section Pbp.
Variables (S : Type) (T : temper_ops S).
Variables (W : N) (count_bit : N -> N) (bitSize : S -> Z) (defect : S -> res Z).
Variables (param_num try_bit_len step : nat) (lsb : bool).
Notation bl := (Z.of_N W).
Notation make m p i s := (t_up T (t_set T m p i s)).
(** The states the search may meet, and the laws they satisfy. *)
Variable legal : S -> Prop.
Hypothesis Hcnt : forall x, (x < 2 ^ W)%N -> count_bit x = N.of_nat (popcount (N.to_nat W) x).
Hypothesis Hlegal : forall m q i s, (m < 2 ^ W)%N -> legal s -> (i < param_num)%nat -> legal (make m q i s).
Hypothesis Hover : forall m q q' i s, (m < 2 ^ W)%N -> legal s -> (i < param_num)%nat -> make m q i (make m q' i s) = make m q i s.
Hypothesis Hdef : forall s, legal s -> exists d, defect s = Ret d /\ d <= bitSize s * bl.
Hypothesis Hbs : forall m q i s, (m < 2 ^ W)%N -> legal s -> (i < param_num)%nat -> bitSize (make m q i s) = bitSize s.

Definition cost_of (s : S) : Z := match defect s with Ret d => d | _ => 0 end.
Lemma cost_ok s : legal s -> defect s = Ret (cost_of s) /\ cost_of s <= bitSize s * bl.
Proof. intros H. destruct (Hdef s H) as [d [E L]]. unfold cost_of. rewrite E. auto. Qed.

(** One step of the search. *)
Section Step.
Variables (p size i : nat) (s : S) (mask : N).
Hypothesis Hs : (1 <= size)%nat.
Hypothesis Hp : (N.of_nat (p + size) <= W)%N.
Hypothesis Hi : (i < param_num)%nat.
Hypothesis Ls : legal s.
Hypothesis Hmask : (mask < 2 ^ W)%N.
Notation lo := (window_lo W lsb p size).
Notation pt := (pat W lsb p size).
Notation cost q := (cost_of (make mask q i s)).
Notation pop := (popcount (N.to_nat W)).
(** a is at least as good as b *)
Definition geq (a b : N) : Prop :=
  cost a < cost b \/ cost a = cost b /\ ((pop b < pop a)%nat \/ pop b = pop a /\ (b <= a)%N).
Lemma geq_trans a b c : geq a b -> geq b c -> geq a c.
Proof. unfold geq. lia. Qed.
Lemma pop0 : pop 0 = 0%nat.
Proof. unfold popcount. induction (seq 0 (N.to_nat W)) as [|x l IH]; [reflexivity|]. cbn [filter]. rewrite N.bits_0. exact IH. Qed.

(** Before the pattern number k-1: either nothing has been taken over yet, or
    the pattern taken over is the best of those with numbers k, ... *)
Definition inv (k : nat) (md : Z) (mp : N) : Prop :=
  (md = bitSize s * bl /\ mp = 0%N /\
     forall j, (N.of_nat k <= j < 2 ^ N.of_nat size)%N -> md = cost (pt j) /\ pop (pt j) = 0%nat) \/
  (exists j0, (N.of_nat k <= j0 < 2 ^ N.of_nat size)%N /\ mp = pt j0 /\ md = cost mp /\
     forall j, (N.of_nat k <= j < 2 ^ N.of_nat size)%N -> geq mp (pt j)).

Lemma pop_zero x : (x < 2 ^ W)%N -> pop x = 0%nat -> x = 0%N.
Proof.
  intros Hx H. apply N.bits_inj. intros j. rewrite N.bits_0.
  destruct (N.lt_ge_cases j W) as [L|L]; [|now apply (bits_above W)].
  destruct (N.testbit x j) eqn:E; [|reflexivity]. exfalso.
  assert (In (N.to_nat j) (filter (fun i => N.testbit x (N.of_nat i)) (seq 0 (N.to_nat W)))).
  { apply filter_In. rewrite N2Nat.id. split; [apply in_seq; lia|exact E]. }
  unfold popcount in H. apply length_zero_iff_nil in H. rewrite H in H0. exact H0.
Qed.

Lemma loop_ok k s1 md mp : (s1 = s \/ exists q, s1 = make mask q i s) -> (N.of_nat k <= 2 ^ N.of_nat size)%N -> (mp < 2 ^ W)%N ->
  inv k md mp ->
  exists s2 md2 mp2, pb_loop S T W count_bit defect bl lsb k mask i (Z.of_nat p) (Z.of_nat size) s1 md mp = Ret (s2, md2, mp2) /\
    (s2 = s \/ exists q, s2 = make mask q i s) /\ (mp2 < 2 ^ W)%N /\ inv 0 md2 mp2.
Proof.
  revert s1 md mp. induction k as [|k IH]; intros s1 md mp Hs1 Hk Hmp Hinv.
  - exists s1, md, mp. auto.
  - cbn [pb_loop]. assert (Hk' : (N.of_nat k < 2 ^ N.of_nat size)%N) by lia.
    rewrite (pattern_ok W lsb p size Hs Hp _ Hk'). cbn [bind].
    unfold pb_make_temper_bit.
    assert (E1 : make mask (pt (N.of_nat k)) i s1 = make mask (pt (N.of_nat k)) i s).
    { destruct Hs1 as [->|[q ->]]; [reflexivity|]. now apply Hover. }
    rewrite E1.
    destruct (cost_ok _ (Hlegal mask (pt (N.of_nat k)) i s Hmask Ls Hi)) as [D L].
    rewrite D, Hbs in * by assumption. cbn [bind].
    pose proof (pat_lt W lsb p size Hs Hp _ Hk') as Lp.
    rewrite !Hcnt by assumption.
    assert (Kk : forall j, (N.of_nat k <= j < 2 ^ N.of_nat size)%N -> j = N.of_nat k \/ (N.of_nat (Datatypes.S k) <= j < 2 ^ N.of_nat size)%N) by lia.
    assert (Mono : forall j, (N.of_nat k <= j)%N -> (pt (N.of_nat k) <= pt j)%N) by (intros; apply pat_mono; assumption).
    destruct (Z.ltb_spec (cost (pt (N.of_nat k))) md) as [C|C].
    { apply IH; try assumption; try lia. right; eexists; reflexivity.
      right. exists (N.of_nat k). split; [lia|]. split; [reflexivity|]. split; [reflexivity|].
      intros j Hj. destruct (Kk j Hj) as [->|Hj']. unfold geq; lia.
      destruct Hinv as [[M1 [M2 M3]]|[j0 [J1 [J2 [J3 J4]]]]].
      - destruct (M3 j Hj'). unfold geq. lia.
      - apply (geq_trans _ mp); [unfold geq; lia|]. now apply J4. }
    destruct (Z.eqb_spec (cost (pt (N.of_nat k))) md) as [C'|C']; cbn [andb];
      [destruct (N.ltb_spec (N.of_nat (pop mp)) (N.of_nat (pop (pt (N.of_nat k))))) as [P|P]|].
    + apply IH; try assumption; try lia. right; eexists; reflexivity.
      right. exists (N.of_nat k). split; [lia|]. split; [reflexivity|]. split; [now symmetry|].
      intros j Hj. destruct (Kk j Hj) as [->|Hj']. unfold geq; lia.
      destruct Hinv as [[M1 [M2 M3]]|[j0 [J1 [J2 [J3 J4]]]]].
      * destruct (M3 j Hj'). unfold geq. lia.
      * apply (geq_trans _ mp); [unfold geq; lia|]. now apply J4.
    + apply IH; try assumption; try lia. right; eexists; reflexivity.
      destruct Hinv as [[M1 [M2 M3]]|[j0 [J1 [J2 [J3 J4]]]]].
      * left. split; [assumption|]. split; [assumption|]. intros j Hj.
        destruct (Kk j Hj) as [->|Hj']; [|now apply M3]. split; [now symmetry|]. rewrite M2, pop0 in P. lia.
      * right. exists j0. split; [lia|]. split; [assumption|]. split; [assumption|].
        intros j Hj. destruct (Kk j Hj) as [->|Hj']; [|now apply J4].
        unfold geq. right. split; [lia|]. specialize (Mono j0 ltac:(lia)). rewrite <- J2 in Mono. lia.
    + apply IH; try assumption; try lia. right; eexists; reflexivity.
      destruct Hinv as [[M1 [M2 M3]]|[j0 [J1 [J2 [J3 J4]]]]]; [lia|].
      right. exists j0. split; [lia|]. split; [assumption|]. split; [assumption|].
      intros j Hj. destruct (Kk j Hj) as [->|Hj']; [|now apply J4]. unfold geq. lia.
Qed.

Lemma search_ok : (size <= 30)%nat -> pb_make_mask W bl lsb (Z.of_nat p) (Z.of_nat size) = Ret mask ->
  exists q, pb_search_best_temper S T W count_bit bitSize defect bl lsb s (Z.of_nat p) i (Z.of_nat (p + size)) =
              Ret (cost q, make mask q i s) /\
    best_pattern (N.to_nat W) (fun q => cost q) lo size q.
Proof.
  intros H30 Em. unfold pb_search_best_temper.
  replace (Z.of_nat (p + size) - Z.of_nat p) with (Z.of_nat size) by lia.
  rewrite Em. cbn [bind]. rewrite int_pow2_ok by lia. cbn [bind].
  assert (Ek : N.of_nat (Z.to_nat (2 ^ Z.of_nat size)) = (2 ^ N.of_nat size)%N).
  { rewrite Z_nat_N. rewrite Z2N.inj_pow by lia. f_equal. lia. }
  destruct (loop_ok (Z.to_nat (2 ^ Z.of_nat size)) s (bitSize s * bl) 0%N) as [s2 [md [mp [E [H2 [H3 H4]]]]]].
  - now left.
  - lia.
  - apply pow2_pos.
  - left. split; [reflexivity|]. split; [reflexivity|]. intros j. lia.
  - rewrite E. cbn [bind]. exists mp. unfold pb_make_temper_bit.
    assert (E2 : make mask mp i s2 = make mask mp i s) by (destruct H2 as [->|[q ->]]; [reflexivity|now apply Hover]).
    rewrite E2.
    assert (P0 : (0 < 2 ^ N.of_nat size)%N) by apply pow2_pos.
    assert (Z0 : pt 0%N = 0%N) by (unfold pat; apply N.shiftl_0_l).
    destruct H4 as [[M1 [M2 M3]]|[j0 [J1 [J2 [J3 J4]]]]].
    + subst mp. destruct (M3 0%N ltac:(lia)) as [M4 M5]. rewrite Z0 in M4.
      rewrite M4. split; [reflexivity|]. split; [intros j; now rewrite N.bits_0|].
      intros q' Hq'. destruct (window_pat W lsb p size Hs Hp q' Hq') as [j [Hj ->]].
      destruct (M3 j ltac:(lia)) as [M6 M7]. right. split; [lia|]. right. rewrite M7, pop0. split; [reflexivity|].
      apply pop_zero in M7. rewrite M7. lia. now apply pat_lt.
    + rewrite J3. split; [reflexivity|]. split; [subst mp; apply pat_window; (assumption || lia)|].
      intros q' Hq'. destruct (window_pat W lsb p size Hs Hp q' Hq') as [j [Hj ->]]. apply J4. lia.
Qed.
End Step.

(** The whole search. *)
Hypothesis Hstep : (1 <= step)%nat.
Hypothesis Hsmall : (Nat.min step try_bit_len <= 30)%nat.
Hypothesis Htry : (N.of_nat try_bit_len <= W)%N.
Notation mk := (fun m q i s => t_up T (t_set T m q i s)).

Lemma tempered_app l1 l2 s s1 s2 : tempered mk cost_of W lsb l1 s s1 -> tempered mk cost_of W lsb l2 s1 s2 ->
  tempered mk cost_of W lsb (l1 ++ l2) s s2.
Proof. induction 1; intros; [assumption|]. cbn. econstructor; eauto. Qed.

Lemma params_ok p size : (1 <= size <= 30)%nat -> (N.of_nat (p + size) <= W)%N ->
  forall cnt i s, (i + cnt <= param_num)%nat -> legal s ->
  exists s', pb_params S T W count_bit bitSize defect bl lsb cnt i (Z.of_nat p) (Z.of_nat (p + size)) s = Ret s' /\ legal s' /\
    tempered mk cost_of W lsb (map (fun i => (p, size, i)) (seq i cnt)) s s'.
Proof.
  intros Hs Hp. destruct (make_mask_ok W lsb p size ltac:(lia) Hp) as [m [Em [Lm Hm]]].
  induction cnt as [|c IH]; intros i s Hi Ls.
  - exists s. split; [reflexivity|]. split; [assumption|constructor].
  - cbn [pb_params].
    destruct (search_ok p size i s m ltac:(lia) Hp ltac:(lia) Ls Lm ltac:(lia) Em) as [q [E B]].
    rewrite E. cbn [bind].
    destruct (IH (Datatypes.S i) (mk m q i s) ltac:(lia) (Hlegal m q i s Lm Ls ltac:(lia))) as [s' [E' [L' C']]].
    exists s'. split; [exact E'|]. split; [exact L'|]. cbn [seq map]. econstructor; eassumption.
Qed.

Notation K := ((try_bit_len + step - 1) / step)%nat.
Lemma K_spec k : (k < K)%nat <-> (k * step < try_bit_len)%nat.
Proof.
  pose proof (Nat.div_mod (try_bit_len + step - 1) step ltac:(lia)).
  pose proof (Nat.mod_upper_bound (try_bit_len + step - 1) step ltac:(lia)).
  split; intros; nia.
Qed.
Lemma windows_ok fuel : forall k s, (k <= K)%nat -> (K - k < fuel)%nat -> legal s ->
  exists s', pb_windows S T W count_bit bitSize defect bl (Z.of_nat param_num) (Z.of_nat try_bit_len) (Z.of_nat step) lsb
               fuel (Z.of_nat (k * step)) s = Ret s' /\ legal s' /\
    tempered mk cost_of W lsb
      (flat_map (fun '(p, size) => map (fun i => (p, size, i)) (seq 0 param_num))
        (map (fun k => (k * step, Nat.min step (try_bit_len - k * step))%nat) (seq k (K - k)))) s s'.
Proof.
  induction fuel as [|f IH]; intros k s Hk Hf Ls; [lia|].
  cbn [pb_windows].
  destruct (Z.ltb_spec (Z.of_nat (k * step)) (Z.of_nat try_bit_len)) as [C|C].
  - assert (Hk1 : (k < K)%nat) by (apply K_spec; lia).
    replace (K - k)%nat with (Datatypes.S (K - Datatypes.S k)) by lia. cbn [seq map flat_map].
    set (size := Nat.min step (try_bit_len - k * step)).
    assert (Em : (if Z.of_nat (k * step) + Z.of_nat step >? Z.of_nat try_bit_len then Z.of_nat try_bit_len
                  else Z.of_nat (k * step) + Z.of_nat step) = Z.of_nat (k * step + size)).
    { rewrite Z.gtb_ltb. destruct (Z.ltb_spec (Z.of_nat try_bit_len) (Z.of_nat (k * step) + Z.of_nat step)); unfold size; lia. }
    rewrite Em, Nat2Z.id.
    destruct (params_ok (k * step) size ltac:(unfold size; lia) ltac:(unfold size; lia) param_num 0 s ltac:(lia) Ls) as [s1 [E1 [L1 C1]]].
    rewrite E1. cbn [bind].
    replace (Z.of_nat (k * step) + Z.of_nat step) with (Z.of_nat (Datatypes.S k * step)) by lia.
    destruct (IH (Datatypes.S k) s1 ltac:(lia) ltac:(lia) L1) as [s2 [E2 [L2 C2]]].
    exists s2. split; [exact E2|]. split; [exact L2|]. eapply tempered_app; eassumption.
  - assert (K - k = 0)%nat as ->.
    { destruct (Nat.lt_ge_cases k K) as [H|H]; [apply K_spec in H|]; lia. }
    exists s. split; [reflexivity|]. split; [assumption|constructor].
Qed.

Hypothesis Hrev : forall s, legal s -> legal (t_setRev T s) /\ legal (t_resetRev T s).
Lemma call_ok fuel s : (try_bit_len < fuel)%nat -> legal s ->
  exists s1, pb_call S T W count_bit bitSize defect bl (Z.of_nat param_num) (Z.of_nat try_bit_len) (Z.of_nat step) lsb fuel s =
               Ret (0, t_resetRev T s1) /\ legal s1 /\
    tempered mk cost_of W lsb (step_list try_bit_len step param_num) (if lsb then t_setRev T s else t_resetRev T s) s1.
Proof.
  intros Hf Ls. unfold pb_call. set (s0 := if lsb then _ else _).
  assert (L0 : legal s0) by (unfold s0; destruct (Hrev s Ls); destruct lsb; assumption).
  assert (HK : (K <= try_bit_len)%nat).
  { apply Nat.nlt_ge. intros H. apply K_spec in H. nia. }
  destruct (windows_ok fuel 0 s0 ltac:(lia) ltac:(lia) L0) as [s1 [E [L C]]].
  cbn [Nat.mul] in E. change (Z.of_nat 0) with 0 in E. rewrite E. cbn [bind].
  exists s1. split; [reflexivity|]. split; [assumption|]. rewrite Nat.sub_0_r in C. exact C.
Qed.

(** Effect on the parameters. *)
Section View.
Variable view : S -> nat -> N.
Hypothesis Hview : forall m q i s j, (m < 2 ^ W)%N -> legal s -> (i < param_num)%nat ->
  view (make m q i s) j = if (i =? j)%nat then N.lor (N.ldiff (view s j) m) (N.land q m) else view s j.
Definition covered (l : list (nat * nat * nat)) (i : nat) (b : N) : Prop :=
  exists p size, In (p, size, i) l /\ (window_lo W lsb p size <= b < window_lo W lsb p size + N.of_nat size)%N.
Lemma view_outside l s s' : tempered mk cost_of W lsb l s s' -> legal s ->
  (forall p size i, In (p, size, i) l -> (i < param_num)%nat) ->
  forall i b, ~ covered l i b -> N.testbit (view s' i) b = N.testbit (view s i) b.
Proof.
  induction 1 as [s|p size i0 m q r s s' Hm Lm Hq Ht IH]; intros Ls Hl i b Hc; [reflexivity|].
  assert (Hi0 : (i0 < param_num)%nat) by (apply (Hl p size); now left).
  rewrite IH.
  - rewrite Hview by assumption. destruct (Nat.eqb_spec i0 i) as [->|]; [|reflexivity].
    rewrite N.lor_spec, N.ldiff_spec, N.land_spec.
    assert (Em : N.testbit m b = false).
    { destruct (N.testbit m b) eqn:E; [|reflexivity]. exfalso. apply Hc. exists p, size. split; [now left|]. now apply Hm. }
    rewrite Em. destruct (N.testbit (view s i) b), (N.testbit q b); reflexivity.
  - now apply Hlegal.
  - intros; eapply Hl; right; eassumption.
  - intros [p' [size' [H1 H2]]]. apply Hc. exists p', size'. split; [now right|assumption].
Qed.

(** No step makes the defect larger, if putting back the present bits changes
    nothing. *)
Hypothesis Hback : forall m i s, (m < 2 ^ W)%N -> legal s -> (i < param_num)%nat ->
  cost_of (make m (N.land (view s i) m) i s) = cost_of s.
Lemma never_worse l s s' : tempered mk cost_of W lsb l s s' -> legal s ->
  (forall p size i, In (p, size, i) l -> (i < param_num)%nat) -> cost_of s' <= cost_of s.
Proof.
  induction 1 as [s|p size i0 m q r s s' Hm Lm Hq Ht IH]; intros Ls Hl; [lia|].
  assert (Hi0 : (i0 < param_num)%nat) by (apply (Hl p size); now left).
  transitivity (cost_of (make m q i0 s)).
  - apply IH; [now apply Hlegal|]. intros; eapply Hl; right; eassumption.
  - destruct Hq as [_ Hq]. specialize (Hq (N.land (view s i0) m)). cbv beta in Hq. rewrite Hback in Hq by assumption.
    enough (in_window (window_lo W lsb p size) size (N.land (view s i0) m)) by (apply Hq in H; lia).
    intros j. rewrite N.land_spec. intros H. apply andb_prop in H. now apply Hm.
Qed.
End View.
End Pbp.

(** The windows cover each of the n bits once. *)
Lemma filter_eq_one a : forall n k, (k <= a < k + n)%nat -> length (filter (fun x => Nat.eqb x a) (seq k n)) = 1%nat.
Proof.
  induction n as [|n IH]; intros k H; [lia|]. cbn [seq filter].
  destruct (Nat.eqb_spec k a) as [->|N0].
  - cbn [length]. f_equal.
    rewrite (proj2 (length_zero_iff_nil _)); [reflexivity|].
    destruct (filter _ _) as [|x l] eqn:E; [reflexivity|].
    assert (In x (filter (fun x => Nat.eqb x a) (seq (Datatypes.S a) n))) as Hx by (rewrite E; now left).
    apply filter_In in Hx. destruct Hx as [Hx1 Hx2]. apply in_seq in Hx1. apply Nat.eqb_eq in Hx2. lia.
  - apply IH. lia.
Qed.
Lemma windows_cover n step j : (1 <= step)%nat -> (j < n)%nat ->
  length (filter (fun '(p, size) => (p <=? j) && (j <? p + size)) (window_list n step))%nat = 1%nat.
Proof.
  intros Hs Hj. unfold window_list.
  assert (E : forall l, length (filter (fun '(p, size) => (p <=? j) && (j <? p + size)) (map (fun k => (k * step, Nat.min step (n - k * step))) l))%nat
      = length (filter (fun k => Nat.eqb k (j / step)) l)).
  { induction l as [|k l IH]; [reflexivity|]. cbn [map filter].
    replace ((k * step <=? j) && (j <? k * step + Nat.min step (n - k * step)))%nat with (k =? j / step)%nat.
    - destruct (k =? j / step)%nat; cbn [length]; now rewrite IH.
    - pose proof (Nat.div_mod j step ltac:(lia)). pose proof (Nat.mod_upper_bound j step ltac:(lia)).
      apply eq_true_iff_eq. rewrite andb_true_iff, Nat.eqb_eq, Nat.leb_le, Nat.ltb_lt. split; intros; nia. }
  rewrite E. apply filter_eq_one. split; [apply Nat.le_0_l|]. cbn [Nat.add].
  pose proof (Nat.div_mod (n + step - 1) step ltac:(lia)).
  pose proof (Nat.mod_upper_bound (n + step - 1) step ltac:(lia)).
  pose proof (Nat.div_mod j step ltac:(lia)). pose proof (Nat.mod_upper_bound j step ltac:(lia)). nia.
Qed.
Lemma windows_in n step p size : (1 <= step)%nat -> In (p, size) (window_list n step) -> (1 <= size /\ p + size <= n)%nat.
Proof.
  intros Hs H. apply in_map_iff in H. destruct H as [k [E Hk]]. injection E as <- <-. apply in_seq in Hk.
  pose proof (Nat.div_mod (n + step - 1) step ltac:(lia)).
  pose proof (Nat.mod_upper_bound (n + step - 1) step ltac:(lia)). nia.
Qed.
Lemma steps_in n step k p size i : In (p, size, i) (step_list n step k) <-> In (p, size) (window_list n step) /\ (i < k)%nat.
Proof.
  unfold step_list. rewrite in_flat_map. split.
  - intros [[p' s'] [H1 H2]]. apply in_map_iff in H2. destruct H2 as [i' [E H2]]. injection E as -> -> ->. apply in_seq in H2. split; [assumption|lia].
  - intros [H1 H2]. exists (p, size). split; [assumption|]. apply in_map_iff. exists i. split; [reflexivity|]. apply in_seq. lia.
Qed.

(** The theorems with the laws collected. *)
Section Thm.
Variables (S : Type) (T : temper_ops S).
Variables (W : N) (count_bit : N -> N) (bitSize : S -> Z) (defect : S -> res Z) (cost : S -> Z).
Variables (param_num try_bit_len step : nat) (lsb : bool) (legal : S -> Prop).
Notation mk := (fun m q i s => t_up T (t_set T m q i s)).
Hypothesis HL : temper_laws mk bitSize cost W param_num legal.
Hypothesis Hdef : forall s, legal s -> defect s = Ret (cost s).
Hypothesis Hrev : forall s, legal s -> legal (t_setRev T s) /\ legal (t_resetRev T s).
Hypothesis Hcnt : forall x, (x < 2 ^ W)%N -> count_bit x = N.of_nat (popcount (N.to_nat W) x).
Hypothesis Hstep : (1 <= step)%nat.
Hypothesis Htry : (N.of_nat try_bit_len <= W)%N.

Lemma tempered_ext c1 c2 l s s' : (forall s, legal s -> c1 s = c2 s) -> legal s ->
  (forall p size i, In (p, size, i) l -> (i < param_num)%nat) ->
  tempered mk c1 W lsb l s s' -> tempered mk c2 W lsb l s s'.
Proof.
  intros He Ls Hl H. induction H as [s|p size i0 m q r s s' Hm Lm [Hq1 Hq2] Ht IH]; [constructor|].
  assert (Hi0 : (i0 < param_num)%nat) by (apply (Hl p size); now left).
  econstructor; [eassumption|eassumption| |].
  - split; [eassumption|]. intros q' Hq'. specialize (Hq2 q' Hq'). cbv beta in Hq2.
    rewrite !He in Hq2 by (now apply (tl_legal _ _ _ _ _ _ HL)). exact Hq2.
  - apply IH; [now apply (tl_legal _ _ _ _ _ _ HL)|]. intros; eapply Hl; right; eassumption.
Qed.

Lemma pbp_thm fuel s : (Nat.min step try_bit_len <= 30)%nat -> (try_bit_len < fuel)%nat -> legal s ->
  exists s1, pb_call S T W count_bit bitSize defect (Z.of_N W) (Z.of_nat param_num) (Z.of_nat try_bit_len) (Z.of_nat step) lsb fuel s =
               Ret (0, t_resetRev T s1) /\ legal s1 /\
    tempered mk cost W lsb (step_list try_bit_len step param_num) (if lsb then t_setRev T s else t_resetRev T s) s1.
Proof.
  intros H30 Hf Ls.
  destruct (call_ok S T W count_bit bitSize defect param_num try_bit_len step lsb legal) with (fuel := fuel) (s := s) as [s1 [E [L1 C]]]; try assumption.
  - intros; now apply (tl_legal _ _ _ _ _ _ HL).
  - intros; now apply (tl_over _ _ _ _ _ _ HL).
  - intros s0 L0. exists (cost s0). split; [now apply Hdef|now apply (tl_cost _ _ _ _ _ _ HL)].
  - intros; now apply (tl_size _ _ _ _ _ _ HL).
  - exists s1. split; [exact E|]. split; [exact L1|].
    eapply tempered_ext; [| | |exact C].
    + intros s0 L0. unfold cost_of. now rewrite Hdef.
    + destruct (Hrev s Ls). destruct lsb; assumption.
    + intros p size i H. apply steps_in in H. tauto.
Qed.

Section View.
Variable view : S -> nat -> N.
Hypothesis HV : temper_view mk cost W param_num legal view.
Lemma outside_thm s s1 i b : legal s ->
  tempered mk cost W lsb (step_list try_bit_len step param_num) s s1 ->
  (if lsb then (N.of_nat try_bit_len <= b)%N else (b < W - N.of_nat try_bit_len \/ W <= b)%N) ->
  N.testbit (view s1 i) b = N.testbit (view s i) b.
Proof.
  clear Hcnt Hrev. intros Ls H Hb.
  assert (Ht : tempered mk (cost_of S defect) W lsb (step_list try_bit_len step param_num) s s1).
  { eapply tempered_ext; [|exact Ls| |exact H].
    - intros s0 L0. unfold cost_of. now rewrite Hdef.
    - intros p size j Hin. apply steps_in in Hin. tauto. }
  eapply view_outside with (param_num := param_num) (l := step_list try_bit_len step param_num) (defect := defect); try eassumption.
  - intros; now apply (tl_legal _ _ _ _ _ _ HL).
  - intros; now apply (tv_bits _ _ _ _ _ _ HV).
  - intros p size j Hin. apply steps_in in Hin. tauto.
  - intros [p [size [H1 H2]]]. apply steps_in in H1. destruct H1 as [H1 _]. apply windows_in in H1; [|assumption].
    unfold window_lo in H2. destruct lsb; lia.
Qed.
Lemma worse_thm s s1 : legal s -> tempered mk cost W lsb (step_list try_bit_len step param_num) s s1 -> cost s1 <= cost s.
Proof.
  clear Hcnt Hrev Hdef.
  assert (G : forall l s s1, tempered mk cost W lsb l s s1 -> legal s ->
    (forall p size i, In (p, size, i) l -> (i < param_num)%nat) -> cost s1 <= cost s).
  { clear s s1. induction 1 as [s|p size i0 m q r s s' Hm Lm Hq Ht IH]; intros Ls Hl; [lia|].
    assert (Hi0 : (i0 < param_num)%nat) by (apply (Hl p size); now left).
    transitivity (cost (mk m q i0 s)).
    - apply IH; [now apply (tl_legal _ _ _ _ _ _ HL)|]. intros; eapply Hl; right; eassumption.
    - destruct Hq as [_ Hq]. specialize (Hq (N.land (view s i0) m)). cbv beta in Hq.
      rewrite (tv_same _ _ _ _ _ _ HV) in Hq by assumption.
      enough (in_window (window_lo W lsb p size) size (N.land (view s i0) m)) by (apply Hq in H; cbv beta; lia).
      intros j. rewrite N.land_spec. intros H. apply andb_prop in H. now apply Hm. }
  intros Ls H. eapply G; [exact H|exact Ls|]. intros p size j Hin. apply steps_in in Hin. tauto.
Qed.
End View.

End Thm.
Lemma wide_undef S (T : temper_ops S) W count_bit bitSize defect param_num try_bit_len step lsb (Htry : (N.of_nat try_bit_len <= W)%N) fuel s : (1 <= param_num)%nat -> (31 <= Nat.min step try_bit_len)%nat -> (1 <= fuel)%nat ->
  pb_call S T W count_bit bitSize defect (Z.of_N W) (Z.of_nat param_num) (Z.of_nat try_bit_len) (Z.of_nat step) lsb fuel s = Undef.
Proof.
  intros Hpn Hw Hf. unfold pb_call. destruct fuel as [|f]; [lia|]. cbn [pb_windows].
  destruct (Z.ltb_spec 0 (Z.of_nat try_bit_len)); [|lia].
  set (md := if _ >? _ then _ else _).
  assert (Emd : md = Z.of_nat (0 + Nat.min step try_bit_len)).
  { unfold md. rewrite Z.gtb_ltb. destruct (Z.ltb_spec (Z.of_nat try_bit_len) (0 + Z.of_nat step)); lia. }
  rewrite Emd, Nat2Z.id. destruct param_num as [|k]; [lia|]. cbn [pb_params]. unfold pb_search_best_temper.
  replace (Z.of_nat (0 + Nat.min step try_bit_len) - 0) with (Z.of_nat (Nat.min step try_bit_len)) by lia.
  destruct (make_mask_ok W lsb 0 (Nat.min step try_bit_len) ltac:(lia) ltac:(lia)) as [m [Em _]].
  change (Z.of_nat 0) with 0 in Em. rewrite Em. cbn [bind]. unfold int_pow2.
  destruct (Z.leb_spec (Z.of_nat (Nat.min step try_bit_len)) 30); [lia|]. rewrite andb_false_r. reflexivity.
Qed.
