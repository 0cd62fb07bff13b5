(** Proofs about AlgorithmBestBits. *)
From Coq Require Import NArith ZArith List Bool Lia.
From Verif Require Import Base WordLemmas EquiModel TemperModel TemperProofs BestBitsSpec.
Import ListNotations.
Local Open Scope Z_scope.

(** * Arrays *)
Lemma geti_nth (A : Type) (d : A) l i : (i < length l)%nat -> geti l (Z.of_nat i) = Ret (nth i l d).
Proof.
  intros H. unfold geti. destruct (Z.ltb_spec (Z.of_nat i) 0); [lia|].
  rewrite Nat2Z.id, (nth_error_nth' l d) by assumption. reflexivity.
Qed.
Lemma seti_upd (A : Type) (l : list A) i x : (i < length l)%nat -> seti l (Z.of_nat i) x = Ret (upd l i x).
Proof.
  intros H. unfold seti. destruct (Z.ltb_spec (Z.of_nat i) 0); [lia|].
  destruct (Z.leb_spec (Z.of_nat (length l)) (Z.of_nat i)); [lia|]. cbn. now rewrite Nat2Z.id.
Qed.
Lemma upd_length (A : Type) (l : list A) i x : length (upd l i x) = length l.
Proof. revert i. induction l as [|y l IH]; intros [|i]; cbn; auto. Qed.
Lemma upd_nth (A : Type) (d : A) l i x j : (i < length l)%nat ->
  nth j (upd l i x) d = if (j =? i)%nat then x else nth j l d.
Proof.
  revert i j. induction l as [|y l IH]; intros [|i] [|j] H; cbn in *; try lia; try reflexivity.
  now rewrite IH by lia.
Qed.

Section Walk.
Variables (W : N) (size : nat) (shifts : list Z).
Hypothesis Hsize : (1 <= size)%nat.
Hypothesis Hlen : length shifts = size.
Notation np := (size * (size + 1) / 2)%nat.
Notation dist r := (fold_right Z.add 0 (firstn r (rev shifts))).

(** The cells the loops go through. *)
Fixpoint walk (k : nat) (st : nat * nat * Z * Z) : res (list (nat * Z)) :=
  match k with
  | O => Ret []
  | Datatypes.S k' => do st' <- bb_next size shifts st; do l <- walk k' st';
      Ret ((fst (fst (fst st)), snd st) :: l)
  end.
Definition at_cell (r c : nat) : nat * nat * Z * Z := ((Nat.pred r + c)%nat, r, Z.of_nat size - 1 - Z.of_nat r, dist r).
Definition rest (r c : nat) : list (nat * Z) :=
  map (fun i => (i, dist r)) (seq (Nat.pred r + c) (size - Nat.pred r - c)) ++
  flat_map (cell_row size shifts) (seq (Datatypes.S r) (size - Datatypes.S r)).

Lemma dist_S r : (r < size)%nat -> dist (Datatypes.S r) = dist r + nth (size - 1 - r) shifts 0.
Proof.
  intros H.
  assert (E : forall (l : list Z) k, (k < length l)%nat -> fold_right Z.add 0 (firstn (Datatypes.S k) l) = fold_right Z.add 0 (firstn k l) + nth k l 0).
  { induction l as [|x l IH]; intros k Hk; cbn [length] in Hk; [lia|]. destruct k as [|k].
    - cbn. lia.
    - change (x + fold_right Z.add 0 (firstn (Datatypes.S k) l) = x + fold_right Z.add 0 (firstn k l) + nth k l 0).
      rewrite IH by lia. lia. }
  rewrite E by (rewrite rev_length; lia). f_equal. rewrite rev_nth by lia. f_equal. lia.
Qed.
Lemma next_ok r c : (r < size)%nat -> (c < size - Nat.pred r)%nat ->
  bb_next size shifts (at_cell r c) =
    Ret (if (Datatypes.S c <? size - Nat.pred r)%nat then at_cell r (Datatypes.S c) else at_cell (Datatypes.S r) 0).
Proof.
  intros Hr Hc. unfold bb_next, at_cell at 1.
  destruct (Nat.leb_spec size (Datatypes.S (Nat.pred r + c))) as [H|H], (Nat.ltb_spec (Datatypes.S c) (size - Nat.pred r)) as [H'|H']; try lia.
  - replace (Z.of_nat size - 1 - Z.of_nat r) with (Z.of_nat (size - 1 - r)) by lia.
    rewrite (geti_nth _ 0) by lia. cbn [bind]. unfold at_cell. rewrite dist_S by assumption. cbn [Nat.pred].
    rewrite Nat.add_0_r. replace (Z.of_nat size - 1 - Z.of_nat (Datatypes.S r)) with (Z.of_nat (size - 1 - r) - 1) by lia. reflexivity.
  - unfold at_cell. rewrite Nat.add_succ_r. reflexivity.
Qed.
Lemma walk_ok : forall k r c, (r < size)%nat -> (c < size - Nat.pred r)%nat -> (k <= length (rest r c))%nat ->
  walk k (at_cell r c) = Ret (firstn k (rest r c)).
Proof.
  induction k as [|k IH]; intros r c Hr Hc Hk; [reflexivity|].
  cbn [walk]. rewrite next_ok by assumption. cbn [bind].
  assert (E : rest r c = ((Nat.pred r + c)%nat, dist r) ::
     if (Datatypes.S c <? size - Nat.pred r)%nat then rest r (Datatypes.S c)
     else if (Datatypes.S r <? size)%nat then rest (Datatypes.S r) 0 else []).
  { unfold rest at 1. replace (size - Nat.pred r - c)%nat with (Datatypes.S (size - Nat.pred r - Datatypes.S c)) by lia.
    cbn [seq map app]. f_equal.
    destruct (Nat.ltb_spec (Datatypes.S c) (size - Nat.pred r)) as [H|H].
    - unfold rest. replace (Datatypes.S (Nat.pred r + c)) with (Nat.pred r + Datatypes.S c)%nat by lia. reflexivity.
    - replace (size - Nat.pred r - Datatypes.S c)%nat with 0%nat by lia. cbn [seq map app].
      destruct (Nat.ltb_spec (Datatypes.S r) size) as [H'|H'].
      + replace (size - Datatypes.S r)%nat with (Datatypes.S (size - Datatypes.S (Datatypes.S r))) by lia.
        cbn [seq flat_map]. unfold rest, cell_row at 1. cbn [Nat.pred]. rewrite Nat.add_0_r, Nat.sub_0_r. reflexivity.
      + replace (size - Datatypes.S r)%nat with 0%nat by lia. reflexivity. }
  rewrite E in *. cbn [length] in Hk. cbn [firstn].
  change (fst (fst (fst (at_cell r c)))) with (Nat.pred r + c)%nat. change (snd (at_cell r c)) with (dist r).
  destruct (Nat.ltb_spec (Datatypes.S c) (size - Nat.pred r)) as [H|H].
  - rewrite IH by lia. reflexivity.
  - destruct (Nat.ltb_spec (Datatypes.S r) size) as [H'|H'].
    + rewrite IH by (try assumption; cbn [Nat.pred]; lia). reflexivity.
    + cbn [length] in Hk. replace k with 0%nat by lia. reflexivity.
Qed.
Lemma rows_length d : (d < size)%nat ->
  (2 * length (flat_map (cell_row size shifts) (seq (size - d) d)) = (d + 1) * (d + 2) - 2)%nat.
Proof.
  induction d as [|d IH]; intros H; [reflexivity|].
  replace (size - Datatypes.S d)%nat with (Nat.pred (size - d)) by lia.
  cbn [seq flat_map]. rewrite app_length. unfold cell_row at 1. rewrite map_length, seq_length.
  replace (Datatypes.S (Nat.pred (size - d))) with (size - d)%nat by lia. specialize (IH ltac:(lia)).
  replace (size - Nat.pred (Nat.pred (size - d)))%nat with (d + 2)%nat by lia. nia.
Qed.
Lemma np2 : (2 * np = size * (size + 1))%nat.
Proof.
  assert (E : Nat.even (size * (size + 1)) = true) by (rewrite Nat.even_mul, Nat.even_add; destruct (Nat.even size); reflexivity).
  apply Nat.even_spec in E. destruct E as [x E]. rewrite E at 1. rewrite (Nat.mul_comm 2 x), Nat.div_mul by lia. lia.
Qed.
Lemma np_pos : (1 <= np)%nat.
Proof. pose proof np2. nia. Qed.
Lemma cells_length : length (cells size shifts) = np.
Proof.
  unfold cells. rewrite firstn_length. apply Nat.min_l.
  replace (seq 0 size) with (0 :: seq 1 (size - 1))%nat by (replace size with (Datatypes.S (size - 1)) at 2 by lia; reflexivity).
  cbn [flat_map]. rewrite app_length. unfold cell_row at 1. rewrite map_length, seq_length.
  pose proof (rows_length (size - 1) ltac:(lia)) as E. replace (size - (size - 1))%nat with 1%nat in E by lia.
  pose proof np2. cbn [Nat.pred]. nia.
Qed.
Lemma rest_all : rest 0 0 = flat_map (cell_row size shifts) (seq 0 size).
Proof.
  replace (seq 0 size) with (0 :: seq 1 (size - 1))%nat by (replace size with (Datatypes.S (size - 1)) at 2 by lia; reflexivity).
  cbn [flat_map]. unfold rest, cell_row at 2. cbn [Nat.pred]. rewrite Nat.add_0_r, !Nat.sub_0_r. reflexivity.
Qed.
Lemma walk_cells : walk np (bb_start size) = Ret (cells size shifts).
Proof.
  replace (bb_start size) with (at_cell 0 0) by (unfold at_cell, bb_start; cbn [Nat.pred Nat.add firstn fold_right]; do 2 f_equal; lia).
  rewrite walk_ok.
  - now rewrite rest_all.
  - lia.
  - cbn [Nat.pred]. lia.
  - rewrite rest_all. pose proof cells_length as E. unfold cells in E. rewrite firstn_length in E.
    revert E. generalize np (length (flat_map (cell_row size shifts) (seq 0 size))). lia.
Qed.
Hypothesis Hsh : forall x, In x shifts -> 0 <= x.
Lemma dist_nonneg r : 0 <= dist r.
Proof.
  assert (E : forall l k, (forall x, In x l -> 0 <= x) -> 0 <= fold_right Z.add 0 (firstn k l)).
  { induction l as [|x l IH]; intros [|k] H; cbn; try lia. specialize (IH k (fun y Hy => H y (or_intror Hy))). specialize (H x (or_introl eq_refl)). lia. }
  apply E. intros x Hx. apply Hsh. now apply in_rev.
Qed.
Lemma cells_in i d : In (i, d) (cells size shifts) -> (i < size)%nat /\ 0 <= d.
Proof.
  intros H.
  assert (H' : In (i, d) (flat_map (cell_row size shifts) (seq 0 size))).
  { unfold cells in H. rewrite <- (firstn_skipn np (flat_map _ _)). apply in_or_app. now left. }
  apply in_flat_map in H'. destruct H' as [r [_ H']]. apply in_map_iff in H'. destruct H' as [j [E Hj]].
  injection E as <- <-. apply in_seq in Hj. split; [lia|apply dist_nonneg].
Qed.

(** * The two loops over the cells *)
Definition chs (k : nat) (pat : N) (l : list (nat * Z)) : list (nat * Z * bool) :=
  map (fun '(j, (i, d)) => (i, d, N.testbit pat (N.of_nat (k - 1 - j)))) (combine (seq 0 k) l).
Lemma chs_S k pat i d l : chs (Datatypes.S k) pat ((i, d) :: l) = (i, d, N.testbit pat (N.of_nat k)) :: chs k pat l.
Proof.
  unfold chs. cbn [seq combine map]. f_equal. { f_equal. f_equal. lia. }
  rewrite <- seq_shift. generalize (seq 0 k). intros s. revert l.
  induction s as [|x s IH]; intros [|[i' d'] l]; cbn [map combine]; try reflexivity.
  f_equal; [|apply IH]. do 3 f_equal. lia.
Qed.
Lemma inRange_loop pat v : forall k st l, walk k st = Ret l -> (forall i d, In (i, d) l -> (i < size)%nat) ->
  bb_inRange_loop W size shifts k pat (Z.of_N v) st = Ret (useful W v shifts (chs k pat l)).
Proof.
  induction k as [|k IH]; intros st l Hw Hl.
  - cbn in Hw. injection Hw as <-. reflexivity.
  - cbn [walk] in Hw. destruct (bb_next size shifts st) as [st'| | | |] eqn:E; cbn [bind] in Hw; try discriminate.
    destruct (walk k st') as [l'| | | |] eqn:E'; cbn [bind] in Hw; try discriminate. injection Hw as <-.
    destruct st as [[[index idx] rdx] sum]. cbn [fst snd] in *.
    cbn [bb_inRange_loop]. rewrite chs_S. unfold useful. cbn [forallb].
    assert (Hi : (index < size)%nat) by (apply (Hl index sum); now left).
    assert (Hl' : forall i d, In (i, d) l' -> (i < size)%nat) by (intros; eapply Hl; right; eassumption).
    destruct (N.testbit pat (N.of_nat k)); cbn [negb orb].
    + rewrite (geti_nth _ 0) by lia. cbn [bind]. rewrite Z.gtb_ltb.
      destruct (Z.ltb_spec (Z.of_N W) (Z.of_N v + nth index shifts 0 + sum)), (Z.leb_spec (Z.of_N v + nth index shifts 0 + sum) (Z.of_N W)); try lia; cbn [andb].
      * reflexivity.
      * rewrite E. cbn [bind]. now apply IH.
    + cbn [bind]. rewrite E. cbn [bind]. now apply IH.
Qed.
Lemma inRange_ok pat v : bb_inRange W size shifts pat (Z.of_N v) = Ret (useful W v shifts (choices size shifts pat)).
Proof. unfold bb_inRange. apply inRange_loop. apply walk_cells. intros i d H. now apply cells_in in H. Qed.

Definition small (p : list N) : Prop := length p = size /\ forall j, (nth j p 0 < 2 ^ W)%N.
Lemma pow2_bit W' k : (k < W')%N -> wshl W' 1 k = (2 ^ k)%N.
Proof.
  intros H. unfold wshl, trunc. rewrite N.shiftl_1_l. apply N.mod_small. apply N.pow_lt_mono_r; lia.
Qed.
Lemma pattern_loop pat v para_mask : (forall j, (j < W - v)%N -> N.testbit para_mask j = true) ->
  forall k st l param, walk k st = Ret l -> (forall i d, In (i, d) l -> (i < size)%nat /\ 0 <= d) -> small param ->
  exists param', bb_pattern_loop W size shifts k pat (Z.of_N v) para_mask param st = Ret param' /\ small param' /\
    follows W v (chs k pat l) param param'.
Proof.
  intros Hm. induction k as [|k IH]; intros st l param Hw Hl [Hp1 Hp2].
  - cbn in Hw. injection Hw as <-. exists param. split; [reflexivity|]. split; [split; assumption|].
    split; [reflexivity|]. intros j pos Hj. reflexivity.
  - cbn [walk] in Hw. destruct (bb_next size shifts st) as [st'| | | |] eqn:E; cbn [bind] in Hw; try discriminate.
    destruct (walk k st') as [l'| | | |] eqn:E'; cbn [bind] in Hw; try discriminate. injection Hw as <-.
    destruct st as [[[index idx] rdx] sum]. cbn [fst snd] in *.
    destruct (Hl index sum (or_introl eq_refl)) as [Hi Hd].
    assert (Hl' : forall i d, In (i, d) l' -> (i < size)%nat /\ 0 <= d) by (intros; apply Hl; now right).
    cbn [bb_pattern_loop]. rewrite chs_S. set (b := N.testbit pat (N.of_nat k)).
    assert (exists param1, (if Z.of_N W >? Z.of_N v + sum + 1 then
           do bit <- cshl W 1 (Z.of_N W - Z.of_N v - sum - 1);
           do old <- geti param (Z.of_nat index);
           if b then
             seti param (Z.of_nat index) (N.lor old (N.land bit para_mask))
           else seti param (Z.of_nat index) (N.land old (wnot W bit))
         else Ret param) = Ret param1 /\ small param1 /\
         (forall j pos, (j < size)%nat -> N.testbit (nth j param1 0%N) pos =
            if (index =? j)%nat && (Z.of_N v + sum + 1 <? Z.of_N W) && (Z.of_N W - Z.of_N v - sum - 1 =? Z.of_N pos) then b
            else N.testbit (nth j param 0%N) pos)) as [param1 [E1 [S1 B1]]].
    { rewrite Z.gtb_ltb. destruct (Z.ltb_spec (Z.of_N v + sum + 1) (Z.of_N W)) as [C|C].
      2:{ exists param. split; [reflexivity|]. split; [split; assumption|]. intros j pos _. now rewrite andb_false_r. }
      rewrite cshl_ok by lia. cbn [bind]. rewrite (geti_nth _ 0%N) by lia. cbn [bind].
      set (pz := Z.to_N (Z.of_N W - Z.of_N v - sum - 1)).
      assert (Hpz : (pz < W - v)%N) by (unfold pz; lia).
      rewrite pow2_bit by lia.
      assert (Epos : forall pos, (Z.of_N W - Z.of_N v - sum - 1 =? Z.of_N pos) = (pz =? pos)%N).
      { intros pos. apply eq_true_iff_eq. rewrite Z.eqb_eq, N.eqb_eq. unfold pz. lia. }
      destruct b.
      - rewrite seti_upd by lia. eexists. split; [reflexivity|].
        assert (Ev : N.land (2 ^ pz) para_mask = (2 ^ pz)%N).
        { apply N.bits_inj. intros j. rewrite N.land_spec, N.pow2_bits_eqb.
          destruct (N.eqb_spec pz j) as [<-|]; [|reflexivity]. now rewrite Hm. }
        rewrite Ev. split.
        + split; [now rewrite upd_length|]. intros j. rewrite upd_nth by lia. destruct (Nat.eqb_spec j index); [|apply Hp2].
          apply lor_lt; [apply Hp2|]. apply N.pow_lt_mono_r; lia.
        + intros j pos Hj. rewrite upd_nth by lia. rewrite andb_true_r, Epos, (Nat.eqb_sym index j).
          destruct (Nat.eqb_spec j index) as [->|]; cbn [andb]; [|reflexivity].
          rewrite N.lor_spec, N.pow2_bits_eqb. destruct (N.eqb_spec pz pos); [apply orb_true_r|apply orb_false_r].
      - rewrite seti_upd by lia. eexists. split; [reflexivity|]. split.
        + split; [now rewrite upd_length|]. intros j. rewrite upd_nth by lia. destruct (Nat.eqb_spec j index); [|apply Hp2].
          apply land_lt. apply Hp2.
        + intros j pos Hj. rewrite upd_nth by lia. rewrite andb_true_r, Epos, (Nat.eqb_sym index j).
          destruct (Nat.eqb_spec j index) as [->|]; cbn [andb]; [|reflexivity].
          rewrite N.land_spec. destruct (N.lt_ge_cases pos W) as [L|L].
          * rewrite wnot_spec by assumption. rewrite N.pow2_bits_eqb. destruct (N.eqb_spec pz pos); [apply andb_false_r|apply andb_true_r].
          * rewrite (bits_above W _ pos (Hp2 index) L). now destruct (N.eqb_spec pz pos). }
    rewrite E1. cbn [bind]. rewrite E. cbn [bind].
    destruct (IH st' l' param1 E' Hl' S1) as [param' [E2 [S2 [F1 F2]]]].
    exists param'. split; [exact E2|]. split; [exact S2|]. destruct S1 as [S1 _]. split; [lia|].
    intros j pos Hj. rewrite F2 by lia. rewrite B1 by lia. unfold prescribed. cbn [rev].
    assert (FA : forall (A : Type) (f : A -> bool) l1 x, find f (l1 ++ [x]) = match find f l1 with Some y => Some y | None => if f x then Some x else None end).
    { intros A f l1 x. induction l1 as [|y l1 IHl]; cbn; [reflexivity|]. destruct (f y); [reflexivity|exact IHl]. }
    rewrite FA. destruct (find _ (rev (chs k pat l'))) as [[[? ?] ?]|]; [reflexivity|].
    destruct ((index =? j)%nat && (Z.of_N v + sum + 1 <? Z.of_N W) && (Z.of_N W - Z.of_N v - sum - 1 =? Z.of_N pos)); reflexivity.
Qed.
Lemma make_pattern_ok pat v para : (v < W)%N -> small para ->
  exists param', bb_make_pattern W size shifts pat (Z.of_N v) para = Ret param' /\ small param' /\
    follows W v (choices size shifts pat) para param'.
Proof.
  intros Hv Hp. unfold bb_make_pattern. rewrite cshr_ok by lia. cbn [bind]. unfold choices.
  apply pattern_loop; try assumption.
  - intros j Hj. rewrite wshr_spec, wnot0_spec. apply N.ltb_lt. lia.
  - apply walk_cells.
  - apply cells_in.
Qed.
Lemma useful0 v : useful W v shifts (choices size shifts 0) = true.
Proof.
  unfold useful. apply forallb_forall. intros [[i d] b] H. apply in_map_iff in H. destruct H as [[k [i' d']] [E _]].
  rewrite N.bits_0 in E. injection E as <- <- <-. reflexivity.
Qed.
End Walk.

Section Search.
Variables (S : Type) (T : temper_ops S).
Variables (W : N) (bitSize : S -> Z) (defect : nat -> S -> res Z) (cost : nat -> S -> Z).
Variables (size : nat) (shifts : list Z) (limit : nat) (legal : S -> Prop).
Hypothesis Hsize : (1 <= size <= 7)%nat.
Hypothesis Hlen : length shifts = size.
Hypothesis Hsh : forall x, In x shifts -> 0 <= x.
Hypothesis Hlim : (N.of_nat limit <= W)%N.
Notation np := (size * (size + 1) / 2)%nat.
Notation inst := (bb_install S T W size).
Notation sm := (small W size).
Hypothesis Hil : forall q s, sm q -> legal s -> legal (inst q s).
Hypothesis Hio : forall q q' s, sm q -> sm q' -> legal s -> inst q (inst q' s) = inst q s.
Hypothesis His : forall q s, sm q -> legal s -> bitSize (inst q s) = bitSize s.
Hypothesis Hdef : forall v s, legal s -> (1 <= v <= limit)%nat -> defect v s = Ret (cost v s) /\ cost v s <= bitSize s * Z.of_N W.

Variable s0 : S.
Hypothesis L0 : legal s0.
Notation cst v q := (cost v (inst q s0)).
(** The states met: s0 with some parameters installed. *)
Definition near (s : S) : Prop := legal s /\ bitSize s = bitSize s0 /\ forall q, sm q -> inst q s = inst q s0.
Lemma near0 : near s0.
Proof. repeat split; auto. Qed.
Lemma near_inst q s : sm q -> near s -> near (inst q s).
Proof.
  intros Sq [H1 [H2 H3]]. split; [auto|]. split; [rewrite His by assumption; assumption|].
  intros q' Sq'. rewrite Hio by assumption. now apply H3.
Qed.

(** The running minima. *)
Fixpoint pmin (v : nat) (delta : Z) (l : list (list N)) : list temper_params :=
  match l with
  | [] => []
  | c :: r => if cst v c <=? delta then {| tp_delta := cst v c; tp_param := c |} :: pmin v (cst v c) r
              else pmin v delta r
  end.
Lemma search_loop v para : (v < limit)%nat -> sm para ->
  forall k s delta current, near s ->
  exists s' cands, extends W (N.of_nat v) size shifts para k cands /\ near s' /\ Forall sm cands /\ (1 <= k -> cands <> [])%nat /\
    bb_search_loop S T W defect size shifts k v para s delta current = Ret (s', current ++ pmin (Datatypes.S v) delta cands).
Proof.
  intros Hv Hp. induction k as [|k IH]; intros s delta current Hs.
  - exists s, []. split; [constructor|]. split; [assumption|]. split; [constructor|]. split; [lia|]. cbn. now rewrite app_nil_r.
  - cbn [bb_search_loop]. rewrite <- nat_N_Z.
    rewrite (inRange_ok W size shifts ltac:(lia) Hlen Hsh). cbn [bind].
    destruct (useful W (N.of_nat v) shifts (choices size shifts (N.of_nat k))) eqn:U.
    + destruct (make_pattern_ok W size shifts ltac:(lia) Hlen Hsh (N.of_nat k) (N.of_nat v) para ltac:(lia) Hp) as [q [Eq [Sq Fq]]].
      rewrite Eq. cbn [bind]. pose proof (near_inst q s Sq Hs) as Hn.
      assert (Es : inst q s = inst q s0) by (now apply Hs).
      rewrite Nat.add_1_r.
      destruct (Hdef (Datatypes.S v) (inst q s) ltac:(apply Hn) ltac:(lia)) as [D _]. rewrite D. cbn [bind]. rewrite Es in *.
      destruct (Z.leb_spec (cst (Datatypes.S v) q) delta) as [C|C].
      * destruct (IH (inst q s0) (cst (Datatypes.S v) q) (current ++ [{| tp_delta := cst (Datatypes.S v) q; tp_param := q |}]) Hn)
          as [s' [cands [E1 [N1 [F1 [_ R1]]]]]].
        exists s', (q :: cands). split; [now constructor|]. split; [assumption|]. split; [now constructor|]. split; [discriminate|].
        rewrite R1. cbn [pmin]. rewrite (proj2 (Z.leb_le _ _)) by assumption. now rewrite <- app_assoc.
      * destruct (IH (inst q s0) delta current Hn) as [s' [cands [E1 [N1 [F1 [_ R1]]]]]].
        exists s', (q :: cands). split; [now constructor|]. split; [assumption|]. split; [now constructor|]. split; [discriminate|].
        rewrite R1. cbn [pmin]. rewrite (proj2 (Z.leb_gt _ _)) by assumption. reflexivity.
    + destruct (IH s delta current Hs) as [s' [cands [E1 [N1 [F1 [Z1 R1]]]]]].
      exists s', cands. split; [now constructor|]. split; [assumption|]. split; [assumption|]. split; [|exact R1].
      intros _. apply Z1. destruct k; [|lia]. exfalso. change (N.of_nat 0) with 0%N in U. now rewrite useful0 in U.
Qed.
Lemma pow_np : Z.to_nat (2 ^ Z.of_nat np) = (2 ^ np)%nat.
Proof.
  apply Nat2Z.inj. rewrite Z2Nat.id by (apply Z.pow_nonneg; lia). rewrite Nat2Z.inj_pow. reflexivity.
Qed.
Lemma np_le : (1 <= np <= 30)%nat.
Proof. pose proof (np2 size). pose proof (np_pos size). split; [lia|]. nia. Qed.
Lemma all_ok v : (v < limit)%nat -> forall params s current, Forall sm (map tp_param params) -> near s ->
  exists s' cands, extends_all W (N.of_nat v) size shifts (map tp_param params) cands /\ near s' /\ Forall sm cands /\
    (params <> [] -> cands <> []) /\
    exists pm, bb_all S T W bitSize defect size shifts params v s current = Ret (s', current ++ pm) /\
      (forall x, In x pm -> In (tp_param x) cands /\ tp_delta x = cst (Datatypes.S v) (tp_param x)) /\
      (forall m, (forall c, In c cands -> m <= cst (Datatypes.S v) c) -> m <= bitSize s0 * Z.of_N W ->
         map tp_param (filter (fun x => tp_delta x =? m) pm) = filter (fun c => cst (Datatypes.S v) c =? m) cands).
Proof.
  intros Hv. induction params as [|p r IH]; intros s current Hp Hs.
  - exists s, []. split; [constructor|]. split; [assumption|]. split; [constructor|]. split; [auto|].
    exists []. split; [cbn; now rewrite app_nil_r|]. split; [intros x []|reflexivity].
  - inversion Hp as [|? ? Hp1 Hp2]; subst. cbn [bb_all map].
    destruct (search_loop v (tp_param p) Hv Hp1 (2 ^ np)%nat s (bitSize s * Z.of_N W) current Hs) as [s1 [c1 [E1 [N1 [F1 [Z1 R1]]]]]].
    unfold bb_search_best_temper, bb_num_pat. pose proof np_le. rewrite !int_pow2_ok by lia. cbn [bind]. rewrite pow_np, R1. cbn [bind].
    set (pm1 := pmin _ _ c1).
    destruct (IH s1 (current ++ pm1) Hp2 N1) as [s2 [c2 [E2 [N2 [F2 [Z2 [pm [R2 [I2 M2]]]]]]]]].
    exists s2, (c1 ++ c2). split; [now constructor|]. split; [assumption|]. split; [apply Forall_app; auto|]. split.
    { intros _ He. apply app_eq_nil in He. apply Z1; [|tauto]. apply Nat.neq_0_lt_0. apply Nat.pow_nonzero. lia. }
    exists (pm1 ++ pm). split; [rewrite R2; now rewrite app_assoc|]. split.
    + intros x Hx. apply in_app_or in Hx. destruct Hx as [Hx|Hx].
      * assert (G : forall l d, In x (pmin (Datatypes.S v) d l) -> In (tp_param x) l /\ tp_delta x = cst (Datatypes.S v) (tp_param x)).
        { induction l as [|c l IHl]; intros d Hin; cbn [pmin] in Hin; [destruct Hin|].
          destruct (Z.leb_spec (cst (Datatypes.S v) c) d).
          - destruct Hin as [<-|Hin]; [split; [now left|reflexivity]|]. apply IHl in Hin. split; [now right|tauto].
          - apply IHl in Hin. split; [now right|tauto]. }
        apply G in Hx. split; [apply in_or_app; now left|tauto].
      * apply I2 in Hx. split; [apply in_or_app; now right|tauto].
    + intros m Hm Hb. rewrite !filter_app, map_app, M2 by (try assumption; intros; apply Hm; apply in_or_app; now right).
      f_equal.
      assert (G : forall l d, m <= d -> (forall c, In c l -> m <= cst (Datatypes.S v) c) ->
        map tp_param (filter (fun x => tp_delta x =? m) (pmin (Datatypes.S v) d l)) = filter (fun c => cst (Datatypes.S v) c =? m) l).
      { induction l as [|c l IHl]; intros d Hd Hc; [reflexivity|]. cbn [pmin filter].
        pose proof (Hc c (or_introl eq_refl)).
        destruct (Z.leb_spec (cst (Datatypes.S v) c) d).
        - cbn [filter tp_delta]. destruct (cst (Datatypes.S v) c =? m); cbn [map tp_param]; rewrite IHl; auto; intros; apply Hc; now right.
        - destruct (Z.eqb_spec (cst (Datatypes.S v) c) m); [lia|]. apply IHl; auto. intros; apply Hc; now right. }
      apply G. destruct Hs as [_ [-> _]]; assumption. intros; apply Hm; apply in_or_app; now left.
Qed.
Lemma bb_min_spec init l : bb_min init l <= init /\ (forall x, In x l -> bb_min init l <= tp_delta x) /\
  (bb_min init l = init \/ exists x, In x l /\ bb_min init l = tp_delta x).
Proof.
  unfold bb_min. revert init. induction l as [|y l IH]; intros init; cbn [fold_left].
  - split; [lia|]. split; [intros x []|now left].
  - destruct (Z.ltb_spec (tp_delta y) init) as [C|C].
    + destruct (IH (tp_delta y)) as [H1 [H2 H3]]. split; [lia|]. split.
      * intros x [<-|Hx]; auto.
      * destruct H3 as [H3|[x [Hx H3]]]; right; [exists y|exists x]; split; auto; [now left|now right].
    + destruct (IH init) as [H1 [H2 H3]]. split; [lia|]. split.
      * intros x [<-|Hx]; [lia|auto].
      * destruct H3 as [H3|[x [Hx H3]]]; [now left|right; exists x; split; [now right|assumption]].
Qed.
Lemma min_exists (A : Type) (f : A -> Z) l : l <> [] -> exists m, (exists c, In c l /\ f c = m) /\ forall c, In c l -> m <= f c.
Proof.
  induction l as [|x l IH]; [congruence|]. intros _. destruct l as [|y l].
  - exists (f x). split; [exists x; split; [now left|reflexivity]|]. intros c [<-|[]]. lia.
  - destruct (IH ltac:(discriminate)) as [m [[c [Hc Ec]] Hm]].
    destruct (Z.le_gt_cases m (f x)) as [C|C].
    + exists m. split; [exists c; split; [now right|assumption]|]. intros c' [<-|Hc']; auto.
    + exists (f x). split; [exists x; split; [now left|reflexivity]|]. intros c' [<-|Hc']; [lia|]. specialize (Hm c' Hc'). lia.
Qed.
Lemma bits_ok : forall cnt p params s, (p + cnt <= limit)%nat -> params <> [] -> Forall sm (map tp_param params) -> near s ->
  searched W size shifts (fun v q => cst v q) p (map tp_param params) ->
  exists s' params', bb_bits S T W bitSize defect size shifts cnt p params s = Ret (s', params') /\ near s' /\ params' <> [] /\ Forall sm (map tp_param params') /\
    searched W size shifts (fun v q => cst v q) (p + cnt) (map tp_param params').
Proof.
  induction cnt as [|cnt IH]; intros p params s Hp Hne Hsm Hs Hsea.
  - exists s, params. rewrite Nat.add_0_r. auto.
  - cbn [bb_bits].
    destruct (all_ok p ltac:(lia) params s [] Hsm Hs) as [s1 [cands [E1 [N1 [F1 [Z1 [pm [R1 [I1 M1]]]]]]]]].
    rewrite R1. cbn [bind app].
    destruct (min_exists _ (fun c => cst (Datatypes.S p) c) cands (Z1 Hne)) as [m [[c0 [Hc0 Em]] Hmin]].
    assert (Hcb : forall c, sm c -> cst (Datatypes.S p) c <= bitSize s0 * Z.of_N W).
    { intros c Sc. destruct (near_inst c s0 Sc near0) as [Lc [Bc _]]. destruct (Hdef (Datatypes.S p) (inst c s0) Lc ltac:(lia)) as [_ B]. rewrite Bc in B. exact B. }
    assert (Hmb : m <= bitSize s0 * Z.of_N W) by (rewrite <- Em; apply Hcb; rewrite Forall_forall in F1; now apply F1).
    specialize (M1 m Hmin Hmb).
    assert (Ed : bb_min (bitSize s1 * Z.of_N W) pm = m).
    { destruct N1 as [_ [-> _]]. destruct (bb_min_spec (bitSize s0 * Z.of_N W) pm) as [B1 [B2 B3]].
      assert (In c0 (map tp_param (filter (fun x => tp_delta x =? m) pm))) as Hin.
      { rewrite M1. apply filter_In. split; [assumption|]. now apply Z.eqb_eq. }
      apply in_map_iff in Hin. destruct Hin as [x [_ Hin]]. apply filter_In in Hin. destruct Hin as [Hin Ex]. apply Z.eqb_eq in Ex.
      specialize (B2 x Hin). destruct B3 as [B3|[y [Hy B3]]]; [lia|]. destruct (I1 y Hy) as [Hy1 Hy2]. specialize (Hmin _ Hy1). lia. }
    rewrite Ed.
    assert (Hne' : filter (fun x => tp_delta x =? m) pm <> []).
    { intros He. assert (In c0 (map tp_param (filter (fun x => tp_delta x =? m) pm))) as Hin.
      { rewrite M1. apply filter_In. split; [assumption|]. now apply Z.eqb_eq. }
      rewrite He in Hin. destruct Hin. }
    rewrite <- Nat.add_succ_comm. apply IH; try assumption; try lia.
    + rewrite M1. apply Forall_forall. intros c Hc. apply filter_In in Hc. rewrite Forall_forall in F1. now apply F1.
    + econstructor; [exact Hsea|exact E1|]. exists m. split; [exists c0; auto|]. split; [exact Hmin|]. exact M1.
Qed.
Lemma small0 : sm (repeat 0%N size).
Proof.
  split; [apply repeat_length|]. intros j. rewrite nth_repeat. apply pow2_pos.
Qed.
Lemma call0 : exists q l s1, searched W size shifts (fun v q => cst v q) limit (q :: l) /\
  (do '(s1, params) <- bb_bits S T W bitSize defect size shifts limit 0 [{| tp_delta := 0; tp_param := repeat 0%N size |}] s0;
   do best <- geti params 0;
   Ret (0, t_resetRev T (t_up T (inst (tp_param best) s1)))) = Ret (0, t_resetRev T (t_up T (inst q s1))) /\
  inst q s1 = inst q s0 /\ sm q.
Proof.
  destruct (bits_ok limit 0 [{| tp_delta := 0; tp_param := repeat 0%N size |}] s0) as [s1 [params [E [N1 [Hne [Fsm Hsea]]]]]].
  - lia.
  - discriminate.
  - constructor; [apply small0|constructor].
  - apply near0.
  - constructor.
  - rewrite E. cbn [bind]. destruct params as [|x r]; [congruence|]. cbn [geti]. cbn.
    exists (tp_param x), (map tp_param r), s1. inversion Fsm; subst. split; [exact Hsea|]. split; [reflexivity|]. split; [now apply N1|assumption].
Qed.
End Search.

Lemma extends_len W v size shifts para k l : extends W v size shifts para k l -> Forall (fun q => length q = length para) l.
Proof. induction 1 as [|k l _ _ IH|k l q _ [H _] _ IH]; [constructor|exact IH|now constructor]. Qed.
Lemma extends_all_len W v size shifts ps l n : extends_all W v size shifts ps l ->
  Forall (fun q => length q = n) ps -> Forall (fun q => length q = n) l.
Proof.
  induction 1 as [|p r l l' H _ IH]; intros Hf; [constructor|]. inversion Hf as [|? ? Hp Hr]; subst.
  apply Forall_app. split; [now apply extends_len in H|auto].
Qed.
Lemma searched_ext W size shifts c1 c2 n l : (forall v q, length q = size -> c1 v q = c2 v q) ->
  searched W size shifts c1 n l -> searched W size shifts c2 n l /\ Forall (fun q => length q = size) l.
Proof.
  intros He. induction 1 as [|v l cands l' _ [IH1 IH2] Hx [m [[c [Hc Ec]] [Hmin ->]]]].
  - split; constructor; [apply repeat_length|constructor].
  - pose proof (extends_all_len _ _ _ _ _ _ _ Hx IH2) as Hl. rewrite Forall_forall in Hl. split.
    + econstructor; [exact IH1|exact Hx|]. exists m. split; [exists c; split; [assumption|rewrite <- He; auto]|]. split.
      * intros c' Hc'. rewrite <- He; auto.
      * apply filter_ext_in. intros c' Hc'. rewrite He; auto.
    + apply Forall_forall. intros c' Hc'. apply filter_In in Hc'. apply Hl. tauto.
Qed.

Section Call.
Variables (S : Type) (T : temper_ops S).
Variables (W : N) (bitSize : S -> Z) (defect : nat -> S -> res Z) (cost : nat -> S -> Z).
Variables (size : nat) (shifts : list Z) (limit : nat) (legal : S -> Prop).
Notation inst := (bb_install S T W size).
Notation sm := (small W size).
Hypothesis HL : set_laws (t_set T) bitSize W size legal.
Notation stp := (fun s '(j, x) => t_set T (wnot W 0) x j s).
Definition pair_ok (p : nat * N) : Prop := (fst p < size)%nat /\ (snd p < 2 ^ W)%N.
Lemma wnot0 : wnot W 0 = N.ones W.
Proof. unfold wnot. rewrite N.lxor_0_l. reflexivity. Qed.
Lemma fold_legal l : Forall pair_ok l -> forall s, legal s -> legal (fold_left stp l s) /\ bitSize (fold_left stp l s) = bitSize s.
Proof.
  induction 1 as [|[j x] l [H1 H2] Hl IH]; intros s Ls; [now split|]. cbn [fold_left]. rewrite wnot0 in *.
  destruct (IH (t_set T (N.ones W) x j s)) as [A B]; [now apply (sl_legal _ _ _ _ _ HL)|]. split; [exact A|].
  rewrite B. now apply (sl_size _ _ _ _ _ HL).
Qed.
Lemma fold_absorb l : Forall pair_ok l -> forall j x s, legal s -> (x < 2 ^ W)%N -> In j (map fst l) ->
  fold_left stp l (t_set T (wnot W 0) x j s) = fold_left stp l s.
Proof.
  induction 1 as [|[i y] l [H1 H2] Hl IH]; intros j x s Ls Hx Hin; [destruct Hin|]. cbn [fst snd] in *. cbn [fold_left]. rewrite wnot0 in *.
  destruct (Nat.eq_dec i j) as [->|Hn].
  - now rewrite (sl_same _ _ _ _ _ HL).
  - destruct Hin as [Hin|Hin]; [cbn in Hin; congruence|].
    destruct (in_map_iff fst l j) as [G _]. specialize (G Hin). destruct G as [[j' z] [E Hz]]. cbn in E. subst j'.
    rewrite Forall_forall in Hl. destruct (Hl _ Hz) as [Hj _]. cbn in Hj. rewrite <- Forall_forall in Hl.
    rewrite (sl_comm _ _ _ _ _ HL) by assumption.
    apply IH; try assumption. now apply (sl_legal _ _ _ _ _ HL).
Qed.
Lemma fold_over l l' : Forall pair_ok l -> Forall pair_ok l' -> (forall j, In j (map fst l') -> In j (map fst l)) ->
  forall s, legal s -> fold_left stp l (fold_left stp l' s) = fold_left stp l s.
Proof.
  intros Hl. induction 1 as [|[i y] l' [H1 H2] Hl' IH]; intros Hin s Ls; [reflexivity|]. cbn [fst snd] in *.
  cbn [fold_left]. rewrite IH.
  - apply fold_absorb; try assumption. apply Hin. now left.
  - intros j Hj. apply Hin. now right.
  - rewrite wnot0. now apply (sl_legal _ _ _ _ _ HL).
Qed.
Lemma pairs_ok q : sm q -> Forall pair_ok (combine (seq 0 size) q) /\ map fst (combine (seq 0 size) q) = seq 0 size.
Proof.
  intros [H1 H2]. split.
  - apply Forall_forall. intros [j x] Hin. split; cbn.
    + apply in_combine_l in Hin. apply in_seq in Hin. lia.
    + apply in_combine_r in Hin. apply In_nth with (d := 0%N) in Hin. destruct Hin as [k [Hk <-]]. apply H2.
  - clear H2. revert H1. generalize 0%nat as a. generalize size as n. intros n. revert q. induction n as [|n IH]; intros [|x q] a H; cbn in *; try congruence.
    f_equal. apply IH. congruence.
Qed.
Lemma inst_over q q' s : sm q -> sm q' -> legal s -> inst q (inst q' s) = inst q s.
Proof.
  intros Hq Hq' Ls. unfold bb_install. destruct (pairs_ok q Hq) as [P1 P2], (pairs_ok q' Hq') as [P1' P2'].
  apply fold_over; try assumption. now rewrite P2, P2'.
Qed.

Lemma bb_small s : (1 <= size <= 7)%nat -> length shifts = size -> (forall x, In x shifts -> 0 <= x) ->
  (N.of_nat limit <= W)%N -> (forall s, legal s -> legal (t_resetRev T s)) ->
  (forall v s, legal s -> (1 <= v <= limit)%nat -> defect v s = Ret (cost v s) /\ cost v s <= bitSize s * Z.of_N W) ->
  legal s ->
  let s0 := t_resetRev T s in
  exists q l, searched W size shifts (fun v q => cost v (set_all (t_set T) W q s0)) limit (q :: l) /\ sm q /\
    bb_call S T W bitSize defect size shifts (Z.of_nat limit) s = Ret (0, t_resetRev T (t_up T (set_all (t_set T) W q s0))).
Proof.
  intros Hs Hl Hsh Hlim H4 H5 Ls s0.
  assert (Hil : forall q s, sm q -> legal s -> legal (inst q s)) by (intros q s1 Hq L1; destruct (pairs_ok q Hq); now apply fold_legal).
  assert (His : forall q s, sm q -> legal s -> bitSize (inst q s) = bitSize s) by (intros q s1 Hq L1; destruct (pairs_ok q Hq); now apply fold_legal).
  destruct (call0 S T W bitSize defect cost size shifts limit legal Hs Hl Hsh Hlim Hil inst_over His H5 s0 (H4 s Ls)) as [q [l [s1 [A [B [C D]]]]]].
  assert (Hinst : forall q, length q = size -> inst q s0 = set_all (t_set T) W q s0).
  { intros q0 Hq0. unfold bb_install, set_all. rewrite wnot0, Hq0. reflexivity. }
  exists q, l. split; [|split; [exact D|]].
  - eapply searched_ext; [|exact A]. intros v q0 Hq0. cbv beta. now rewrite Hinst.
  - unfold bb_call. rewrite Nat2Z.id. rewrite <- Hinst by apply D. rewrite <- C. exact B.
Qed.
Lemma bb_thm s : (1 <= size <= 7)%nat -> length shifts = size -> (forall x, In x shifts -> 0 <= x) ->
  (N.of_nat limit <= W)%N -> (forall s, legal s -> legal (t_resetRev T s)) ->
  (forall v s, legal s -> (1 <= v <= limit)%nat -> defect v s = Ret (cost v s) /\ cost v s <= bitSize s * Z.of_N W) ->
  legal s ->
  let s0 := t_resetRev T s in
  exists q l, searched W size shifts (fun v q => cost v (set_all (t_set T) W q s0)) limit (q :: l) /\
    bb_call S T W bitSize defect size shifts (Z.of_nat limit) s = Ret (0, t_resetRev T (t_up T (set_all (t_set T) W q s0))).
Proof.
  intros Hs Hl Hsh Hlim H4 H5 Ls s0. destruct (bb_small s Hs Hl Hsh Hlim H4 H5 Ls) as [q [l [A [_ B]]]]. now exists q, l.
Qed.
End Call.
