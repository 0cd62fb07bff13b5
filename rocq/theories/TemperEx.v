(** Concrete generators for the theorems about the tempering searches. *)
From Coq Require Import NArith ZArith List Bool Lia.
From Verif Require Import Base WordLemmas UtilSpec TemperModel TemperSpec TemperProofs BestBitsSpec BestBitsProofs.
Import ListNotations.
Local Open Scope Z_scope.

Lemma search_best_refuted : exists S (T : temper_ops S) bitSize defect s s' cands,
  bb_search_best_temper S T 32 bitSize defect 1 [7] s 0 [0%N] [] = Ret (s', cands) /\
  exists c c', In c cands /\ In c' cands /\ tp_delta c' < tp_delta c.
Proof.
  exists N, {| t_set := fun _ x _ _ => x; t_up := fun s => s; t_setRev := fun s => s; t_resetRev := fun s => s; t_clone := fun s => s |},
    (fun _ => 10), (fun _ s => Ret (if (s =? 0)%N then 3 else 5)), 0%N.
  do 2 eexists. split; [vm_compute; reflexivity|].
  eexists. eexists. split; [left; reflexivity|]. split; [right; left; reflexivity|]. cbn. lia.
Qed.

Lemma stale_refuted : exists (T : temper_ops (N * N)) (cost : N -> Z) s q,
  (forall m x i p, t_set T m x i p = (N.lor (N.ldiff (fst p) m) (N.land x m), snd p)) /\ (forall p, t_up T p = (fst p, fst p)) /\
  bb_call (N * N) T 32 (fun _ => 10) (fun _ p => Ret (cost (snd p))) 1 [7] 1 s = Ret (0, (q, q)) /\
  exists q', extends 32 0 1 [7] [0%N] 2 [[q]; [q']] /\ cost q' < cost q.
Proof.
  exists {| t_set := fun m x i p => (N.lor (N.ldiff (fst p) m) (N.land x m), snd p);
     t_up := fun s => (fst s,fst s); t_setRev := fun s => s; t_resetRev := fun s => s; t_clone := fun s => s |},
    (fun x => if (x =? 0)%N then 3 else 5), (0, 0)%N, (2 ^ 31)%N.
  split; [reflexivity|]. split; [reflexivity|]. split; [vm_compute; reflexivity|].
  exists 0%N. split; [|reflexivity].
  assert (P : forall b pos, prescribed 32 0 [(0%nat, 0, b)] 0 pos = if (pos =? 31)%N then Some b else None).
  { intros b pos. unfold prescribed. cbn [rev app find Nat.eqb andb].
    change (Z.of_N 0 + 0 + 1 <? Z.of_N 32) with true. change (Z.of_N 32 - Z.of_N 0 - 0 - 1) with 31. cbn [andb].
    destruct (N.eqb_spec pos 31) as [->|H]; [reflexivity|]. destruct (Z.eqb_spec 31 (Z.of_N pos)); [lia|reflexivity]. }
  repeat (apply extends_take; [reflexivity| |]); [| |constructor].
  - split; [reflexivity|]. intros [|j] pos Hj; [|cbn in Hj; lia]. change (choices 1 [7] (N.of_nat 1)) with [(0%nat, 0, true)].
    rewrite P. cbn [nth]. rewrite N.pow2_bits_eqb, N.bits_0. rewrite N.eqb_sym. destruct (pos =? 31)%N; reflexivity.
  - split; [reflexivity|]. intros [|j] pos Hj; [|cbn in Hj; lia]. change (choices 1 [7] (N.of_nat 0)) with [(0%nat, 0, false)].
    rewrite P. cbn [nth]. rewrite N.bits_0. destruct (pos =? 31)%N; reflexivity.
Qed.

Lemma eight_undef S (T : temper_ops S) W bitSize defect size shifts limit s :
  (8 <= size)%nat -> 1 <= limit -> bb_call S T W bitSize defect size shifts limit s = Undef.
Proof.
  intros H Hl. unfold bb_call. destruct (Z.to_nat limit) as [|c] eqn:E; [lia|]. cbn [bb_bits bb_all]. unfold bb_search_best_temper, int_pow2.
  assert (36 <= bb_num_pat size)%nat.
  { unfold bb_num_pat. change 36%nat with (72 / 2)%nat. apply Nat.div_le_mono; [lia|]. nia. }
  destruct (Z.leb_spec (Z.of_nat (bb_num_pat size)) 30); [lia|]. rewrite andb_false_r. reflexivity.
Qed.

(** A generator with two 8-bit parameters. *)
Definition toy_T : temper_ops (N * N) :=
  {| t_set := fun m x i '(a, b) => let w y := N.lor (N.ldiff y m) (N.land x m) in
                if (i =? 0)%nat then (w a, b) else (a, w b);
     t_up := fun s => s; t_setRev := fun s => s; t_resetRev := fun s => s; t_clone := fun s => s |}.
Definition toy_cost (s : N * N) : Z :=
  Z.of_nat (popcount 8 (N.lxor (fst s) 0x5a) + popcount 8 (N.lxor (fst s) (snd s))).
Definition toy_legal (s : N * N) : Prop := True.
Lemma mask_over (m q q' a : N) : N.lor (N.ldiff (N.lor (N.ldiff a m) (N.land q' m)) m) (N.land q m) = N.lor (N.ldiff a m) (N.land q m).
Proof.
  apply N.bits_inj. intros j. rewrite !N.lor_spec, !N.ldiff_spec, !N.lor_spec, !N.land_spec, !N.ldiff_spec.
  destruct (N.testbit a j), (N.testbit m j), (N.testbit q j), (N.testbit q' j); reflexivity.
Qed.
Lemma mask_same (m a : N) : N.lor (N.ldiff a m) (N.land (N.land a m) m) = a.
Proof.
  apply N.bits_inj. intros j. rewrite !N.lor_spec, !N.ldiff_spec, !N.land_spec.
  destruct (N.testbit a j), (N.testbit m j); reflexivity.
Qed.
Lemma popcount_le n x : (popcount n x <= n)%nat.
Proof.
  unfold popcount. rewrite <- (seq_length n 0) at 2. generalize (seq 0 n). intros l. induction l as [|i l IH]; [apply le_n|]. cbn [filter length].
  destruct (N.testbit x (N.of_nat i)); cbn [length]; lia.
Qed.
Lemma toy_laws : temper_laws (fun m q i s => t_up toy_T (t_set toy_T m q i s)) (fun _ => 2) toy_cost 8 2 toy_legal /\
  temper_view (fun m q i s => t_up toy_T (t_set toy_T m q i s)) toy_cost 8 2 toy_legal (fun s j => match j with O => fst s | 1%nat => snd s | _ => 0%N end).
Proof.
  split; split.
  - intros; exact I.
  - intros m q q' i [a b] _ _ _. cbn. destruct (i =? 0)%nat; rewrite mask_over; reflexivity.
  - reflexivity.
  - intros [a b] _. unfold toy_cost. pose proof (popcount_le 8 (N.lxor (fst (a, b)) 0x5a)).
    pose proof (popcount_le 8 (N.lxor (fst (a, b)) (snd (a, b)))). lia.
  - intros m q i [a b] j _ _ Hi. cbn. destruct i as [|[|i]]; [| |lia]; destruct j as [|[|j]]; reflexivity.
  - intros m i [a b] _ _ Hi. destruct i as [|[|i]]; [| |lia]; cbn [t_up t_set toy_T Nat.eqb]; rewrite mask_same; reflexivity.
Qed.
Lemma toy_bits : set_laws (t_set toy_T) (fun _ => 2) 8 2 toy_legal /\
  bb_call (N * N) toy_T 8 (fun _ => 2) (fun v s => Ret (toy_cost s)) 2 [2; 3] 8 (7, 7)%N = Ret (0, (0x5a, 0x58)%N).
Proof.
  split; [|vm_compute; reflexivity]. split.
  - intros; exact I.
  - reflexivity.
  - intros q q' i [a b] _ _ _ _. cbn. destruct (i =? 0)%nat; rewrite mask_over; reflexivity.
  - intros q q' i j [a b] _ _ Hi Hj Hij _. destruct i as [|[|i]], j as [|[|j]]; try lia; reflexivity.
Qed.
