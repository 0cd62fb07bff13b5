From Coq Require Import NArith ZArith List Bool Lia Sorted.
From Verif Require Import Base WordLemmas SequentialModel SequentialSpec.
Import ListNotations.
Local Open Scope N_scope.

(** The client of SequentialSpec.v running on the model. *)
Definition step (w : N) (st : list sequential) (o : op) : event * list sequential :=
  match o with
  | ONew m => (EOk, st ++ [sq_make w m])
  | ONewSeed m s => (EOk, st ++ [sq_make_seed m s])
  | OCopy i => match nth_error st i with
               | Some x => (EOk, st ++ [sq_copy x]) | None => (ENoObject, st) end
  | OSeed i v => match nth_error st i with
                 | Some x => (EOk, set_nth st i (sq_seed w x v))
                 | None => (ENoObject, st) end
  | OReseed i v => match nth_error st i with
                 | Some x => (EOk, set_nth st i (sq_reseed x v))
                 | None => (ENoObject, st) end
  | OGen i => match nth_error st i with
              | Some x => match sq_next w x with
                          | Ret (v, x') => (EValue v, set_nth st i x')
                          | Throw => (EUnderflow, st)
                          | _ => (EBroken, st)
                          end
              | None => (ENoObject, st) end
  end.
Fixpoint run (w : N) (st : list sequential) (ops : list op) : list event :=
  match ops with
  | [] => []
  | o :: ops' => let '(e, st') := step w st o in e :: run w st' ops'
  end.

Lemma wsub_all_ones (w : N) : wsub w 0 1 = 2 ^ w - 1.
Proof.
  unfold wsub, trunc. pose proof (pow2_pos w).
  destruct (N.eq_dec w 0) as [->|Hw]; [reflexivity|].
  assert (1 < 2 ^ w) by (apply (N.pow_lt_mono_r 2 0 w); lia).
  rewrite (N.mod_small 1) by lia. rewrite N.mod_small; lia.
Qed.

Definition sim (w : N) (x : sequential) (y : spec_obj) : Prop :=
  sq_mask x = fst y /\
  match snd y with
  | Some c => sq_error x = false /\ sq_status x = c /\ c < 2 ^ w
  | None => sq_error x = true
  end.

Lemma sim_next (w : N) (x : sequential) (m : N) (c : N) :
  sim w x (m, Some c) ->
  exists x', sq_next w x = Ret (N.lxor c m, x') /\
    sim w x' (m, if c =? 0 then None else Some (c - 1)).
Proof.
  intros (Hm & He & Hs & Hc). cbn in *. unfold sq_next. rewrite He, Hs, Hm.
  eexists. split; [reflexivity|]. split; [reflexivity|]. cbn [snd].
  destruct (N.eqb_spec c 0) as [->|Hn]; cbn [sq_error sq_status].
  - reflexivity.
  - destruct (N.leb_spec c 0); [lia|]. split; [reflexivity|].
    rewrite wsub_small by lia. lia.
Qed.

Lemma set_nth_Forall2 {A B : Type} (P : A -> B -> Prop) (l : list A) (l' : list B) i x y :
  Forall2 P l l' -> P x y -> Forall2 P (set_nth l i x) (set_nth l' i y).
Proof.
  intros H Hxy. revert i. induction H as [|a b l l' Hab HH IH]; intros i; [constructor|].
  destruct i; cbn; constructor; auto.
Qed.
Lemma Forall2_nth {A B : Type} (P : A -> B -> Prop) (l : list A) (l' : list B) i :
  Forall2 P l l' ->
  match nth_error l i, nth_error l' i with
  | Some x, Some y => P x y
  | None, None => True
  | _, _ => False
  end.
Proof.
  intros H. revert i. induction H as [|a b l l' Hab HH IH]; intros [|i]; cbn; auto. apply IH.
Qed.

Lemma sim_step (w : N) st st' o : Forall2 (sim w) st st' -> op_ok w o ->
  fst (step w st o) = fst (spec_step w st' o) /\
  Forall2 (sim w) (snd (step w st o)) (snd (spec_step w st' o)).
Proof.
  intros H Ho. destruct o as [m|m s|i|i v|i v|i]; cbn [step spec_step];
  try (pose proof (Forall2_nth _ _ _ i H) as Hi;
       destruct (nth_error st i) as [x|], (nth_error st' i) as [[m c]|]; try contradiction;
       [|split; [reflexivity|exact H]]).
  - split; [reflexivity|]. cbn [snd]. apply Forall2_app; [exact H|]. constructor; [|constructor].
    split; [reflexivity|]. cbn. rewrite wsub_all_ones. pose proof (pow2_pos w). lia.
  - split; [reflexivity|]. cbn [snd]. apply Forall2_app; [exact H|]. constructor; [|constructor].
    destruct Ho. repeat split; auto.
  - split; [reflexivity|]. cbn [snd]. apply Forall2_app; [exact H|]. constructor; [|constructor].
    destruct Hi as (H1 & H2). split; [exact H1|]. exact H2.
  - split; [reflexivity|]. cbn [snd]. apply set_nth_Forall2; [exact H|].
    destruct Hi as (H1 & H2). split; [exact H1|]. cbn. repeat split.
    apply N.mod_lt. pose proof (pow2_pos w). lia.
  - split; [reflexivity|]. cbn [snd]. apply set_nth_Forall2; [exact H|].
    destruct Hi as (H1 & H2). split; [exact H1|]. cbn. repeat split. exact Ho.
  - destruct c as [c|].
    + destruct (sim_next _ _ _ _ Hi) as (x' & E & Hx'). rewrite E.
      split; [reflexivity|]. cbn [snd]. now apply set_nth_Forall2.
    + destruct Hi as (H1 & H2). cbn in H2. unfold sq_next. rewrite H2. split; [reflexivity|exact H].
Qed.

Lemma run_refines_gen (w : N) ops : forall st st', Forall2 (sim w) st st' ->
  Forall (op_ok w) ops -> run w st ops = spec_run w st' ops.
Proof.
  induction ops as [|o ops IH]; intros st st' H Hok; [reflexivity|].
  inversion_clear Hok as [|? ? Ho Hops]. cbn [run spec_run].
  destruct (sim_step w st st' o H Ho) as (E1 & E2).
  destruct (step w st o) as [e s1], (spec_step w st' o) as [e' s1']. cbn [fst snd] in *.
  subst e'. f_equal. now apply IH.
Qed.

Lemma run_refines (w : N) (ops : list op) :
  Forall (op_ok w) ops -> run w [] ops = spec_run w [] ops.
Proof. intros H. apply run_refines_gen; auto. Qed.

(** * Enumeration *)
Lemma lxor_lxor (a m : N) : N.lxor (N.lxor a m) m = a.
Proof. now rewrite N.lxor_assoc, N.lxor_nilpotent, N.lxor_0_r. Qed.

Definition exhausted (w : N) (s : sequential) : Prop := sq_next w s = Throw.

Lemma take_count (w m : N) : forall (n : nat) (x : sequential) (c : N),
  sim w x (m, Some c) -> n = N.to_nat c ->
  exists l s', sq_take w (S n) x = Ret (l, s') /\
    sim w s' (m, None) /\
    (forall v, In v l <-> N.lxor v m <= c) /\
    StronglySorted (fun a b => N.lxor b m < N.lxor a m) l.
Proof.
  induction n as [|n IH]; intros x c Hx Hn; cbn [sq_take] in *;
    destruct (sim_next _ _ _ _ Hx) as (x' & E & Hx'); rewrite E; cbn [bind].
  - assert (c = 0) by lia. subst c. cbn [N.eqb] in Hx'.
    eexists _, x'. split; [reflexivity|]. split; [exact Hx'|]. split.
    + intros v. cbn [In]. split.
      * intros [<-|[]]. rewrite lxor_lxor. lia.
      * intros Hv. left. assert (H0 : N.lxor v m = 0) by lia.
        apply N.lxor_eq in H0. subst v. now rewrite N.lxor_0_l.
    + constructor; constructor.
  - destruct (N.eqb_spec c 0); [lia|].
    destruct (IH x' (c - 1) Hx' ltac:(lia)) as (l & s' & E' & Hs' & Hin & Hsort).
    cbn [sq_take] in E'. rewrite E'. cbn [bind].
    eexists _, s'. split; [reflexivity|]. split; [exact Hs'|]. split.
    + intros v. cbn [In]. rewrite Hin. split.
      * intros [<-|Hv]; [rewrite lxor_lxor|]; lia.
      * intros Hv. destruct (N.eq_dec (N.lxor v m) c) as [Hc|Hc]; [left|right; lia].
        rewrite <- Hc. apply lxor_lxor.
    + constructor; [exact Hsort|]. apply Forall_forall. intros b Hb. apply Hin in Hb.
      rewrite lxor_lxor. lia.
Qed.

Lemma sorted_NoDup (m : N) l : StronglySorted (fun a b => N.lxor b m < N.lxor a m) l -> NoDup l.
Proof.
  induction 1 as [|a l H IH Hf]; constructor; auto.
  intros Hin. rewrite Forall_forall in Hf. specialize (Hf a Hin). lia.
Qed.

Lemma enum_seed (w mask seed : N) : mask < 2 ^ w -> seed < 2 ^ w ->
  exists l s', sq_take w (S (N.to_nat seed)) (sq_make_seed mask seed) = Ret (l, s') /\
    NoDup l /\ (forall v, In v l <-> N.lxor v mask <= seed) /\
    StronglySorted (fun a b => N.lxor b mask < N.lxor a mask) l /\
    sq_next w s' = Throw.
Proof.
  intros Hm Hs.
  destruct (take_count w mask (N.to_nat seed) (sq_make_seed mask seed) seed)
    as (l & s' & E & (_ & He) & Hin & Hsort); auto.
  - repeat split; auto.
  - exists l, s'. split; [exact E|]. split; [eapply sorted_NoDup; eauto|].
    split; [exact Hin|]. split; [exact Hsort|]. cbn in He. unfold sq_next. now rewrite He.
Qed.

Lemma enum_all (w mask : N) : mask < 2 ^ w ->
  exists l s', sq_take w (N.to_nat (2 ^ w)) (sq_make w mask) = Ret (l, s') /\
    NoDup l /\ (forall v, In v l <-> v < 2 ^ w) /\
    StronglySorted (fun a b => N.lxor b mask < N.lxor a mask) l /\
    sq_next w s' = Throw.
Proof.
  intros Hm. pose proof (pow2_pos w).
  destruct (enum_seed w mask (2 ^ w - 1) Hm ltac:(lia)) as (l & s' & E & Hnd & Hin & Hsort & Hx).
  replace (S (N.to_nat (2 ^ w - 1))) with (N.to_nat (2 ^ w)) in E by lia.
  exists l, s'. unfold sq_make. rewrite wsub_all_ones. split; [exact E|]. split; [exact Hnd|].
  split; [|auto]. intros v. rewrite Hin. split.
  - intros Hv. rewrite <- (lxor_lxor v mask). apply lxor_lt; lia.
  - intros Hv. assert (N.lxor v mask < 2 ^ w) by now apply lxor_lt. lia.
Qed.

(** Reading through getUint32 / getUint64. *)
Lemma getUint_values (w : N) (s : sequential) (v : N) (s' : sequential) :
  sq_next w s = Ret (v, s') ->
  sq_getUint32 w s = Ret (v mod 2 ^ 32, s') /\ sq_getUint64 w s = Ret (v mod 2 ^ 64, s').
Proof. intros E. unfold sq_getUint32, sq_getUint64. rewrite E. split; reflexivity. Qed.

Lemma next_lt (w : N) (ops : list op) : Forall (op_ok w) ops ->
  forall v, In (EValue v) (run w [] ops) -> v < 2 ^ w.
Proof.
  intros Hok. rewrite run_refines by auto.
  assert (G : forall st, Forall (fun y : spec_obj => fst y < 2 ^ w /\
     match snd y with Some c => c < 2 ^ w | None => True end) st ->
     forall v, In (EValue v) (spec_run w st ops) -> v < 2 ^ w).
  { induction ops as [|o ops IH]; intros st Hst v; [intros []|].
    inversion_clear Hok as [|? ? Ho Hops]. cbn [spec_run].
    destruct (spec_step w st o) as [e st'] eqn:Es.
    assert (He : (forall u, e = EValue u -> u < 2 ^ w) /\
      Forall (fun y : spec_obj => fst y < 2 ^ w /\
       match snd y with Some c => c < 2 ^ w | None => True end) st').
    { assert (Hset : forall i y, fst y < 2 ^ w /\
         match snd y with Some c => c < 2 ^ w | None => True end ->
         Forall (fun y : spec_obj => fst y < 2 ^ w /\
         match snd y with Some c => c < 2 ^ w | None => True end) (set_nth st i y)).
      { intros i y Hy. clear - Hst Hy. revert i. induction Hst as [|a l Ha Hl IHl]; intros [|i]; cbn; auto. }
      assert (Hnth : forall i y, nth_error st i = Some y -> fst y < 2 ^ w /\
         match snd y with Some c => c < 2 ^ w | None => True end).
      { intros i y Hy. rewrite Forall_forall in Hst. apply Hst. eapply nth_error_In; eauto. }
      pose proof (pow2_pos w) as Hp.
      destruct o as [m|m s|i|i u|i u|i]; cbn [spec_step op_ok] in *;
      try (destruct (nth_error st i) as [[m c]|] eqn:En;
           [pose proof (Hnth _ _ En) as Hy; cbn [fst snd] in Hy|]);
      try (destruct c as [c|]);
      injection Es as <- <-;
      (split; [intros ? E; try discriminate E|]); auto;
      try (apply Forall_app; split; [exact Hst|]; constructor; [|constructor]; cbn [fst snd]; lia).
      - apply Hset. cbn. split; [tauto|]. apply N.mod_lt. lia.
      - apply Hset. cbn. split; [tauto|]. apply N.mod_lt. lia.
      - apply Hset. cbn. tauto.
      - apply Hset. cbn. tauto.
      - injection E as <-. apply lxor_lt; tauto.
      - apply Hset. cbn. split; [tauto|]. destruct (c =? 0); [exact I|lia]. }
    destruct He as (He & Hst'). intros [E|Hin]; [now apply He|].
    eapply IH; eauto. }
  apply G. constructor.
Qed.
