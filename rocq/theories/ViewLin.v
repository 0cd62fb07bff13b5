(** How to meet the contract [linear_gen] with a state that is seen as finitely
    many words: bit i of the state vector is bit (pos i).2 of word (pos i).1,
    and the words of the next state and the output are additive functions of
    the words of the state. *)
From Coq Require Import NArith ZArith Lia Bool.
From mathcomp Require Import all_ssreflect all_algebra.
From mathcomp Require Import zify.
From Verif Require Import Base WordLemmas WordVec GenModel LinSpec LinLemmas LinInst LinOut PeriodSpec ArrayOut.
Set Implicit Arguments.
Unset Strict Implicit.
Unset Printing Implicit Defensive.
Local Open Scope N_scope.
Delimit Scope Z_scope with coqZ.

Section View.
Variables (S : Type) (K n : nat) (ok : S -> Prop) (view : S -> nat -> N) (pos : nat -> nat * N)
  (mk : (nat -> bool) -> S) (addS : S -> S -> S) (F : nat -> (nat -> N) -> N) (O : (nat -> N) -> N)
  (small : (nat -> N) -> Prop) (G : gen_ops S).

(** Additive functions of K words. *)
Record vfun (f : (nat -> N) -> N) : Prop := {
  vf_add : forall a b, small a -> small b -> f (fun k => N.lxor (a k) (b k)) = N.lxor (f a) (f b);
  vf_ext : forall a b, (forall k, (k < K)%N -> a k = b k) -> f a = f b }.

Record view_gen : Prop := {
  vg_pos : forall i, (i < n)%N -> ((pos i).1 < K)%N;
  vg_cov : forall s k b, ok s -> (k < K)%N -> N.testbit (view s k) b = true -> exists2 i, (i < n)%N & pos i = (k, b);
  vg_small : forall s, ok s -> small (view s);
  vg_mk_ok : forall f, ok (mk f);
  vg_mk : forall f i, (i < n)%N -> N.testbit (view (mk f) (pos i).1) (pos i).2 = f i;
  vg_add_ok : forall s t, ok s -> ok t -> ok (addS s t);
  vg_addS : forall s t k, ok s -> ok t -> (k < K)%N -> view (addS s t) k = N.lxor (view s k) (view t k);
  vg_add : forall s t, ok s -> ok t -> g_add G s t = addS s t;
  vg_F : forall k, (k < K)%N -> vfun (F k);
  vg_O : vfun O;
  vg_next_ok : forall s, ok s -> ok (g_generate G s).2;
  vg_next : forall s k, ok s -> (k < K)%N -> view (g_generate G s).2 k = F k (view s);
  vg_out : forall s, ok s -> (g_generate G s).1 = O (view s);
  vg_out_lt : forall s, ok s -> O (view s) < 2 ^ g_width G;
  vg_len : forall v s, ok s -> (1 <= v <= Z.of_N (g_width G))%coqZ ->
    g_generate_len G v s = (N.land (O (view s)) (wshl (g_width G) (wnot (g_width G) 0) (g_width G - Z.to_N v)), (g_generate G s).2);
  vg_zero_ok : forall s, ok s -> ok (g_setZero G s);
  vg_zero : forall s k, ok s -> (k < K)%N -> view (g_setZero G s) k = 0
}.
Hypothesis H : view_gen.

Definition vl_bits (s : S) (i : nat) : bool := N.testbit (view s (pos i).1) (pos i).2.
Definition vl_ob (s : S) (j : nat) : bool := N.testbit (O (view s)) (g_width G - 1 - N.of_nat j).
Definition vl_vec : S -> 'rV['F_2]_n := vec_of n vl_bits.
Definition vl_A : 'M['F_2]_n := trans_mat n vl_bits mk G.
Definition vl_C : nat -> 'cV['F_2]_n := out_col n mk vl_ob.

Lemma vl_zero s : ok s -> (forall i, (i < n)%N -> vl_bits s i = false) <-> forall k, (k < K)%N -> view s k = 0.
Proof.
move=> Hs. split=> E.
- move=> k Hk. apply: N.bits_inj => b. rewrite N.bits_0. case B: (N.testbit _ b) => //.
  have [i Hi Ei] := vg_cov H Hs Hk B. have := E i Hi. by rewrite /vl_bits Ei B.
- move=> i Hi. rewrite /vl_bits E ?N.bits_0 //. exact: (vg_pos H).
Qed.
Lemma vf_0 f s : vfun f -> ok s -> (forall k, (k < K)%N -> view s k = 0) -> f (view s) = 0.
Proof.
move=> W Hs E. have L := vg_small H Hs. have := vf_add W L L. rewrite N.lxor_nilpotent => <-.
apply: (vf_ext W) => k Hk. by rewrite E.
Qed.
Lemma vf_addS f s t : vfun f -> ok s -> ok t -> f (view (addS s t)) = N.lxor (f (view s)) (f (view t)).
Proof.
move=> W Hs Ht. rewrite -(vf_add W (vg_small H Hs) (vg_small H Ht)). apply: (vf_ext W) => k Hk. exact: (vg_addS H).
Qed.

Definition vl_G' : gen_ops S :=
  {| g_width := g_width G; g_generate := g_generate G; g_generate_len := g_generate_len G; g_add := addS;
     g_setZero := g_setZero G; g_isZero := g_isZero G; g_seed := g_seed G; g_bitSize := g_bitSize G |}.
Lemma vl_addS_bits s t i : ok s -> ok t -> (i < n)%N -> vl_bits (addS s t) i = xorb (vl_bits s i) (vl_bits t i).
Proof. by move=> Hs Ht Hi; rewrite /vl_bits (vg_addS H) ?N.lxor_spec //; exact: (vg_pos H). Qed.
Lemma vl_lin' : linear_gen vl_G' ok vl_vec vl_A vl_C.
Proof.
apply: (@linear_gen_intro S n ok vl_bits mk addS _ _ _ _ vl_G' vl_ob);
  cbn [g_width g_generate g_generate_len g_add g_setZero vl_G'].
- exact: vg_mk_ok.
- exact: vg_mk.
- exact: vg_add_ok.
- exact: vl_addS_bits.
- by [].
- exact: vg_next_ok.
- move=> s t i Hs Ht Hi. have Hp := vg_pos H Hi. rewrite /vl_bits !(vg_next H) //; last exact: (vg_add_ok H).
  by rewrite (vf_addS (vg_F H Hp)) // N.lxor_spec.
- move=> s Hs E i Hi. have Hp := vg_pos H Hi. rewrite /vl_bits (vg_next H) // (vf_0 (vg_F H Hp)) ?N.bits_0 //. exact/vl_zero.
- move=> s t j Hs Ht _. by rewrite /vl_ob (vf_addS (vg_O H)) // N.lxor_spec.
- move=> s Hs E j _. rewrite /vl_ob (vf_0 (vg_O H)) ?N.bits_0 //. exact/vl_zero.
- by move=> v s Hs Hv; rewrite (vg_len H).
- move=> v s Hs Hv; rewrite (vg_len H) //. apply: land_lt. exact: (vg_out_lt H).
- move=> v s j Hs Hv Hj; rewrite (vg_len H) // /vl_ob /=. by rewrite top_mask_land //; lia.
- exact: vg_zero_ok.
- move=> s i Hs Hi. rewrite /vl_bits (vg_zero H) ?N.bits_0 //. exact: (vg_pos H).
Qed.
Lemma vl_lin : linear_gen G ok vl_vec vl_A vl_C.
Proof.
have L := vl_lin'. split; try by case: L.
- by move=> s t Hs Ht; rewrite (vg_add H) //; exact: (vg_add_ok H).
- by move=> s t Hs Ht; rewrite (vg_add H) //; exact: (lin_add_abs L).
Qed.
Lemma vl_vec_zero s : ok s -> vl_vec s = 0%R <-> forall k, (k < K)%N -> view s k = 0.
Proof. by move=> Hs; split=> [/(vec_zero n vl_bits s)/(vl_zero Hs)//|E]; apply/(vec_zero n vl_bits s)/(vl_zero Hs). Qed.
Lemma vl_state s t : ok s -> ok t -> vl_vec s = vl_vec t <-> forall k, (k < K)%N -> view s k = view t k.
Proof.
move=> Hs Ht. have Hst := vg_add_ok H Hs Ht.
have -> : vl_vec s = vl_vec t <-> vl_vec (addS s t) = 0%R.
  rewrite (lin_add_abs vl_lin' Hs Ht). split=> [->|E0]; first by rewrite addF2_self.
  by rewrite -[LHS]GRing.addr0 -(addF2_self (vl_vec t)) GRing.addrA E0 GRing.add0r.
rewrite vl_vec_zero //. split=> E k Hk.
- by apply/N.lxor_eq_0_iff; rewrite -(vg_addS H Hs Ht Hk) E.
- by rewrite (vg_addS H Hs Ht Hk) E // N.lxor_nilpotent.
Qed.
Lemma vl_sur x : exists2 s, ok s & vl_vec s = x.
Proof. exists (unvec mk x); first exact: (vg_mk_ok H). apply: unvecK => f i Hi. exact: (vg_mk H). Qed.
Lemma vl_gen_vec s : ok s -> vl_vec (g_generate G s).2 = (vl_vec s *m vl_A)%R.
Proof. by move=> Hs; rewrite -(lin_generate_abs vl_lin Hs). Qed.
(** The transition is invertible if only the zero state is followed by it. *)
Lemma vl_unit : (forall s, ok s -> (forall k, (k < K)%N -> view (g_generate G s).2 k = 0) -> forall k, (k < K)%N -> view s k = 0) ->
  vl_A \in unitmx.
Proof.
move=> Z. rewrite -row_free_unit -kermx_eq0. apply/eqP/row_matrixP => i. rewrite row0.
set x := row i _. have Ex : (x *m vl_A = 0)%R by apply/sub_kermxP; exact: row_sub.
have [s Hs Es] := vl_sur x. rewrite -Es in Ex *. rewrite -vl_gen_vec // in Ex.
apply/(vl_vec_zero Hs)/Z => //. apply/(vl_vec_zero _); [exact: (vg_next_ok H)|exact: Ex].
Qed.
Lemma vl_sing s k : ok s -> (forall k, (k < K)%N -> view (g_generate G s).2 k = 0) -> (k < K)%N -> view s k <> 0 ->
  vl_A \notin unitmx.
Proof.
move=> Hs Z Hk E. apply/negP => U. apply: E. move: k Hk. apply/(vl_vec_zero Hs).
rewrite -[LHS](mulmxK U) -vl_gen_vec //. have -> : vl_vec (g_generate G s).2 = 0%R by apply/vl_vec_zero; [exact: (vg_next_ok H)|].
by rewrite mul0mx.
Qed.
(** Any word that is an additive function of the state. *)
Definition vl_col (f : (nat -> N) -> N) (b : nat) : 'cV['F_2]_n := mat_of n mk (fun s => \row_(_ < 1) f2 (N.testbit (f (view s)) (N.of_nat b)))%R.
Lemma vl_colE f b s : vfun f -> ok s -> obit (vl_col f) (vl_vec s) b = f2 (N.testbit (f (view s)) (N.of_nat b)).
Proof.
move=> W Hs. rewrite /obit /vl_col /vl_vec -(@phi_mat S n ok vl_bits mk addS) //; try by case: H.
- by rewrite mxE.
- exact: vl_addS_bits.
- by move=> s1 t1 H1 H2; apply/rowP => i; rewrite !mxE (vf_addS W) // N.lxor_spec f2D.
- by move=> s1 H1 /vl_vec_zero E; apply/rowP => i; rewrite !mxE (vf_0 W) ?N.bits_0 //; exact: E.
Qed.
Lemma vl_linout : linear_out G ok vl_vec (vl_col O).
Proof. move=> s i Hs Hi. rewrite (vg_out H) //. symmetry. exact: (vl_colE i (vg_O H) Hs). Qed.
End View.
