(** How to meet the contract [linear_gen]: it is enough to know the bits of a
    state, that [add] is the exclusive or of bits and that the bits of the next
    state and of the output are additive in the state. *)
From Coq Require Import NArith ZArith Lia Bool.
From mathcomp Require Import all_ssreflect all_algebra.
From mathcomp Require Import zify.
From Verif Require Import Base GenModel LinSpec LinLemmas.
Set Implicit Arguments.
Unset Strict Implicit.
Unset Printing Implicit Defensive.
Import GRing.Theory.
Local Open Scope ring_scope.
Delimit Scope Z_scope with coqZ.

Definition f2 (b : bool) : 'F_2 := b%:R.
Lemma f2D a b : f2 (xorb a b) = f2 a + f2 b.
Proof. by case: a; case: b; apply/eqP. Qed.
Lemma f2_inj a b : f2 a = f2 b -> a = b.
Proof. by case: a; case: b => // /eqP. Qed.
Lemma f2K (x : 'F_2) : f2 (x == 1) = x.
Proof. by case: x => [[|[|x]] H] //; apply/eqP. Qed.

Section Inst.
Variables (S : Type) (n : nat) (ok : S -> Prop) (bits : S -> nat -> bool)
  (mk : (nat -> bool) -> S) (add : S -> S -> S).
(** The vector of a state. *)
Definition vec_of (s : S) : 'rV['F_2]_n := \row_i f2 (bits s i).
(** The matrix of a map that is additive on states. *)
Definition mat_of m (phi : S -> 'rV['F_2]_m) : 'M['F_2]_(n, m) :=
  \matrix_(i < n) phi (mk (fun j => j == i :> nat)).

Hypothesis ok_mk : forall f, ok (mk f).
Hypothesis bits_mk : forall f i, (i < n)%N -> bits (mk f) i = f i.
Hypothesis ok_add : forall s t, ok s -> ok t -> ok (add s t).
Hypothesis bits_add : forall s t i, ok s -> ok t -> (i < n)%N ->
  bits (add s t) i = xorb (bits s i) (bits t i).

Lemma vec_add s t : ok s -> ok t -> vec_of (add s t) = vec_of s + vec_of t.
Proof. by move=> Hs Ht; apply/rowP => i; rewrite !mxE bits_add // f2D. Qed.
Lemma vec_zero s : (forall i, (i < n)%N -> bits s i = false) <-> vec_of s = 0.
Proof.
split=> [H|H i Hi]; first by apply/rowP => i; rewrite !mxE H.
by move/rowP/(_ (Ordinal Hi)): H; rewrite !mxE => /(f2_inj (b := false)).
Qed.
Definition unvec (x : 'rV['F_2]_n) : S :=
  mk (fun i => if @idP (i < n)%N is ReflectT H then x 0 (Ordinal H) == 1 else false).
Lemma unvec_ok x : ok (unvec x).
Proof. exact: ok_mk. Qed.
Lemma unvecK x : vec_of (unvec x) = x.
Proof.
apply/rowP => i; rewrite !mxE bits_mk //.
case: {-}_ / idP => [H|/(_ (ltn_ord i))//]. rewrite f2K. by congr (x _ _); exact: val_inj.
Qed.

Section Phi.
Variables (m : nat) (phi : S -> 'rV['F_2]_m).
Hypothesis phi_add : forall s t, ok s -> ok t -> phi (add s t) = phi s + phi t.
Hypothesis phi_zero : forall s, ok s -> vec_of s = 0 -> phi s = 0.
Lemma phi_ext s t : ok s -> ok t -> vec_of s = vec_of t -> phi s = phi t.
Proof.
move=> Hs Ht E. have H : phi (add s t) = 0.
  by apply: phi_zero; [exact: ok_add | rewrite vec_add // E mx2_addxx].
by rewrite -[phi s]addr0 -(mx2_addxx (phi t)) addrA -phi_add // H add0r.
Qed.
Lemma phi_mat s : ok s -> phi s = vec_of s *m mat_of phi.
Proof.
move=> Hs.
pose psi x := phi (unvec x).
have psiD x y : psi (x + y) = psi x + psi y.
  rewrite /psi -phi_add; try exact: unvec_ok. apply: phi_ext; try exact: unvec_ok.
    by apply: ok_add; exact: unvec_ok.
  by rewrite vec_add; try exact: unvec_ok; rewrite !unvecK.
have psi0 : psi 0 = 0 by apply: phi_zero; [exact: unvec_ok | rewrite unvecK].
have psi_sum I (r : seq I) (F : I -> 'rV['F_2]_n) : psi (\sum_(i <- r) F i) = \sum_(i <- r) psi (F i).
  by elim: r => [|i r IH]; rewrite ?big_nil // !big_cons psiD IH.
have -> : phi s = psi (vec_of s) by apply: phi_ext => //; [exact: unvec_ok | rewrite unvecK].
rewrite mulmx_sum_row {1}[vec_of s]row_sum_delta psi_sum. apply: eq_bigr => i _.
rewrite rowK. case: (eqVneq (vec_of s 0 i) 0) => [->|H]; first by rewrite !scale0r.
have -> : vec_of s 0 i = 1.
  by move: H; rewrite mxE; case: (bits s i).
rewrite !scale1r. apply: phi_ext; [exact: unvec_ok | exact: ok_mk |].
rewrite unvecK. apply/rowP => j. rewrite !mxE bits_mk //.
Qed.
End Phi.

Variable G : gen_ops S.
Variable ob : S -> nat -> bool.
Definition next_vec (s : S) : 'rV['F_2]_n := vec_of (g_generate G s).2.
Definition out_vec (j : nat) (s : S) : 'rV['F_2]_1 := \row_(_ < 1) f2 (ob s j).
Definition trans_mat : 'M['F_2]_n := mat_of next_vec.
Definition out_col (j : nat) : 'cV['F_2]_n := mat_of (out_vec j).

Hypothesis Gadd : forall s t, g_add G s t = add s t.
Hypothesis gen_ok : forall s, ok s -> ok (g_generate G s).2.
Hypothesis gen_add : forall s t i, ok s -> ok t -> (i < n)%N ->
  bits (g_generate G (add s t)).2 i = xorb (bits (g_generate G s).2 i) (bits (g_generate G t).2 i).
Hypothesis gen_zero : forall s, ok s -> (forall i, (i < n)%N -> bits s i = false) ->
  forall i, (i < n)%N -> bits (g_generate G s).2 i = false.
Hypothesis ob_add : forall s t j, ok s -> ok t -> (N.of_nat j < g_width G)%num ->
  ob (add s t) j = xorb (ob s j) (ob t j).
Hypothesis ob_zero : forall s, ok s -> (forall i, (i < n)%N -> bits s i = false) ->
  forall j, (N.of_nat j < g_width G)%num -> ob s j = false.

Lemma trans_mat_ok s : ok s -> vec_of (g_generate G s).2 = vec_of s *m trans_mat.
Proof.
move=> Hs. apply: (phi_mat (phi := next_vec)) => // [{Hs}s t Hs Ht|{Hs}s Hs].
  by apply/rowP => i; rewrite !mxE gen_add // f2D.
by move/vec_zero => H; apply/vec_zero; exact: gen_zero.
Qed.
Lemma out_col_ok s j : ok s -> (N.of_nat j < g_width G)%num -> obit out_col (vec_of s) j = f2 (ob s j).
Proof.
move=> Hs Hj. rewrite /obit /out_col -phi_mat //; first by rewrite mxE.
  by move=> s1 t1 Hs1 Ht1; apply/rowP => i; rewrite !mxE ob_add // f2D.
by move=> s1 Hs1 /vec_zero H; apply/rowP => i; rewrite !mxE ob_zero.
Qed.

Hypothesis len_state : forall v s, ok s -> (1 <= v <= Z.of_N (g_width G))%coqZ ->
  (g_generate_len G v s).2 = (g_generate G s).2.
Hypothesis len_lt : forall v s, ok s -> (1 <= v <= Z.of_N (g_width G))%coqZ ->
  ((g_generate_len G v s).1 < 2 ^ g_width G)%num.
Hypothesis len_out : forall v s j, ok s -> (1 <= v <= Z.of_N (g_width G))%coqZ ->
  (N.of_nat j < g_width G)%num ->
  N.testbit (g_generate_len G v s).1 (g_width G - 1 - N.of_nat j) = (Z.of_nat j <? v)%coqZ && ob s j.
Hypothesis zero_ok : forall s, ok s -> ok (g_setZero G s).
Hypothesis zero_bits : forall s i, ok s -> (i < n)%N -> bits (g_setZero G s) i = false.

Lemma linear_gen_intro : linear_gen G ok vec_of trans_mat out_col.
Proof.
split=> //.
- exact: trans_mat_ok.
- by move=> v s Hs Hv; rewrite len_state //; exact: gen_ok.
- by move=> v s Hs Hv; rewrite len_state //; exact: trans_mat_ok.
- move=> v s j Hs Hv Hj. rewrite /msb len_out //; last lia.
  by case: (_ <? _)%coqZ; rewrite //= out_col_ok //; lia.
- by move=> s t Hs Ht; rewrite Gadd; exact: ok_add.
- by move=> s t Hs Ht; rewrite Gadd; exact: vec_add.
- by move=> s Hs; apply/vec_zero => i Hi; exact: zero_bits.
Qed.

(** Invertibility. *)
Lemma trans_unit :
  (forall s, ok s -> (forall i, (i < n)%N -> bits (g_generate G s).2 i = false) ->
     forall i, (i < n)%N -> bits s i = false) <-> trans_mat \in unitmx.
Proof.
split=> [H|H s Hs /vec_zero E i Hi].
  rewrite -row_free_unit -kermx_eq0. apply/eqP/row_matrixP => i. rewrite row0.
  set x := row i _. have Ex : x *m trans_mat = 0 by apply/sub_kermxP; exact: row_sub.
  rewrite -[x]unvecK. apply/vec_zero. apply: H; first exact: unvec_ok.
  apply/vec_zero. by rewrite trans_mat_ok ?unvecK //; exact: unvec_ok.
move: Hi; move: i. apply/vec_zero.
by rewrite -[vec_of s](mulmxK H) -trans_mat_ok // E mul0mx.
Qed.
End Inst.
