(** The invariant of the reduction and its preservation. *)
From Coq Require Import NArith ZArith Lia.
From mathcomp Require Import all_ssreflect all_algebra.
From mathcomp Require Import zify.
From Verif Require Import Base GenModel LinSpec LinLemmas EquiModel EquiLattice EquiProofs.
Set Implicit Arguments.
Unset Strict Implicit.
Unset Printing Implicit Defensive.
Import GRing.Theory.
Local Open Scope ring_scope.
Delimit Scope Z_scope with coqZ.

Section Inv.
Variables (S : Type) (G : gen_ops S) (n : nat) (ok : S -> Prop).
Variables (abs : S -> 'rV['F_2]_n) (A : 'M['F_2]_n) (C : nat -> 'cV['F_2]_n).
Hypothesis LG : linear_gen G ok abs A C.
Variable nb : nat.
Hypothesis Hnb : forall s, ok s -> g_bitSize G s = nb.
Hypothesis Hn : (n <= 2 * nb + 1)%N.
Variable x0 : 'rV['F_2]_n.
Notation w := (g_width G).
Notation lvec := (lvec S).
Notation seqf := (seqf G abs A C).
Notation goodv := (goodv G ok).

Definition Bs (v : nat) (b : nat -> lvec) : sq -> Prop := fun f => exists i, (i <= v)%N /\ f = seqf (b i).
Definition mem (v : nat) (f : sq) : Prop := exists x, in_orbit_span A x0 x /\
  forall z j, (1 <= z)%coqZ -> (j < v)%N -> f z j = obit C (st A (Z.to_nat (z - 1)) x) j.

Record inv (v : nat) (b : nat -> lvec) : Prop := {
  i_good : forall i, (i <= v)%N -> goodv v (b i);
  i_nz : forall i, (i < v)%N -> lv_zero (b i) = false;
  i_diag : forall i, (i < v)%N -> msb w (lv_next (b i)) i = 1;
  i_tri : forall i j, (i < v)%N -> (i < j)%N -> (j < v)%N -> msb w (lv_next (b i)) j = 0;
  i_next : lv_zero (b v) = false -> lv_next (b v) <> 0%num;
  i_zero : lv_zero (b v) = true -> lv_next (b v) = 0%num /\ forall z j, (j < v)%N -> seqf (b v) z j = 0;
  i_mem : forall i, (i <= v)%N -> mem v (seqf (b i));
  i_unit : forall i, (i < v)%N -> spn v (Bs v b) (unit_sq i);
  i_out : spn v (Bs v b) (out_sq A C x0);
  i_cnt : (lv_count (b v) <= Z.of_nat n + 2 * Z.of_nat nb + 1)%coqZ
}.
Definition cnt (b : lvec) : nat := Z.to_nat (lv_count b).

Section Static.
Variables (v : nat) (b : nat -> lvec).
Hypothesis I : inv v b.
Let cZ (i : 'I_v) : Z.of_nat (cnt (b i)) = lv_count (b i).
Proof. have [_ Hc _ _] := i_good I (ltnW (ltn_ord i)). rewrite /cnt. lia. Qed.
Let Hlow (i : 'I_v) z j : (z < Z.of_nat (cnt (b i)))%coqZ -> (j < v)%N -> seqf (b i) z j = 0.
Proof. by rewrite cZ => H _; exact: seqf_low. Qed.
Let Hdiag (i : 'I_v) : seqf (b i) (Z.of_nat (cnt (b i))) i = 1.
Proof. by rewrite cZ seqf_at (i_diag I). Qed.
Let Htri (i : 'I_v) j : (i < j)%N -> (j < v)%N -> seqf (b i) (Z.of_nat (cnt (b i))) j = 0.
Proof. by move=> H1 H2; rewrite cZ seqf_at (i_tri I). Qed.
Let Hmem (i : 'I_v) : mem v (seqf (b i)).
Proof. exact/(i_mem I)/ltnW. Qed.

Lemma inv_sum : (\sum_(i < v) cnt (b i) <= \rank (krylov A x0))%N.
Proof. exact: (@count_sum _ A C x0 v (fun i => seqf (b i)) (fun i => cnt (b i)) Hlow Hdiag Htri Hmem). Qed.

Let Hsub f : lv_zero (b v) = true -> spn v (Bs v b) f ->
  spn v (fun g => exists i : 'I_v, g = seqf (b i)) f.
Proof.
move=> Hz. apply: spn_trans => g [i [Hi ->]].
case: (ltnP i v) => Hiv.
  by apply: (@spnB _ _ (seqf (b i))) => //; exists (Ordinal Hiv).
have -> : i = v by lia.
by apply: spn0 => z j Hj; have [_ H] := i_zero I Hz; exact: H.
Qed.

Lemma inv_dim k : lv_zero (b v) = true -> (forall i, (i < v)%N -> (k <= cnt (b i))%N) ->
  (exists i, (i < v)%N /\ cnt (b i) = k) -> equidist_dim A C x0 v k.
Proof.
move=> Hz Hk [i [Hi Ei]].
apply: (@reduced_dim _ A C x0 v (fun i => seqf (b i)) (fun i => cnt (b i)) Hlow Hdiag Htri Hmem).
- by move=> i' Hi'; apply: Hsub => //; exact: (i_unit I).
- by apply: Hsub => //; exact: (i_out I).
- by move=> i'; apply: Hk.
- by exists (Ordinal Hi).
Qed.
End Static.

Section Step.
Variables (v : nat) (b : nat -> lvec).
Hypothesis Hv1 : (1 <= v)%N.
Hypothesis Hvw : (N.of_nat v <= w)%num.
Hypothesis I : inv v b.
Variable p : nat.
Hypothesis Hp : (p < v)%N.
Hypothesis Hz : lv_zero (b v) = false.
Hypothesis Hp1 : msb w (lv_next (b v)) p = 1.
Hypothesis Hp0 : forall j, (p < j)%N -> (j < v)%N -> msb w (lv_next (b v)) j = 0.

Let sw := (lv_count (b v) >? lv_count (b p))%coqZ.
Definition bv1 := if sw then b p else b v.
Definition bp1 := if sw then b v else b p.
Lemma bv1_le : (lv_count bv1 <= lv_count bp1)%coqZ.
Proof. by rewrite /bv1 /bp1 /sw Z.gtb_ltb; case: Z.ltb_spec; lia. Qed.
Lemma bv1_good : goodv v bv1.
Proof. by rewrite /bv1; case: sw; apply: (i_good I); lia. Qed.
Lemma bp1_good : goodv v bp1.
Proof. by rewrite /bp1; case: sw; apply: (i_good I); lia. Qed.
Lemma bv1_nz : lv_zero bv1 = false.
Proof. by rewrite /bv1; case: sw => //; apply: (i_nz I). Qed.
Lemma bp1_nz : lv_zero bp1 = false.
Proof. by rewrite /bp1; case: sw => //; apply: (i_nz I). Qed.
Lemma bv1_p : msb w (lv_next bv1) p = 1.
Proof. by rewrite /bv1; case: sw => //; apply: (i_diag I). Qed.
Lemma bp1_p : msb w (lv_next bp1) p = 1.
Proof. by rewrite /bp1; case: sw => //; apply: (i_diag I). Qed.
Lemma bv1_j j : (p < j)%N -> (j < v)%N -> msb w (lv_next bv1) j = 0.
Proof. by move=> H1 H2; rewrite /bv1; case: sw; [apply: (i_tri I) | exact: Hp0]. Qed.
Lemma bp1_j j : (p < j)%N -> (j < v)%N -> msb w (lv_next bp1) j = 0.
Proof. by move=> H1 H2; rewrite /bp1; case: sw; [exact: Hp0 | apply: (i_tri I)]. Qed.
Lemma bv1_mem : mem v (seqf bv1).
Proof. by rewrite /bv1; case: sw; apply: (i_mem I); lia. Qed.
Lemma bp1_mem : mem v (seqf bp1).
Proof. by rewrite /bp1; case: sw; apply: (i_mem I); lia. Qed.

Definition bv2 := lv_add G bv1 bp1.
Lemma bv2_good : goodv v bv2.
Proof.
have [O1 C1 L1 H1] := bv1_good. have [O2 C2 L2 H2] := bp1_good.
split=> //=.
- exact: (lin_add_ok LG).
- apply/N.nle_gt => Hle. have H := N.lxor_spec (lv_next bv1) (lv_next bp1).
  have := N.log2_le_mono _ _ Hle. rewrite N.log2_pow2; last lia.
  have := N.log2_lxor (lv_next bv1) (lv_next bp1).
  have Hlog x : (x < 2 ^ w)%num -> (N.log2 x < w)%num.
    case: (N.eq_dec x 0) => [->|Hx] H0; first by rewrite /=; lia.
    by apply/N.log2_lt_pow2 => //; lia.
  have := Hlog _ L1. have := Hlog _ L2. lia.
- by move=> j Hj Hjw; rewrite msb_xor H1 // H2 // addr0.
Qed.
Lemma bv2_nz : lv_zero bv2 = false.
Proof. exact: bv1_nz. Qed.
Lemma bv2_p : msb w (lv_next bv2) p = 0.
Proof. by rewrite msb_xor bv1_p bp1_p F2_addxx. Qed.
Lemma bv2_j j : (p < j)%N -> (j < v)%N -> msb w (lv_next bv2) j = 0.
Proof. by move=> H1 H2; rewrite msb_xor bv1_j // bp1_j // addr0. Qed.
Let d := Z.to_nat (lv_count bp1 - lv_count bv1).
Lemma bv2_seqf z j : seqf bv2 z j = seqf bv1 z j + seqf bp1 (z + Z.of_nat d)%coqZ j.
Proof.
have [O1 C1 L1 H1] := bv1_good. have [O2 C2 L2 H2] := bp1_good.
rewrite /bv2 (seqf_add LG) //; last exact: bv1_le.
by congr (_ + seqf _ _ _); rewrite /d; have := bv1_le; lia.
Qed.
Lemma bv2_mem : mem v (seqf bv2).
Proof.
have [x [Ox Hx]] := bv1_mem. have [y [Oy Hy]] := bp1_mem.
exists (x + st A d y); split; first by apply: orbD => //; exact: orb_st.
move=> z j H1 Hj. rewrite bv2_seqf Hx // Hy //; last lia.
rewrite stD obitD -st_add. congr (_ + obit _ (st _ _ _) _). lia.
Qed.

(** The basis after the step, with [X] in the last place. *)
Definition bnew (X : lvec) : nat -> lvec := fun i => if i == v then X else if i == p then bp1 else b i.
Lemma step_inv X : goodv v X -> (forall z j, (j < v)%N -> seqf X z j = seqf bv2 z j) ->
  (lv_zero X = false -> lv_next X <> 0%num) ->
  (lv_zero X = true -> lv_next X = 0%num /\ forall z j, (j < v)%N -> seqf X z j = 0) ->
  (lv_count X <= Z.of_nat n + 2 * Z.of_nat nb + 1)%coqZ ->
  inv v (bnew X).
Proof.
move=> HX EX N1 N2 HC.
have HXv : bnew X v = X by rewrite /bnew eqxx.
have Hpv : bnew X p = bp1 by rewrite /bnew eqxx; case: eqP => //; lia.
have S0 : forall i, (i <= v)%N -> spn v (Bs v (bnew X)) (seqf (b i)).
  have Sp : spn v (Bs v (bnew X)) (seqf bp1).
    by apply: (@spnB _ _ (seqf (bnew X p))); [exists p; split=> //; lia | rewrite Hpv].
  have SX : spn v (Bs v (bnew X)) (seqf X).
    by apply: (@spnB _ _ (seqf (bnew X v))); [exists v; split=> //; lia | rewrite HXv].
  have Sv : spn v (Bs v (bnew X)) (seqf bv1).
    apply: (spnD SX (spn_shift d Sp)) => z j Hj.
    by rewrite EX // bv2_seqf F2_addK.
  move=> i Hi. case: (eqVneq i v) => [->|Hiv].
    by have := Sv; have := Sp; rewrite /bv1 /bp1; case: sw.
  case: (eqVneq i p) => [->|Hip].
    by have := Sv; have := Sp; rewrite /bv1 /bp1; case: sw.
  apply: (@spnB _ _ (seqf (bnew X i))); first by exists i.
  by rewrite /bnew (negbTE Hiv) (negbTE Hip).
have S1 : forall f, spn v (Bs v b) f -> spn v (Bs v (bnew X)) f.
  by move=> f; apply: spn_trans => g [i [Hi ->]]; exact: S0.
split.
- move=> i Hi; rewrite /bnew; case: eqP => // _; case: eqP => _; [exact: bp1_good | exact: (i_good I)].
- move=> i Hi; rewrite /bnew; case: eqP => [|_]; [lia|].
  case: eqP => _; [exact: bp1_nz | exact: (i_nz I)].
- move=> i Hi; rewrite /bnew; case: eqP => [|_]; [lia|].
  case: eqP => [->|_]; [exact: bp1_p | exact: (i_diag I)].
- move=> i j Hi Hij Hj; rewrite /bnew; case: eqP => [|_]; [lia|].
  case: eqP => [E|_]; [apply: bp1_j => //; lia | exact: (i_tri I)].
- by rewrite HXv.
- by rewrite HXv.
- move=> i Hi. rewrite /bnew; case: eqP => _.
    have [x [Ox Hx]] := bv2_mem. exists x; split=> // z j H1 Hj. by rewrite EX // Hx.
  by case: eqP => _; [exact: bp1_mem | exact: (i_mem I)].
- by move=> i Hi; apply: S1; exact: (i_unit I).
- by apply: S1; exact: (i_out I).
- by rewrite HXv.
Qed.

Lemma cnt_step X : (\sum_(i < v.+1) cnt (bnew X i) + cnt bv1 = \sum_(i < v.+1) cnt (b i) + cnt X)%N.
Proof.
rewrite !big_ord_recr /= [bnew X v]/bnew eqxx.
rewrite (bigD1 (Ordinal Hp)) //= [in RHS](bigD1 (Ordinal Hp)) //=.
have -> : bnew X p = bp1 by rewrite /bnew eqxx; case: eqP => //; lia.
have -> : (\sum_(i < v | i != Ordinal Hp) cnt (bnew X i) = \sum_(i < v | i != Ordinal Hp) cnt (b i))%N.
  apply: eq_bigr => i Hi. rewrite /bnew. case: eqP => [E|_]; first by have := ltn_ord i; lia.
  by case: eqP => // E; move: Hi; rewrite -(inj_eq val_inj) /= E eqxx.
rewrite /bp1 /bv1. move: (\sum_(i < v | i != Ordinal Hp) cnt (b i))%N => s. case: sw; lia.
Qed.
(** The chosen vector has a count of at most n. *)
Lemma bv1_cnt : (lv_count bv1 <= Z.of_nat n)%coqZ.
Proof.
have := inv_sum I. rewrite (bigD1 (Ordinal Hp)) //= => H.
have := rank_leq_row (krylov A x0).
have : (lv_count bv1 <= lv_count (b p))%coqZ.
  by rewrite /bv1 /sw Z.gtb_ltb; case: Z.ltb_spec; lia.
have [_ Hc _ _] := i_good I (ltnW Hp). rewrite /cnt in H. lia.
Qed.
End Step.

Lemma cnt_bound v b : inv v b -> (\sum_(i < v.+1) cnt (b i) <= 2 * n + 2 * nb + 1)%N.
Proof.
move=> I. rewrite big_ord_recr /=. have := inv_sum I. have := rank_leq_row (krylov A x0).
have := i_cnt I. have [_ Hc _ _] := i_good I (leqnn v). move: (\sum_(i < v) cnt (b i))%N => s. rewrite /cnt. lia.
Qed.
End Inv.
