(** Round robin generators whose output is a bijective function of the newest
    word: size - 1 consecutive outputs take all values. *)
From Coq Require Import NArith ZArith Lia Bool.
From mathcomp Require Import all_ssreflect all_algebra.
From mathcomp Require Import zify.
From Verif Require Import Base WordLemmas WordVec GenModel LinSpec LinLemmas LinInst EquiProofs5 ArrayModel ArrayWin ArrayLin.
Set Implicit Arguments.
Unset Strict Implicit.
Unset Printing Implicit Defensive.
Local Open Scope N_scope.
Delimit Scope Z_scope with coqZ.

Section Equi.
Variables (P : Type) (th : P) (w size r n : nat) (F O : (nat -> N) -> N) (G : gen_ops (P * rr)).
Hypothesis H : arr_gen th w size r n F O G.
Variable T : N -> N.
Hypothesis OT : forall a, O a = T (F a).
Hypothesis Tonto : forall y, y < 2 ^ N.of_nat w -> exists x, x < 2 ^ N.of_nat w /\ T x = y.
Notation A := (ar_A th w size r n G).
Notation C := (ar_C th w size r n O).
Hypothesis UA : A \in unitmx.
Hypothesis s2 : (1 < size)%N.

Lemma ag_obit s j : ar_ok th w size s -> (j < w)%N -> obit C (ar_vec w size r n s) j = f2 (N.testbit (O (ar_win size s)) (N.of_nat (w - 1 - j))).
Proof.
move=> Hs Hj. have L := ag_lin H.
have HW := ag_width H. have Hw := ag_w H.
have Hv : (1 <= Z.of_nat w <= Z.of_N (g_width G))%coqZ by rewrite HW; lia.
have Hjw : (Z.of_nat j < Z.of_N (g_width G))%coqZ by rewrite HW; lia.
have := lin_len_out L Hs Hv Hjw. have -> : (Z.of_nat j <? Z.of_nat w)%coqZ = true by lia.
move=> <-. rewrite (ag_len H) //; last lia. rewrite /msb HW /= /f2.
rewrite top_mask_land; try lia. have -> : (Z.of_nat j <? Z.of_nat w)%coqZ = true by lia.
by have -> : N.of_nat (w - 1 - j)%N = N.of_nat w - 1 - N.of_nat j by lia.
Qed.
Lemma ag_iter_vec m s : ar_ok th w size s -> ar_ok th w size (iter m (ar_step size F) s) /\
  ar_vec w size r n (iter m (ar_step size F) s) = st A m (ar_vec w size r n s).
Proof.
move=> Hs. have L := ag_lin H. elim: m => [//|m [IH1 IH2]]. rewrite iterS.
have E : ar_step size F (iter m (ar_step size F) s) = (g_generate G (iter m (ar_step size F) s)).2 by rewrite (ag_step H).
rewrite E; split; first exact: (lin_generate_ok L).
by rewrite (lin_generate_abs L) // IH2.
Qed.
Lemma ag_words_out (y : nat -> N) : (forall i, (i < size - 1)%N -> y i < 2 ^ N.of_nat w) ->
  exists s, ar_ok th w size s /\ forall i, (i < size - 1)%N -> O (ar_win size (iter i (ar_step size F) s)) = y i.
Proof.
move=> Hy.
have [z Hz] : exists z : nat -> N, forall i, (i < size - 1)%N -> z i < 2 ^ N.of_nat w /\ T (z i) = y i.
  suff : forall m, (m <= size - 1)%N -> exists z : nat -> N, forall i, (i < m)%N -> z i < 2 ^ N.of_nat w /\ T (z i) = y i.
    by move/(_ (size - 1)%N); apply.
  elim=> [_|m IH Hm]; first by exists (fun=> 0).
  have [z Hz] := IH (ltnW Hm). have [x [Hx Ex]] := Tonto (Hy m Hm).
  exists (fun i => if (i == m) then x else z i) => i Hi. case: eqP => [->//|/eqP Ni]. by apply: Hz; lia.
have [s [Hs E]] := ag_words H s2 UA (fun i Hi => proj1 (Hz i Hi)).
by exists s; split=> // i Hi; rewrite OT E //; case: (Hz i Hi).
Qed.
Lemma ag_surj (y : 'M['F_2]_(size - 1, w)) : exists x, out_tuple A C (size - 1) w x = y.
Proof.
pose row i : N := mkw w (fun b => match @idP (i < size - 1)%N, @idP (w - 1 - b < w)%N with
   | ReflectT Hi, ReflectT Hj => y (Ordinal Hi) (Ordinal Hj) == 1%R | _, _ => false end).
have [|s [Hs E]] := @ag_words_out row; first by move=> i _; exact: mkw_lt.
exists (ar_vec w size r n s). apply/matrixP => i j. rewrite mxE.
have [Hi Ei] := ag_iter_vec i Hs. rewrite -Ei ag_obit // E // /row mkw_bit.
have -> : (w - 1 - j <? w)%nat = true by have := ltn_ord j; lia.
have Ej : (w - 1 - (w - 1 - j) = j)%N by have := ltn_ord j; lia.
rewrite andTb. case: {-}_ / idP => [Ha|/(_ (ltn_ord i))//]. case: {-}_ / idP => [Hb|Hb].
  have -> : Ordinal Ha = i by exact: val_inj. have -> : Ordinal Hb = j by exact: val_inj. exact: f2K.
by case: Hb; rewrite Ej.
Qed.
(** With maximal period the generator is (size - 1)-dimensionally
    equidistributed with w-bit accuracy, and no better if some bits of the oldest
    word are unused. *)
Lemma ag_classical x0 : full_period A x0 -> classical_equidist A C x0 (size - 1) w.
Proof. by move=> FP; apply: classical_of_surj => //; exact: ag_surj. Qed.
Lemma ag_dim x0 : (0 < r)%N -> full_period A x0 -> equidist_dim A C x0 w (size - 1).
Proof.
move=> r0 FP. split; first by apply/(equi_surj _ FP); exact: ag_surj.
move=> k' /(equi_surj _ FP) Hk. have [_ L] := surj_card Hk 0%R.
have := ag_n H. have := ag_w H. have := ag_r H. move: r0 L s2. clear. nia.
Qed.
End Equi.
