(** Round robin arrays: which states have the same vector, and the output of
    generate(). *)
From Coq Require Import NArith ZArith Lia Bool.
From mathcomp Require Import all_ssreflect all_algebra.
From mathcomp Require Import zify.
From Verif Require Import Base WordLemmas WordVec GenModel LinSpec LinLemmas LinInst LinOut PeriodSpec ArrayModel ArrayWin ArrayLin.
Set Implicit Arguments.
Unset Strict Implicit.
Unset Printing Implicit Defensive.
Import GRing.Theory.
Local Open Scope N_scope.
Delimit Scope Z_scope with coqZ.

Lemma addF2_self m (x : 'rV['F_2]_m) : (x + x = 0)%R.
Proof.
apply/rowP => i. rewrite !mxE. by case: (x 0%R i) => [[|[|k]] Hk] //; apply/val_inj.
Qed.
Section Out.
Variables (P : Type) (th : P) (w size r n : nat) (F O : (nat -> N) -> N) (G : gen_ops (P * rr)).
Hypothesis H : arr_gen th w size r n F O G.

(** Two states have the same vector exactly if their windows agree. *)
Lemma ag_state s t : ar_ok th w size s -> ar_ok th w size t ->
  (@ar_vec P w size r n s = @ar_vec P w size r n t) <-> agree size r (ar_win size s) (ar_win size t).
Proof.
move=> Hs Ht. have L := ag_lin H.
have A0 : ar_ok th w size (g_add G s t) by exact: (lin_add_ok L).
have E := lin_add_abs L Hs Ht.
have Z := ag_vec_zero H A0.
have W k : (k < size)%N -> ar_win size (g_add G s t) k = N.lxor (ar_win size s k) (ar_win size t k).
  move=> Hk. have [_ R1] := Hs; have [_ R2] := Ht. rewrite (ag_add H) // /ar_win /= (win_xor w) //; lia.
have S0 := ag_size H.
have Z2 : (@ar_vec P w size r n s = @ar_vec P w size r n t) <-> @ar_vec P w size r n (g_add G s t) = 0%R.
  rewrite E. split=> [->|E0]; first by rewrite addF2_self.
  by rewrite -[LHS]addr0 -(addF2_self (@ar_vec P w size r n t)) addrA E0 add0r.
rewrite Z2 Z /agree W // N.shiftr_lxor N.shiftr_0_l. split=> -[H1 H2]; split.
- exact: N.lxor_eq.
- move=> k Hk. have := H2 k Hk. rewrite W; last by case/andP: Hk. exact: N.lxor_eq.
- by rewrite H1 N.lxor_nilpotent.
- move=> k Hk. rewrite W; last by case/andP: Hk. by rewrite H2 // N.lxor_nilpotent.
Qed.

(** The output of generate() is linear if it is a function O2 of the window. *)
Variable O2 : (nat -> N) -> N.
Hypothesis W2 : wfun w size r O2.
Hypothesis E2 : forall s, ar_ok th w size s -> (g_generate G s).1 = O2 (ar_win size s).
Definition ar_G2 : gen_ops (P * rr) :=
  {| g_width := g_width G; g_generate := g_generate G;
     g_generate_len := fun v s => (N.land (O2 (ar_win size s)) (wshl (N.of_nat w) (wnot (N.of_nat w) 0) (N.of_nat w - Z.to_N v)), ar_step size F s);
     g_add := g_add G; g_setZero := g_setZero G; g_isZero := g_isZero G; g_seed := g_seed G; g_bitSize := g_bitSize G |}.
Lemma ag_G2 : arr_gen th w size r n F O2 ar_G2.
Proof. by case: H => *; split. Qed.
Definition ar_D (p : nat) : 'cV['F_2]_n := ar_C th w size r n O2 (w - 1 - p)%N.
Lemma ag_linout : linear_out G (ar_ok th w size) (@ar_vec P w size r n) ar_D.
Proof.
have L := ag_lin ag_G2. have w0 := ag_w H. have gw := ag_width H.
have FL s : ar_ok th w size s -> (g_generate_len ar_G2 (Z.of_N (g_width ar_G2)) s).1 = (g_generate ar_G2 s).1.
  move=> Hs. cbn [g_generate_len g_generate g_width ar_G2]. rewrite E2 // gw. cbn [fst].
  have -> : N.of_nat w - Z.to_N (Z.of_N (N.of_nat w)) = 0 by lia.
  have HO : O2 (ar_win size s) < 2 ^ N.of_nat w by apply: (wf_lt W2) => k _; have [_ R] := Hs; exact: win_lt.
  apply: N.bits_inj => i. rewrite N.land_spec wshl_spec.
  case: (N.ltb_spec i (N.of_nat w)) => Hi; last by rewrite (bits_above (N.of_nat w)).
  have -> : (0 <=? i) by lia. rewrite N.sub_0_r wnot_spec // N.bits_0. by rewrite /= andbT.
have w1 : (0 < g_width ar_G2)%num by cbn [g_width ar_G2]; rewrite gw; lia.
move=> s p Hs Hp. have := full_linear L w1 FL Hs Hp.
rewrite /full_col /ar_D. cbn [g_width g_generate ar_G2]. move=> ->. by rewrite gw Nat2N.id.
Qed.
End Out.

(** If all bits count and the transition is invertible, any [size] words are
    produced one after the other. *)
Section Reach.
Variables (P : Type) (th : P) (w size n : nat) (F O : (nat -> N) -> N) (G : gen_ops (P * rr)).
Hypothesis H : arr_gen th w size 0 n F O G.
Lemma ag_iter_win m s k : ar_ok th w size s -> (k < size)%N ->
  ar_win size (iter m (ar_step size F) s) k = if (k + m < size)%N then ar_win size s (k + m)%N else F (ar_win size (iter (k + m - size) (ar_step size F) s)).
Proof. case: H => *. by apply: (@ar_iter_win P th w size 0 n F O G). Qed.
Lemma ag_reach m t : ar_A th w size 0 n G \in unitmx -> ar_ok th w size t ->
  exists s, ar_ok th w size s /\ agree size 0 (ar_win size (iter m (ar_step size F) s)) (ar_win size t).
Proof. case: H => *. by apply: (@ar_reach P th w size 0 n F O G). Qed.
Lemma ag_words_all (y : nat -> N) : ar_A th w size 0 n G \in unitmx -> (forall i, (i < size)%N -> y i < 2 ^ N.of_nat w) ->
  exists s, ar_ok th w size s /\ forall i, (i < size)%N -> F (ar_win size (iter i (ar_step size F) s)) = y i.
Proof.
move=> UA Hy. have s0 := ag_size H. pose t : P * rr := (th, rr_mk size y).
have Ht : ar_ok th w size t by split=> //=; apply: mk_ok => [|k Hk]; [lia|apply: Hy; lia].
have [s [Hs [E1 E2]]] := ag_reach size UA Ht. exists s; split=> // i Hi.
have <- : ar_win size t i = y i by rewrite /ar_win win_mk //; lia.
have := ag_iter_win size Hs Hi. have -> : (i + size < size)%N = false by lia.
have -> : (i + size - size = i)%N by lia. move=> <-.
case: i Hi => [|i] Hi; last by apply: E2.
by move: E1; rewrite !N.shiftr_0_r.
Qed.
End Reach.
