(** The full output of a linear generator is linear when generate(int) with
    the full width returns the same word as generate(). *)
From Coq Require Import NArith ZArith Lia Bool.
From mathcomp Require Import all_ssreflect all_algebra.
From mathcomp Require Import zify.
From Verif Require Import Base GenModel LinSpec LinLemmas PeriodSpec.
Set Implicit Arguments.
Unset Strict Implicit.
Unset Printing Implicit Defensive.
Import GRing.Theory.
Local Open Scope ring_scope.
Delimit Scope Z_scope with coqZ.

Section Full.
Variables (S : Type) (G : gen_ops S) (n : nat) (ok : S -> Prop) (abs : S -> 'rV['F_2]_n).
Variables (A : 'M['F_2]_n) (C : nat -> 'cV['F_2]_n).
Hypothesis HG : linear_gen G ok abs A C.
Hypothesis w1 : (0 < g_width G)%num.
Hypothesis full : forall s, ok s -> (g_generate_len G (Z.of_N (g_width G)) s).1 = (g_generate G s).1.

Definition full_col (p : nat) : 'cV['F_2]_n := C (N.to_nat (g_width G) - 1 - p)%N.

Lemma full_lt s : ok s -> ((g_generate G s).1 < 2 ^ g_width G)%num.
Proof. by move=> Hs; rewrite -full //; apply: (lin_len_lt HG) => //; lia. Qed.
Lemma full_linear : linear_out G ok abs full_col.
Proof.
move=> s p Hs Hp. rewrite -full //.
have H1 : (1 <= Z.of_N (g_width G) <= Z.of_N (g_width G))%coqZ by move: w1; lia.
have H2 : (Z.of_nat (N.to_nat (g_width G) - 1 - p)%N < Z.of_N (g_width G))%coqZ by move: w1; lia.
have := lin_len_out HG Hs H1 H2. rewrite /msb /full_col.
have -> : (g_width G - 1 - N.of_nat (N.to_nat (g_width G) - 1 - p)%N)%num = N.of_nat p by move: Hp; lia.
by move=> ->; move/Z.ltb_lt: H2 => ->.
Qed.
End Full.
