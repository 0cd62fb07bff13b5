(** The xorshift classes of xorshift-3.cpp and xorshift-4.cpp as families of
    generators: the object holds the parameters and the four words. *)
From Coq Require Import NArith ZArith Lia Bool.
From mathcomp Require Import all_ssreflect all_algebra.
From mathcomp Require Import zify.
From Verif Require Import Base WordLemmas WordVec GenModel LinSpec LinLemmas LinInst PeriodSpec LinOut LinTestModel LinTestProofs
  XorshiftModel XorshiftSpec XorshiftProofs XorshiftLin.
Set Implicit Arguments.
Unset Strict Implicit.
Unset Printing Implicit Defensive.
Import GRing.Theory.
Local Open Scope ring_scope.
Delimit Scope Z_scope with coqZ.

(** generate(32) is generate(). *)
Lemma xs_len32 gen s : ((gen s).1 < 2 ^ 32)%num -> (xs_generate_len gen 32 s).1 = (gen s).1.
Proof.
rewrite /xs_generate_len; case: (gen s) => r s' /= H.
apply: (@word_ext 32) => //; first by apply: land_lt.
move=> i Hi; rewrite N.land_spec.
have -> : wshl 32 (wnot 32 0) (32 - Z.to_N 32) = N.ones 32 by [].
by rewrite N.ones_spec_low ?andbT.
Qed.

Section Shape.
Variables (g h : N -> N).
Hypothesis Lg : wlin g.
Hypothesis Lh : wlin h.
Notation gen := (xs_shape g h).
Lemma shape_lt s : xs_okw s -> ((gen s).1 < 2 ^ 32)%num.
Proof. by move=> Hs; have := shape_ok _ _ _ Lg Lh Hs; case=> [_ [_ [_ H]]]. Qed.
Lemma shape_full s : xs_okw s -> (g_generate_len (xs_ops gen) (Z.of_N (g_width (xs_ops gen))) s).1 = (g_generate (xs_ops gen) s).1.
Proof. by move=> Hs; apply: xs_len32; apply: shape_lt. Qed.
Definition xs_D (gen : xs -> N * xs) (p : nat) : 'cV['F_2]_128 := full_col (xs_ops gen) (xs_C gen) p.
Lemma shape_out : linear_out (xs_ops gen) xs_okw xs_vec (xs_D gen).
Proof. by apply: (full_linear (xs_shape_lin Lg Lh)) => //; exact: shape_full. Qed.
End Shape.

Lemma seed_ok v s : (v < 2 ^ 32)%num -> xs_okw (xs_seed v s).
Proof. by move=> H; split; [|split; [|split]] => //=; apply: wnot_lt. Qed.

Lemma shape_accepted g h : wlin g -> wlin h -> forall s, test_linearity (xs_ops (xs_shape g h)) s.
Proof.
move=> Lg Lh s; apply: (test_accepts (xs_shape_lin Lg Lh) (shape_out Lg Lh)).
- by move=> t; exact: (shape_lt Lg Lh).
- by move=> v Hv; exact: seed_ok.
Qed.
Lemma xs_accepted : (forall a b c g, test_linearity (xs_ops (xs3_generate a b c)) g) /\
  (forall pat a b c g, test_linearity (xs_ops (xs4_generate pat a b c)) g) /\
  (forall a b c g, test_linearity (xs_ops (xs5_generate a b c)) g).
Proof.
split; [|split].
- exact (fun a b c => shape_accepted (g3_lin c) (h3_lin a b)).
- exact (fun pat a b c => shape_accepted (xs4_g_lin pat a b) (xs4_h_lin pat b c)).
- exact (fun a b c => shape_accepted (g5_lin a) (h3_lin b c)).
Qed.
