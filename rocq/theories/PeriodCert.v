(** Certifying the period of a concrete linear generator by computation.
    Polynomials over GF(2) are numbers here (bit i is the coefficient of X^i). *)
From Coq Require Import NArith ZArith List Bool.
From Verif Require Import Base GenModel.
Import ListNotations.
Set Implicit Arguments.
Local Open Scope N_scope.

(** Reduction of a polynomial of degree at most n modulo f of degree n, and
    products and powers of X modulo f. *)
Definition pc_red (n f x : N) : N := if N.testbit x n then N.lxor x f else x.
Fixpoint pc_mul (n f a : N) (b : positive) : N :=
  match b with
  | xH => a
  | xO b' => pc_red n f (N.double (pc_mul n f a b'))
  | xI b' => N.lxor a (pc_red n f (N.double (pc_mul n f a b')))
  end.
Definition pc_sqr (n f a : N) : N := match a with 0 => 0 | Npos b => pc_mul n f a b end.
Fixpoint pc_pow (n f : N) (k : positive) : N :=
  match k with
  | xH => 2
  | xO k' => pc_sqr n f (pc_pow n f k')
  | xI k' => pc_red n f (N.double (pc_sqr n f (pc_pow n f k')))
  end.

Section Gen.
Variable S : Type.
Variable G : gen_ops S.
(** The state a(A) s. *)
Fixpoint pc_act (a : positive) (s : S) : S :=
  match a with
  | xH => s
  | xO a' => (snd (g_generate G (pc_act a' s)))
  | xI a' => g_add G s (snd (g_generate G (pc_act a' s)))
  end.
Definition pc_actN (a : N) (s : S) : S := match a with 0 => g_setZero G s | Npos p => pc_act p s end.
(** The state after k steps, given that f(A) s = 0. *)
Definition pc_jump (n f : N) (k : positive) (s : S) : S := pc_actN (pc_pow n f k) s.
End Gen.
