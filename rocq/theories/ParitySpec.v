(** Specification of the parity vector. *)
From Coq Require Import NArith ZArith List.
From mathcomp Require Import all_ssreflect all_algebra.
From Verif Require Import Base GenModel LinSpec ParityModel.
Set Implicit Arguments.
Unset Strict Implicit.
Unset Printing Implicit Defensive.
Import GRing.Theory.
Local Open Scope ring_scope.

(** The inner product of two w-bit words over GF(2). *)
Definition inner (w : N) (x y : N) : 'F_2 :=
  \sum_(i < N.to_nat w) (N.testbit x (N.of_nat i) && N.testbit y (N.of_nat i))%:R.

(** NTL::kernel: the rows of the result form a basis of the space of all row
    vectors y with y * M = 0.  What is needed: they lie in the space, they are
    not zero, and if there are none then the space is zero. *)
Definition dot_col (r : nat) (m : nat -> nat -> bool) (y : nat -> bool) (j : nat) : 'F_2 :=
  \sum_(i < r) (y i && m i j)%:R.
Definition kernel_spec (kernel : nat -> nat -> (nat -> nat -> bool) -> list (list bool)) : Prop :=
  forall r c m,
    (forall y, List.In y (kernel r c m) -> [/\ length y = r,
        forall j, (j < c)%N -> dot_col r m (fun i => List.nth i y false) j = 0 &
        exists2 i, (i < r)%N & List.nth i y false = true]) /\
    (kernel r c m = nil -> forall y, (forall j, (j < c)%N -> dot_col r m y j = 0) ->
        forall i, (i < r)%N -> y i = false).

(** What searchParity expects of a reducible generator beyond [linear_gen]:
    isZero recognises the zero state, setOneBit runs through a generating
    system of the state space (or has undefined behaviour at some position),
    and the parity word depends linearly on the state. *)
Record parity_gen {S : Type} (G : gen_ops S) (P : par_ops S) (n : nat) (ok : S -> Prop)
  (abs : S -> 'rV['F_2]_n) (nb : nat) (e : nat -> 'rV['F_2]_n) (Q : nat -> 'cV['F_2]_n) : Prop := {
  pg_isZero : forall s, ok s -> g_isZero G s = (abs s == 0);
  pg_bitSize : forall s, ok s -> g_bitSize G s = nb;
  pg_oneBit : forall s i, ok s -> (i < nb)%N ->
    p_setOneBit P i s = Undef \/
    exists s', [/\ p_setOneBit P i s = Ret s', ok s' & abs s' = e i];
  pg_full : row_full (\matrix_(i < nb) e i);
  pg_lt : forall s, ok s -> (p_getParityValue P s < 2 ^ g_width G)%num;
  pg_parity : forall s j, ok s -> (N.of_nat j < g_width G)%num ->
    msb (g_width G) (p_getParityValue P s) j = obit Q (abs s) j
}.

(** A state whose parity words vanish for ever is zero. *)
Definition observable (n : nat) (A : 'M['F_2]_n) (Q : nat -> 'cV['F_2]_n) (w : N) : Prop :=
  forall x, (forall i j, (N.of_nat j < w)%num -> obit Q (st A i x) j = 0) -> x = 0.

(** The hypotheses of the theorems about searchParity: a linear generator with
    invertible transition A, calc_1pos and the NTL kernel as specified, and an
    irreducible factor f of degree d that divides the characteristic polynomial
    exactly once. *)
Record parity_setting {S : Type} (G : gen_ops S) (P : par_ops S) (n : nat) (ok : S -> Prop)
  (abs : S -> 'rV['F_2]_n) (A : 'M['F_2]_n) (C : nat -> 'cV['F_2]_n) (pos : N -> res Z)
  (kernel : nat -> nat -> (nat -> nat -> bool) -> list (list bool))
  (nb : nat) (e : nat -> 'rV['F_2]_n) (Q : nat -> 'cV['F_2]_n) (d : nat) (f : {poly 'F_2}) : Prop := {
  ps_lin : linear_gen G ok abs A C;
  ps_par : parity_gen G P ok abs nb e Q;
  ps_pos : pos_spec (g_width G) pos;
  ps_kernel : kernel_spec kernel;
  ps_width : (0 < g_width G)%num;
  ps_unit : A \in unitmx;
  ps_irred : irreducible_poly f;
  ps_size : size f = d.+1;
  ps_once : (f %| char_poly A) /\ ~~ (f ^+ 2 %| char_poly A)
}.
