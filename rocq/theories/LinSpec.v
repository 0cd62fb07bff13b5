(** Specification notions for GF(2)-linear generators: the contract that the
    toolbox expects of a generator class, and the dimension of
    equidistribution. *)
From Coq Require Import NArith ZArith.
From mathcomp Require Import all_ssreflect all_algebra.
From Verif Require Import Base GenModel.
Set Implicit Arguments.
Unset Strict Implicit.
Unset Printing Implicit Defensive.
Import GRing.Theory.
Local Open Scope ring_scope.
Delimit Scope Z_scope with coqZ.

(** The j-th most significant bit of the w-bit word x, as an element of GF(2). *)
Definition msb (w : N) (x : N) (j : nat) : 'F_2 :=
  (N.testbit x (w - 1 - N.of_nat j)%num)%:R.

Section Lin.
Variable n : nat.
(** Transition matrix (states are row vectors) and, for every position j from
    the top, the column that computes the j-th output bit of a state. *)
Variable A : 'M['F_2]_n.
Variable C : nat -> 'cV['F_2]_n.

(** State after i steps. *)
Definition st (i : nat) (x : 'rV['F_2]_n) : 'rV['F_2]_n := iter i (mulmx^~ A) x.
(** j-th output bit, from the top, of the state x. *)
Definition obit (x : 'rV['F_2]_n) (j : nat) : 'F_2 := (x *m C j) 0 0.

(** The linear span of the orbit of x0. *)
Definition in_orbit_span (x0 x : 'rV['F_2]_n) : Prop :=
  exists (K : nat) (a : nat -> 'F_2), x = \sum_(i < K) a i *: st i x0.

(** The top v bits of k consecutive outputs take all 2^(kv) values when the
    state ranges over the span of the orbit of x0. *)
Definition equidistributed (x0 : 'rV['F_2]_n) (v k : nat) : Prop :=
  forall y : nat -> nat -> 'F_2,
  exists x, in_orbit_span x0 x /\
    forall i j, (i < k)%N -> (j < v)%N -> obit (st i x) j = y i j.
(** k is the dimension of equidistribution with v-bit accuracy. *)
Definition equidist_dim (x0 : 'rV['F_2]_n) (v k : nat) : Prop :=
  equidistributed x0 v k /\ forall k', equidistributed x0 v k' -> (k' <= k)%N.

(** The first n states of the orbit, as the rows of a matrix; its rank is the
    dimension of the span of the orbit. *)
Definition krylov (x0 : 'rV['F_2]_n) : 'M['F_2]_n := \matrix_(i < n) st i x0.
End Lin.

(** The contract: [abs] maps the states satisfying [ok] to vectors such that
    all operations of the interface become linear. *)
Record linear_gen {S : Type} (G : gen_ops S) (n : nat) (ok : S -> Prop)
  (abs : S -> 'rV['F_2]_n) (A : 'M['F_2]_n) (C : nat -> 'cV['F_2]_n) : Prop := {
  lin_generate_ok : forall s, ok s -> ok (g_generate G s).2;
  lin_generate_abs : forall s, ok s -> abs (g_generate G s).2 = abs s *m A;
  lin_len_ok : forall v s, ok s -> (1 <= v <= Z.of_N (g_width G))%coqZ -> ok (g_generate_len G v s).2;
  lin_len_abs : forall v s, ok s -> (1 <= v <= Z.of_N (g_width G))%coqZ ->
    abs (g_generate_len G v s).2 = abs s *m A;
  lin_len_lt : forall v s, ok s -> (1 <= v <= Z.of_N (g_width G))%coqZ ->
    ((g_generate_len G v s).1 < 2 ^ g_width G)%num;
  lin_len_out : forall v s j, ok s -> (1 <= v <= Z.of_N (g_width G))%coqZ ->
    (Z.of_nat j < Z.of_N (g_width G))%coqZ ->
    msb (g_width G) (g_generate_len G v s).1 j = if (Z.of_nat j <? v)%coqZ then obit C (abs s) j else 0;
  lin_add_ok : forall s t, ok s -> ok t -> ok (g_add G s t);
  lin_add_abs : forall s t, ok s -> ok t -> abs (g_add G s t) = abs s + abs t;
  lin_zero_ok : forall s, ok s -> ok (g_setZero G s);
  lin_zero_abs : forall s, ok s -> abs (g_setZero G s) = 0
}.

(** calc_1pos as the algorithm needs it: the position, from the top, of the
    lowest one bit, and -1 for zero. *)
Definition pos_spec (w : N) (pos : N -> res Z) : Prop :=
  pos 0%num = Ret (-1)%coqZ /\
  forall x, (0 < x < 2 ^ w)%num ->
    exists p : nat, pos x = Ret (Z.of_nat p) /\ (N.of_nat p < w)%num /\
      msb w x p = 1 /\ forall j, (p < j)%N -> (N.of_nat j < w)%num -> msb w x j = 0.

(** The sequence of states has the maximal period 2^n - 1. *)
Definition full_period (n : nat) (A : 'M['F_2]_n) (x0 : 'rV['F_2]_n) : Prop :=
  [/\ x0 != 0, st A (2 ^ n - 1) x0 = x0 &
      forall i, (0 < i < 2 ^ n - 1)%N -> st A i x0 != x0].

(** The k-tuple of v-bit outputs that starts with the state x. *)
Definition out_tuple (n : nat) (A : 'M['F_2]_n) (C : nat -> 'cV['F_2]_n) (k v : nat)
  (x : 'rV['F_2]_n) : 'M['F_2]_(k, v) := \matrix_(a, b) obit C (st A a x) b.

(** k-dimensionally equidistributed with v-bit accuracy in the classical
    sense: over one period, starting from x0, every non-zero tuple occurs
    2^(n-kv) times and the zero tuple once less. *)
Definition classical_equidist (n : nat) (A : 'M['F_2]_n) (C : nat -> 'cV['F_2]_n)
  (x0 : 'rV['F_2]_n) (k v : nat) : Prop :=
  forall y : 'M['F_2]_(k, v),
    #|[set i : 'I_(2 ^ n - 1) | out_tuple A C k v (st A i x0) == y]|
    = (2 ^ (n - k * v) - (y == 0%R))%N.

(** The sum over v = 1..L of floor(sbs / v) - veq[v-1]. *)
Definition defect_sum (sbs L : nat) (veq : list Z) : Z :=
  List.fold_right Z.add 0%coqZ
    (List.map (fun i => Z.of_nat (sbs %/ i.+1)%N - List.nth i veq 0)%coqZ (List.seq 0 L)).
