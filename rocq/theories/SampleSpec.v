(** What the search programs of samples/XORSHIFT should print. *)
From Coq Require Import NArith ZArith List Sorted.
From mathcomp Require Import all_ssreflect all_algebra.
From Verif Require Import Base LinSpec.
Set Implicit Arguments.
Unset Strict Implicit.
Unset Printing Implicit Defensive.
Import GRing.Theory.
Local Open Scope ring_scope.
Delimit Scope Z_scope with coqZ.

(** All non-zero states have the maximal period. *)
Definition maximal_period (n : nat) (A : 'M['F_2]_n) : Prop :=
  forall x : 'rV['F_2]_n, x != 0 -> full_period A x.
(** delta is the sum of floor(n/v) - k(v), v = 1..L, k(v) being the dimension
    of equidistribution with v-bit accuracy from any non-zero state. *)
Definition total_defect (n : nat) (A : 'M['F_2]_n) (C : nat -> 'cV['F_2]_n) (L : nat) (delta : Z) : Prop :=
  exists k : nat -> nat,
    (forall v x, (1 <= v <= L)%N -> x != 0 -> equidist_dim A C x v (k v)) /\
    delta = List.fold_right Z.add 0%coqZ
      (List.map (fun v => Z.of_nat (n %/ v)%N - Z.of_nat (k v))%coqZ (List.seq 1 L)).
(** The lines printed are, in decreasing order of the number r < 2^m from which
    the parameters are made, the parameters of maximal period and their
    defects. *)
Definition lists_maximal (n : nat) (P : Type) (setup : N -> P) (A : P -> 'M['F_2]_n)
  (C : P -> nat -> 'cV['F_2]_n) (L : nat) (m : N) (out : list (Z * P)) : Prop :=
  exists rs : list N,
    [/\ StronglySorted (fun a b => (b < a)%num) rs,
        forall r, List.In r rs <-> (r < 2 ^ m)%num /\ maximal_period (A (setup r)),
        List.map snd out = List.map setup rs &
        forall delta p, List.In (delta, p) out -> total_defect (A p) (C p) L delta].
