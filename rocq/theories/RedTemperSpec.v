(** Specification notions for AlgorithmReducibleRecursionAndTempering. *)
From Coq Require Import NArith ZArith List.
From mathcomp Require Import all_ssreflect all_algebra.
From Verif Require Import Base LinSpec PolyF2 PeriodSpec PeriodProofs4.
Set Implicit Arguments.
Unset Strict Implicit.
Unset Printing Implicit Defensive.
Import GRing.Theory.
Local Open Scope ring_scope.
Delimit Scope Z_scope with coqZ.

Section Spec.
Variables (S : Type) (n : nat) (Th : Type) (ok : Th -> S -> Prop) (abs : Th -> S -> 'rV['F_2]_n) (A : Th -> 'M['F_2]_n).
(** The change from s to s' leaves the recursion and the state vector alone. *)
Definition same_state (s s' : S) : Prop :=
  forall th, ok th s -> exists th', [/\ ok th' s', A th' = A th & abs th' s' = abs th s].
(** A tempering algorithm changes the output only. *)
Definition keeps (st : S -> res (Z * S)) : Prop := forall s d s', st s = Ret (d, s') -> same_state s s'.
End Spec.
(** The part of the state x that belongs to the factor f is not zero. *)
Definition alive (n : nat) (A : 'M['F_2]_n) (f : f2x) (x : 'rV['F_2]_n) : Prop := x *m poly_mx A (char_poly A %/ f) != 0.
(** A non-zero state gives a non-zero bit sometime. *)
Definition out_observable (n : nat) (A : 'M['F_2]_n) (D : nat -> 'cV['F_2]_n) (w : N) : Prop :=
  forall x, (forall p, (N.of_nat p < w)%num -> forall i, out_seq A D x p i = 0) -> x = 0.
(** The difference between the bounds n/v and d/v, summed up. *)
Definition excess (n d W : nat) : Z :=
  List.fold_right Z.add 0%coqZ (List.map (fun v => Z.of_nat (n %/ v)%N - Z.of_nat (d %/ v)%N)%coqZ (List.seq 1 W)).
