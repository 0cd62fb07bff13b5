(** Specification notions for AlgorithmRecursionAndTempering. *)
From Coq Require Import NArith ZArith List.
From mathcomp Require Import all_ssreflect all_algebra.
From Verif Require Import Base LinSpec.
Set Implicit Arguments.
Unset Strict Implicit.
Unset Printing Implicit Defensive.
Delimit Scope Z_scope with coqZ.

Section Spec.
Variables (S : Type) (n : nat) (Th : Type) (ok : Th -> S -> Prop) (A : Th -> 'M['F_2]_n).
(** The change from s to s' leaves the recursion alone. *)
Definition same_recursion (s s' : S) : Prop :=
  forall th, ok th s -> exists th', ok th' s' /\ A th' = A th.
(** A tempering algorithm changes the output only. *)
Definition tempers (st : S -> res (Z * S)) : Prop :=
  forall s d s', st s = Ret (d, s') -> same_recursion s s'.
End Spec.
(** The sum over v = 1 ... L of floor(n/v) - k(v). *)
Definition defects (n L : nat) (k : nat -> nat) : Z :=
  List.fold_right Z.add 0%coqZ (List.map (fun v => Z.of_nat (n %/ v)%N - Z.of_nat (k v))%coqZ (List.seq 1 L)).
