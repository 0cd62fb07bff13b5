(** What calc_equidist of sfmtdc and of dSFMTdc should print. *)
From Coq Require Import NArith ZArith List Bool.
From mathcomp Require Import all_ssreflect all_algebra.
From Verif Require Import Base GenModel PolyF2 LinSpec PeriodSpec PeriodProofs4 ArrayModel SfmtModel SfmtLin SimdSpec
  DsfmtModel DsfmtLin DsfmtEquiSpec AnniThm SearchSpec.
Import ListNotations.
Set Implicit Arguments.
Unset Strict Implicit.
Unset Printing Implicit Defensive.
Local Open Scope ring_scope.
Delimit Scope Z_scope with coqZ.

(** veq are dimensions of equidistribution of the sequence of ew-bit words of W, from
    the top bits or from the bottom bits, the greatest ones among the multiples of L,
    and less than L below the greatest. *)
Definition word_dims_from (lsb : bool) (ew L : nat) (W : nat -> N) (veq : list Z) : Prop :=
  forall v, (1 <= v <= ew)%N -> exists r : nat,
    List.nth (v - 1) veq 0%coqZ = Z.of_nat r /\ (forall phi, equid lsb ew L W phi v r) /\
    forall k, (forall phi, equid lsb ew L W phi v k) -> (k < r + L)%N /\ (Nat.modulo k L = 0%N -> (k <= r)%N).
(** The states of the component of f that are not zero, and their words. *)
Definition sf_comp_words (c : sfc) (f : f2x) (W : nat -> N) : Prop :=
  exists s, [/\ sfmt_ok c s, sfmt_vec c s != 0, sfmt_vec c s *m poly_mx (sfmt_A c) f = 0 & sfmt_words s W].
Definition ds_comp_words (c : dsc) (f : f2x) (W : nat -> N) : Prop :=
  exists s, [/\ dsfmt_ok c s, dsfmt_vec c s != 0, dsfmt_vec c s *m poly_mx (dsfmt_A c) f = 0 & dsfmt_words s W].
(** A table with the dimensions veq: k(v) and the defect d(v) = floor (d / v) - k(v). *)
Definition table_of (d n : nat) (veq : list Z) (t : list (Z * Z)) : Prop :=
  length t = n /\ forall v, (1 <= v <= n)%N -> forall k, List.nth (v - 1) veq 0%coqZ = Z.of_nat k ->
    List.nth (v - 1) t (0, 0)%coqZ = (Z.of_nat k, Z.of_nat (d %/ v) - Z.of_nat k)%coqZ.
(** f is the irreducible factor of degree d of the minimal polynomial of the lowest
    output bit of s (and larger than all the others). *)
Definition low_factor (S : Type) (G : gen_ops S) (s : S) (d : nat) (f : f2x) : Prop :=
  exists2 mu, is_minpoly (out_bits G s 0) mu & large_factor mu f d.
