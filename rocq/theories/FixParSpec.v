(** Terms of the statements about the programs calc_fixpoint and calc_parity of
    dSFMTdc. *)
From Coq Require Import NArith ZArith.
From mathcomp Require Import all_ssreflect all_algebra.
From Verif Require Import Base GenModel PolyF2 LinSpec PeriodSpec ArrayModel DsfmtModel DsfmtLin AnniThm.
Set Implicit Arguments.
Unset Strict Implicit.
Unset Printing Implicit Defensive.
Local Open Scope ring_scope.

(** f is the irreducible factor of degree d of the minimal polynomial of the lowest
    output bit of s (and larger than all the others). *)
Definition large_of (s : dsfmt) (d : nat) (f : f2x) : Prop :=
  exists2 mu, is_minpoly (out_bits ds_ops s 0) mu & large_factor mu f d.
(** In the component of f, the state F is fixed by x |-> x A + C: the difference of F
    and F A + C is killed by the other factors of the characteristic polynomial. *)
Definition comp_fixed (n : nat) (A : 'M['F_2]_n) (C : 'rV['F_2]_n) (f : f2x) (F : 'rV['F_2]_n) : Prop :=
  (F *m A + C - F) *m poly_mx A (char_poly A %/ f) = 0.
(** v certifies for the component of f: a state whose lung has an odd number of
    common bits with v is not killed by the other factors. *)
Definition certifies_lung (c : dsc) (f : f2x) (v : N) : Prop :=
  forall s, dsfmt_ok c s -> ParitySpec.inner 128 v (ds_lung s) = 1 ->
    dsfmt_vec c s *m poly_mx (dsfmt_A c) (char_poly (dsfmt_A c) %/ f) != 0.
(** The parameters of the recursion of q with another fixed point and parity vector. *)
Definition base (q : dsp) (fx pr : N) : dsp := DSP (d_mexp q) (d_pos1 q) (d_sl1 q) (d_msk1 q) (d_msk2 q) fx pr.
