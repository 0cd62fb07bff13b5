(** What the programs calc_period and calc_equidist for RMT print. *)
From Coq Require Import NArith ZArith List Bool.
From mathcomp Require Import all_ssreflect all_algebra.
From Verif Require Import Base GenModel PolyF2 LinSpec PeriodSpec ArrayModel RmtModel.
Set Implicit Arguments.
Unset Strict Implicit.
Unset Printing Implicit Defensive.
Delimit Scope Z_scope with coqZ.

(** The parameters are in range. *)
Definition rc_legal (p : rmtp) : Prop :=
  [/\ (N.of_nat (r_mexp p) < 2 ^ 31)%num, r_size p = (r_mexp p / 64 + 1)%nat, (r_pos p < r_size p)%N, r_rev p = false &
    [/\ (r_mata p < 2 ^ 64)%num, (r_par p < 2 ^ 64)%num, (r_maskb p < 2 ^ 64)%num & (r_maskc p < 2 ^ 64)%num]].
(** The text after the parameters does not begin with a digit (a comma, the end
    of the line or of the text). *)
Definition rc_tail (t : list N) : Prop :=
  match t with nil => True | cons c _ => (c < 48)%num end.
(** Lowest bit of the i-th number after seed(1234). *)
Definition rc_low (p : rmtp) (i : nat) : bool :=
  N.testbit (rmt_generate (iter i (fun s => (rmt_generate s).2) (rmt_seed 1234 (p, RR 0 nil)))).1 0.
(** The minimal polynomial of these bits is f times a product of irreducible
    polynomials of smaller degree than that of f, which is irreducible of degree mexp. *)
Definition rc_factor (p : rmtp) (f : f2x) : Prop :=
  exists2 mu, is_minpoly (fun i => (rc_low p i)%:R%R) mu & large_factor mu f (r_mexp p).
(** From some point on the bits repeat after k steps. *)
Definition rc_repeats (p : rmtp) (k : nat) : Prop :=
  exists i0, forall i, (i0 <= i)%N -> rc_low p (i + k) = rc_low p i.
(** The masks without the bits that have no influence. *)
Definition rc_clean (p : rmtp) : rmtp :=
  RMTP (r_mexp p) (r_size p) (r_rev p) (r_pos p) (r_mata p) (r_par p)
    (r_maskb p / 2 ^ 17 * 2 ^ 17) (r_maskc p / 2 ^ 37 * 2 ^ 37).
