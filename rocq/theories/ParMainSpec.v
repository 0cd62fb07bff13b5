(** Terms of the statements about the program calc_parity of sfmtdc. *)
From Coq Require Import NArith ZArith.
From mathcomp Require Import all_ssreflect all_algebra.
From Verif Require Import Base GenModel PolyF2 LinSpec PeriodSpec PeriodProofs4 ArrayModel SfmtModel SfmtLin AnniThm ParMainModel.
Set Implicit Arguments.
Unset Strict Implicit.
Unset Printing Implicit Defensive.
Local Open Scope ring_scope.

(** v certifies for the component of f: a state with an odd number of common bits of v
    and its newest word is not killed by the other factors. *)
Definition certifies_word (c : sfc) (f : f2x) (v : N) : Prop :=
  forall s, sfmt_ok c s -> ParitySpec.inner 128 v (List.nth (rr_idx s.1.2) (rr_arr s.1.2) 0%num) = 1 ->
    sfmt_vec c s *m poly_mx (sfmt_A c) (char_poly (sfmt_A c) %/ f) != 0.
(** Such a state returns only after a multiple of 2^d - 1 steps. *)
Definition long_period (c : sfc) (d : nat) (v : N) : Prop :=
  forall s k, sfmt_ok c s -> ParitySpec.inner 128 v (List.nth (rr_idx s.1.2) (rr_arr s.1.2) 0%num) = 1 ->
    sfmt_vec c (run sf_ops k s) = sfmt_vec c s -> (2 ^ d - 1 %| k)%N.
(** f divides the minimal polynomial of the lowest output bit of the object seeded
    with i. *)
Definition seed_has (q : sfp) (f : f2x) (i : nat) : Prop :=
  exists2 mu, is_minpoly (out_bits sf_ops (sf_seed (N.of_nat i) (sf_new q)) 0) mu & f %| mu.
(** The last line of the check is right: success with all count seeds, or the number of
    the first seed whose minimal polynomial f does not divide. *)
Definition check_right (q : sfp) (f : f2x) (count : nat) (r : tp_out) : Prop :=
  match r with
  | TpOk n => n = count /\ forall i, (i < count)%N -> seed_has q f i.+1
  | TpFailed i => [/\ (i < count)%N, ~ seed_has q f i.+1 & forall j, (j < i)%N -> seed_has q f j.+1]
  | TpError => False
  end.
(** The parameters q with the parity vector v. *)
Definition with_parity (q : sfp) (v : N) : sfp :=
  SFP (f_mexp q) (f_pos1 q) (f_sl1 q) (f_sl2 q) (f_sr1 q) (f_sr2 q) (f_msk1 q) (f_msk2 q) (f_msk3 q) (f_msk4 q) v.
