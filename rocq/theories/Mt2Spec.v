(** What the lines printed by mt2 mean. *)
From Coq Require Import NArith ZArith List Bool.
From mathcomp Require Import all_ssreflect all_algebra.
From Verif Require Import Base LinSpec SampleSpec BestBitsSpec MtdcModel MtdcLin MtdcProofs Mt2Model.
Set Implicit Arguments.
Unset Strict Implicit.
Unset Printing Implicit Defensive.
Delimit Scope Z_scope with coqZ.

Section Spec.
Variables (d : nat) (id : Z).
(** The recursion that two 32-bit numbers stand for: the position is 2 ... size - 1,
    the low half of mata is the id. *)
Definition mt2_pos (u : N) : nat := N.to_nat (u mod (N.of_nat (mt32_size d) - 2) + 2).
Definition mt2_mata (u : N) : N := N.lor (N.land u 0xffff0000) (Z.to_N id).
Definition mt2_maximal (u1 u2 : N) : Prop := maximal_period (mtg_A (mt32_par d id (mt2_pos u1) (mt2_mata u2) 0 0)).

(** A line for the recursion of u1, u2.  delta is the total defect of the generator
    with the masks printed.  The masks are the first of those left when the bits 0
    to 14 of the two masks have been decided one after the other, each time
    keeping the candidates with the least defect in the bits so far. *)
Definition mt2_line_for (u1 u2 : N) (l : mt2_line) : Prop :=
  let p b c := mt32_par d id (mt2_pos u1) (mt2_mata u2) b c in
  [/\ ml_pos l = mt2_pos u1 /\ ml_mata l = mt2_mata u2, (ml_maskb l < 2 ^ 32)%num /\ (ml_maskc l < 2 ^ 32)%num,
      total_defect (mtg_A (p (ml_maskb l) (ml_maskc l))) (mtg_C (p (ml_maskb l) (ml_maskc l))) 32 (ml_delta l) &
      exists cost rest, (forall v b c, (1 <= v <= 15)%N -> (b < 2 ^ 32)%num -> (c < 2 ^ 32)%num ->
          total_defect (mtg_A (p b c)) (mtg_C (p b c)) v (cost v [:: b; c])) /\
        searched 32 2 [:: 7; 15]%coqZ cost 15 ([:: ml_maskb l; ml_maskc l] :: rest)].

Variables (B : Type) (next : B -> N * B).
(** The state after k numbers, and the k-th number. *)
Definition after (k : nat) (b : B) : B := iter k (fun b => (next b).2) b.
Definition number (k : nat) (b : B) : N := (next (after k b)).1.
(** The numbers are taken two at a time; every maximal recursion gets a line, and
    the lines with a delta of at most max_delta are printed until there are k. *)
Inductive mt2_listing (max_delta : Z) : B -> nat -> list mt2_line -> Prop :=
| listing_end b : mt2_listing max_delta b 0 nil
| listing_skip b k ls : ~ mt2_maximal (number 0 b) (number 1 b) -> mt2_listing max_delta (after 2 b) k.+1 ls ->
    mt2_listing max_delta b k.+1 ls
| listing_worse b k l ls : mt2_maximal (number 0 b) (number 1 b) -> mt2_line_for (number 0 b) (number 1 b) l ->
    (max_delta < ml_delta l)%coqZ -> mt2_listing max_delta (after 2 b) k.+1 ls -> mt2_listing max_delta b k.+1 ls
| listing_print b k l ls : mt2_maximal (number 0 b) (number 1 b) -> mt2_line_for (number 0 b) (number 1 b) l ->
    (ml_delta l <= max_delta)%coqZ -> mt2_listing max_delta (after 2 b) k ls -> mt2_listing max_delta b k.+1 (l :: ls).
(** m pairs of numbers in a row that are not maximal. *)
Definition mt2_barren (m : nat) (b : B) : Prop := forall j, (j < m)%N -> ~ mt2_maximal (number (2 * j) b) (number (2 * j + 1) b).
(** m maximal recursions were found, but less than k with a small delta. *)
Inductive mt2_poor (max_delta : Z) : B -> nat -> nat -> Prop :=
| poor_end b k : mt2_poor max_delta b 0 k.+1
| poor_skip b m k : ~ mt2_maximal (number 0 b) (number 1 b) -> mt2_poor max_delta (after 2 b) m k -> mt2_poor max_delta b m k
| poor_worse b m k l : mt2_maximal (number 0 b) (number 1 b) -> mt2_line_for (number 0 b) (number 1 b) l ->
    (max_delta < ml_delta l)%coqZ -> mt2_poor max_delta (after 2 b) m k -> mt2_poor max_delta b m.+1 k
| poor_print b m k l : mt2_maximal (number 0 b) (number 1 b) -> mt2_line_for (number 0 b) (number 1 b) l ->
    (ml_delta l <= max_delta)%coqZ -> mt2_poor max_delta (after 2 b) m k -> mt2_poor max_delta b m.+1 k.+1.
End Spec.
