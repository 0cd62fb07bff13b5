(** Terms of the statements about the programs test_period and calc_period. *)
From Coq Require Import NArith ZArith List Bool.
From mathcomp Require Import all_ssreflect all_algebra.
From Verif Require Import Base GenModel PolyF2 LinSpec PeriodSpec PerTestModel.
Import ListNotations.
Set Implicit Arguments.
Unset Strict Implicit.
Unset Printing Implicit Defensive.
Import GRing.Theory.
Local Open Scope ring_scope.
Delimit Scope Z_scope with coqZ.

(** Bit b of a sequence of words. *)
Definition bit_seq (W : nat -> N) (b : nat) (k : nat) : 'F_2 := (N.testbit (W k) (N.of_nat b))%:R.
(** The minimal polynomial of bit b of the words has an irreducible factor of
    degree d. *)
Definition large_bit (d : nat) (W : nat -> N) (b : nat) : Prop :=
  exists mu f, [/\ is_minpoly (bit_seq W b) mu, irreducible_poly f, size f = d.+1 & f %| mu].
(** The least degree, the greatest degree and the number of terms of the first
    polynomial of the greatest degree. *)
Definition mm_spec (bits : list nat) (mu : nat -> f2x) (m : mm) : Prop :=
  let deg p := Z.of_nat (size (mu p)).-1 in
  (exists2 p, List.In p bits & deg p = mm_min m) /\
  (forall p, List.In p bits -> mm_min m <= deg p <= mm_max m)%coqZ /\
  exists l p r, [/\ bits = l ++ p :: r, deg p = mm_max m, (forall q, List.In q l -> deg q < mm_max m)%coqZ &
    mm_weight m = Z.of_nat (count (fun a => a != 0) (mu p))].
(** The lines of the table: they end with the first mode for which [good] fails. *)
Fixpoint table_spec (good : Z * Z -> Prop) (row : pt_row -> Prop) (modes : list (Z * Z)) (rows : list pt_row) (code : Z) : Prop :=
  match modes with
  | [] => rows = [] /\ code = 0%coqZ
  | (i, j) :: r =>
      (~ good (i, j) /\ rows = [] /\ code = (-1)%coqZ) \/
      (good (i, j) /\ exists x rows', [/\ rows = x :: rows', row_start x = i /\ row_weight x = j, row x & table_spec good row r rows' code])
  end.
(** A line: the greatest degree is d, the least is d if all listed bits have the
    factor and 0 otherwise. *)
Definition row_spec (d : nat) (all : Prop) (x : pt_row) : Prop :=
  row_max x = Z.of_nat d /\ (all -> row_min x = Z.of_nat d) /\ (~ all -> row_min x = 0%coqZ).
