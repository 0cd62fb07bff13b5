(** What the lines printed by rmt64dc mean. *)
From Coq Require Import NArith ZArith List Bool.
From mathcomp Require Import all_ssreflect all_algebra.
From Verif Require Import Base GenModel PolyF2 LinSpec EquiEx PeriodSpec PeriodProofs4 PeriodProofs7 ParitySpec TemperSpec RecTemperSpec
  ArrayModel RmtModel RmtLin Mt2Spec RmtDcModel.
Set Implicit Arguments.
Unset Strict Implicit.
Unset Printing Implicit Defensive.
Delimit Scope Z_scope with coqZ.

Section Spec.
Variable d : nat.
Notation size := (d / 64 + 1)%nat.
Notation n := (size * 64)%N.
(** The generator of two 64-bit numbers and two masks. *)
Definition rd_pos (u : N) : nat := N.to_nat (u mod N.of_nat size).
Definition rd_gen (u1 u2 b c : N) : rmtp := RMTP d size false (rd_pos u1) u2 0 b c.
Definition rd_A (u1 u2 : N) : 'M['F_2]_n := rmt_A (rd_gen u1 u2 0 0).
(** f is an irreducible factor of degree d of the minimal polynomial of the lowest
    bits of the numbers, starting with seed(1); the cofactor has none. *)
Definition rd_factor (u1 u2 b c : N) (f : f2x) : Prop :=
  let p := rd_gen u1 u2 b c in
  exists2 mu, is_minpoly (out_seq (rmt_A p) (rmt_D p) (rmt_vec p (rmt_seed 1 (p, RR 0 nil))) 0) mu & large_factor mu f d.
(** The sum over v of n / v - k(v) for the component of f. *)
Definition rd_defect (u1 u2 b c : N) (f : f2x) (delta : Z) : Prop :=
  let p := rd_gen u1 u2 b c in
  exists dims, (forall v, (1 <= v <= 64)%N -> comp_dim (rmt_A p) (rmt_C p) f v (dims v)) /\ delta = defects n 64 dims.
(** The bits of the window in mask i are replaced. *)
Definition rd_make (mask q : N) (i : nat) (m : N * N) : N * N :=
  let f x := N.lor (N.ldiff x mask) (N.land q mask) in
  if (i =? 0)%nat then (f m.1, m.2) else (m.1, f m.2).
(** A starting state whose word state[index] has an odd number of common bits
    with the parity vector has a period that is a multiple of 2^d - 1. *)
Definition rd_certificate (u1 u2 parity : N) : Prop :=
  let p := rd_gen u1 u2 0 0 in
  forall s, rmt_ok p s -> inner 64 parity (rmt_getParity s) = 1%R ->
    forall k, rmt_vec p (iter k (fun s => (rmt_generate s).2) s) = rmt_vec p s -> (2 ^ d - 1 %| k)%N.
(** A line for the recursion of u1, u2, found while the masks were b0, c0. *)
Definition rd_line_for (u1 u2 b0 c0 : N) (l : rd_line) : Prop :=
  [/\ rl_pos l = rd_pos u1 /\ rl_mata l = u2,
      [/\ (rl_parity l < 2 ^ 64)%num, (rl_maskb l < 2 ^ 64)%num & (rl_maskc l < 2 ^ 64)%num] &
      exists f, [/\ rd_factor u1 u2 b0 c0 f, (f %| char_poly (rd_A u1 u2))%R &
        rd_A u1 u2 \in unitmx ->
        [/\ (n <= d + 32)%N, (0 < rl_parity l)%num, rd_certificate u1 u2 (rl_parity l) &
          inner 64 (rl_parity l) (rl_parity l) = 1%R ->
          rd_defect u1 u2 (rl_maskb l) (rl_maskc l) f (rl_delta l) /\
          exists cost m1 m2, [/\ forall b c, (b < 2 ^ 64)%num -> (c < 2 ^ 64)%num -> rd_defect u1 u2 b c f (cost (b, c)),
            tempered rd_make cost 64 false (step_list 63 6 2) (b0, c0) m1, tempered rd_make cost 64 false (step_list 63 6 2) m1 m2,
            rl_maskb l = (m2.1 / 2 ^ 17 * 2 ^ 17)%num & rl_maskc l = (m2.2 / 2 ^ 37 * 2 ^ 37)%num]]]].

Variables (B : Type) (next : B -> N * B).
(** The numbers are taken two at a time; the recursions without the factor are
    left out, each of the others gets a line. *)
Inductive rd_listing : B -> N -> N -> nat -> list rd_line -> Prop :=
| rd_end b mb mc : rd_listing b mb mc 0 nil
| rd_skip b mb mc k ls : (forall f, ~ rd_factor (number next 0 b) (number next 1 b) mb mc f) ->
    rd_listing (after next 2 b) mb mc k.+1 ls -> rd_listing b mb mc k.+1 ls
| rd_print b mb mc k l ls : rd_line_for (number next 0 b) (number next 1 b) mb mc l ->
    rd_listing (after next 2 b) (rl_maskb l) (rl_maskc l) k ls -> rd_listing b mb mc k.+1 (l :: ls).
End Spec.
