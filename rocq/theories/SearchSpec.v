(** What the lines printed by the search programs sfmtdc and dSFMTdc mean. *)
From Coq Require Import NArith ZArith List Bool.
From mathcomp Require Import all_ssreflect all_algebra.
From Verif Require Import Base GenModel PolyF2 LinSpec PeriodSpec PeriodProofs4 ParityModel ParitySpec ArrayModel SfmtModel SfmtLin SimdSpec
  DsfmtModel DsfmtLin DsfmtFixSpec DsfmtEquiSpec AnniThm SearchModel.
Set Implicit Arguments.
Unset Strict Implicit.
Unset Printing Implicit Defensive.
Local Open Scope ring_scope.
Delimit Scope Z_scope with coqZ.

(** k parameter sets in a row that setUpParam chose, from the object r and the
    parameter generator b on; with none of them, seeded with 1, the minimal
    polynomial of the lowest output bit has an irreducible factor of degree d that
    is larger than the others. *)
Section Failed.
Variables (S : Type) (G : gen_ops S) (B : Type) (setUp : S -> B -> res (S * B)) (d n : nat).
Inductive failed : nat -> S -> B -> Prop :=
| failed0 r b : failed 0 r b
| failedS k r b s b' : setUp r b = Ret (s, b') ->
    (forall mu f, is_minpoly (out_bits G (g_seed G 1 s) 0) mu -> ~ large_factor mu f d) ->
    failed k (run G (2 * n) (g_seed G 1 s)) b' -> failed k.+1 r b.
End Failed.

(** The generator of parameters after some number of calls. *)
Definition later (B : Type) (next : B -> N * B) (b b' : B) : Prop := exists k, b' = iter k (fun b => (next b).2) b.

(** veq are the dimensions of equidistribution of the component of f. *)
Definition comp_dims_of (n : nat) (A : 'M['F_2]_n) (C : nat -> 'cV['F_2]_n) (f : f2x) (L : nat) (veq : list Z) : Prop :=
  forall v, (1 <= v <= L)%N -> exists k : nat, List.nth (v - 1) veq 0%coqZ = Z.of_nat k /\ comp_dim A C f v k.
(** veq are dimensions of equidistribution of the sequence of ew-bit words of W,
    the greatest ones among the multiples of L, and less than L below the greatest. *)
Definition word_dims (ew L : nat) (W : nat -> N) (veq : list Z) : Prop :=
  forall v, (1 <= v <= ew)%N -> exists r : nat,
    List.nth (v - 1) veq 0%coqZ = Z.of_nat r /\ (forall phi, equid false ew L W phi v r) /\
    forall k, (forall phi, equid false ew L W phi v k) -> (k < r + L)%N /\ (Nat.modulo k L = 0%N -> (k <= r)%N).

(** A line of sfmtdc: legal parameters; a factor f of degree d of the
    characteristic polynomial; a parity vector such that every state certified by
    it has a period that is a multiple of 2^d - 1 (if that is prime); delta128,
    delta32, delta64 are the sums of the defects of the component of f. *)
Definition sf_line_ok (d : nat) (l : sf_line) : Prop :=
  let p := sl_par l in let size := Z.to_nat (Z.of_nat d / 128 + 1) in let c := SFC p size 0 4 false in
  let A := sfmt_A c in
  [/\ sfp_ok p, (1 <= f_pos1 p <= Z.of_nat size - 2)%coqZ & f_mexp p = Z.of_nat d] /\
  exists f : f2x, [/\ irreducible_poly f, seq.size f = d.+1, f %| char_poly A & ~~ (f ^+ 2 %| char_poly A)] /\
    [/\ (0 < f_parity p < 2 ^ 128)%num &
      forall s, sfmt_ok c s -> inner 128 (f_parity p) (sf_getParity s) = 1 ->
        sfmt_vec c s *m poly_mx A (char_poly A %/ f) != 0 /\
        (prime (2 ^ d - 1) -> forall k, sfmt_vec c (run sf_ops k s) = sfmt_vec c s -> (2 ^ d - 1 %| k)%N)] /\
    (exists veq, sl_d128 l = defect_sum d 128 veq /\ comp_dims_of A (sfmt_C c) f 128 veq) /\
    (exists s W veq32 veq64, [/\ sfmt_ok c s, sfmt_vec c s != 0, sfmt_vec c s *m poly_mx A f = 0 & sfmt_words s W] /\
      [/\ sl_d32 l = defect_sum d 32 veq32, word_dims 32 4 W veq32, sl_d64 l = defect_sum d 64 veq64 & word_dims 64 2 W veq64]).

(** veq are dimensions of equidistribution of the sequence of 52-bit words of W,
    the greatest ones among the even numbers. *)
Definition word_dims52 (W : nat -> N) (veq : list Z) : Prop :=
  forall v, (1 <= v <= 52)%N -> exists r : nat,
    List.nth (v - 1) veq 0%coqZ = Z.of_nat r /\ (forall phi, equid52 W phi v r) /\
    forall k, (forall phi, equid52 W phi v k) -> (k <= r + 1)%N /\ (Nat.modulo k 2 = 0%N -> (k <= r)%N).

(** A line of dSFMTdc: legal parameters; a factor f of degree d of the
    characteristic polynomial of the linear part; a fixed point and a parity vector
    such that every state of the object in use (words of two doubles), after
    periodCertification, has a period that is a multiple of 2^d - 1 (if that is
    prime); delta52 is the sum of the defects of the component of f.  [fixed] and
    [sl] are the option for the shift (the object keeps them, only setUpParam reads
    them). *)
Definition ds_line_ok (fixed : bool) (sl : Z) (d : nat) (l : ds_line) : Prop :=
  let p := dl_par l in let size := ds_words (Z.of_nat d) in
  let c := DSC p size 0 2 0 fixed sl in let A := dsfmt_A c in
  [/\ dsp_ok p, (1 <= d_pos1 p <= Z.of_nat size - 2)%coqZ, (if fixed then d_sl1 p = sl else (1 <= d_sl1 p <= 51)%coqZ) &
      d_mexp p = Z.of_nat d] /\
  exists f : f2x, [/\ irreducible_poly f, seq.size f = d.+1, f %| char_poly A & ~~ (f ^+ 2 %| char_poly A)] /\
    [/\ (d_fix p < 2 ^ 128)%num, (0 < d_parity p < 2 ^ 128)%num &
      prime (2 ^ d - 1) -> forall s, ds_live c s ->
        let s' := (ds_periodCertification false s).2 in
        [/\ ds_live c s', s'.1 = s.1 & forall k, exists2 t, ds_steps k s' = Ret t & ds_equals s' t -> (2 ^ d - 1 %| k)%N]] /\
    (exists s W veq, [/\ dsfmt_ok c s, dsfmt_vec c s != 0, dsfmt_vec c s *m poly_mx A f = 0 & dsfmt_words s W] /\
      dl_d52 l = defect_sum d 52 veq /\ word_dims52 W veq).
