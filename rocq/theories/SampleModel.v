(** Model of the search programs samples/XORSHIFT/xorshift-3.cpp and
    xorshift-4.cpp.  The text written to cout is represented by the list of
    the results (delta, parameters) in the order of printing; header lines and
    number formatting are not modelled. *)
From Coq Require Import NArith ZArith List Bool.
From mathcomp Require Import all_ssreflect all_algebra.
From Verif Require Import Base GenModel PolyF2 PeriodModel EquiModel SequentialModel XorshiftModel PrimeTables.
Set Implicit Arguments.
Unset Strict Implicit.
Unset Printing Implicit Defensive.
Delimit Scope Z_scope with coqZ.
Import ListNotations.

Section Program.
(** The type of the parameters, generate() as a function of them and
    setUpParam as a function of the 32-bit number. *)
Variables (P : Type) (gen : P -> xs -> N * xs) (setup : N -> P).
(** NTL's MinPolySeq and calc_1pos. *)
Variable M : seq 'F_2 -> nat -> f2x.
Variable pos : N -> res Z.

(** The class XorShift with its parameters: xorshift-3.cpp:19-100,
    xorshift-4.cpp:20-159.  The operations do not change the parameters; add
    leaves those of the left operand. *)
Definition xp_ops : gen_ops (P * xs) :=
  {| g_width := 32;
     g_generate := fun s => let '(r, t) := gen s.1 s.2 in (r, (s.1, t));
     g_generate_len := fun v s => let '(r, t) := xs_generate_len (gen s.1) v s.2 in (r, (s.1, t));
     g_add := fun s t => (s.1, xs_add s.2 t.2);
     g_setZero := fun s => (s.1, xs_setZero s.2);
     g_isZero := fun s => xs_isZero s.2;
     g_seed := fun v s => (s.1, xs_seed v s.2);
     g_bitSize := fun _ => 128%nat |}.
(** xorshift-3.cpp:74-81, xorshift-4.cpp:126-138 with a Sequential<uint32_t>
    as parameter generator. *)
Definition xp_setUpParam (s : P * xs) (b : sequential) : res ((P * xs) * sequential) :=
  do '(r, b') <- sq_getUint32 32 b;
  Ret ((setup r, s.2), b').

(** xorshift-3.cpp:103-117, xorshift-4.cpp:162-178  search.  [p0] are the
    parameters of a new object, [veq0] the uninitialised array.  The result is
    the printed line, if any, and the parameter generator. *)
Definition xp_search (fuel : nat) (tries : Z) (p0 : P) (veq0 : list Z) (ap : primitivity) (sq : sequential)
  : res (list (Z * P) * sequential) :=
  let xs0 := (p0, xs_seed 1 (XS 0 0 0 0)) in
  let rs := {| rs_rand := xs0; rs_base := sq; rs_poly := 0%R; rs_count := 0%coqZ |} in
  do '(found, rs') <- rs_start xp_ops M xp_setUpParam 1 ap tries rs;
  if found : bool then
    do '(_, _, delta) <- get_all_equidist xp_ops pos fuel (ae_new xp_ops (rs_rand rs') 32 0) veq0;
    Ret ([(delta, (rs_rand rs').1)], rs_base rs')
  else Ret ([], rs_base rs').
(** xorshift-3.cpp:119-131, xorshift-4.cpp:180-192: the loop of main is left by
    the underflow_error of the parameter generator. *)
Fixpoint xp_main_loop (loops fuel : nat) (tries : Z) (p0 : P) (veq0 : list Z) (ap : primitivity) (sq : sequential)
  : res (list (Z * P)) :=
  match loops with
  | O => NoFuel
  | S c =>
      match xp_search fuel tries p0 veq0 ap sq with
      | Ret (out, sq') => do l <- xp_main_loop c fuel tries p0 veq0 ap sq'; Ret (out ++ l)
      | Throw => Ret []
      | Undef => Undef | Exit => Exit | NoFuel => NoFuel
      end
  end.
Definition xp_main (loops fuel : nat) (seed : N) (tries : Z) (p0 : P) (veq0 : list Z) : res (list (Z * P)) :=
  do ap <- AlgorithmPrimitivity (List.map chars prime_factors2_128_1);
  xp_main_loop loops fuel tries p0 veq0 ap (sq_make_seed 0 seed).
End Program.

(** xorshift-3.cpp:119-121 (and 103, 107): Sequential(0, 0x7fff), 0x7fff tries. *)
Definition xs3_main (M : seq 'F_2 -> nat -> f2x) (pos : N -> res Z) (loops fuel : nat) (veq0 : list Z) :=
  xp_main (fun p : N * N * N => xs3_generate p.1.1 p.1.2 p.2) xs3_setUpParam M pos loops fuel
    32767%num 32767%coqZ (0, 0, 0)%num veq0.
(** xorshift-4.cpp:180-182 (and 162-168); [pat0] is the uninitialised field. *)
Definition xs4_main (M : seq 'F_2 -> nat -> f2x) (pos : N -> res Z) (loops fuel : nat) (pat0 : N) (veq0 : list Z) :=
  xp_main (fun p : N * N * N * N => xs4_generate p.1.1.1 p.1.1.2 p.1.2 p.2) xs4_setUpParam M pos loops fuel
    262143%num 262143%coqZ (pat0, 0, 0, 0)%num veq0.

(** xorshift-1.cpp:14-34 and xorshift-2.cpp:13-61: the parameters are fixed. *)
Definition xs1_generate : xs -> N * xs := xs3_generate 5 14 1.
(** xorshift-1.cpp:36-47  main: the degree that is printed, and whether
    "period is 2^128 -1." is printed. *)
Definition xs1_main (M : seq 'F_2 -> nat -> f2x) : res (Z * bool) :=
  let xs1 := xs_seed 1 (XS 0 0 0 0) in
  do '(poly, _) <- minpoly (xs_ops xs1_generate) M xs1 0%coqZ 0%coqZ;
  do b <- isPrime_str poly 128 (List.map chars prime_factors2_128_1);
  Ret (deg poly, b).
(** xorshift-2.cpp:63-76  main: the printed pairs k(v), d(v) for v = 1..32, and
    delta.  [veq0] is the uninitialised array. *)
Definition xs2_main (pos : N -> res Z) (fuel : nat) (veq0 : list Z) : res (list (Z * Z) * Z) :=
  let xs1 := xs_seed 1 (XS 0 0 0 0) in
  do '(_, veq, delta) <- get_all_equidist (xs_ops xs1_generate) pos fuel (ae_new (xs_ops xs1_generate) xs1 32 0) veq0;
  Ret (List.map (fun i => let k := List.nth i veq 0%coqZ in (k, 128 / (Z.of_nat i + 1) - k)%coqZ) (List.seq 0 32), delta).
