(** Model of the programs calc_equidist of sfmtdc and of dSFMTdc:
    samples/sfmtdc/calc_equidist.cpp and samples/dSFMTdc/calc_equidist.cpp.  The
    argument is the text behind the options; the loop of getopt_long is left out, its
    results are arguments here.  The tables printed with -v are always part of the
    result. *)
From Coq Require Import NArith ZArith List Bool.
From mathcomp Require Import all_ssreflect all_algebra.
From Verif Require Import Base UtilModel GenModel PolyF2 PeriodModel ParityModel EquiModel ArrayModel W128Model SfmtModel SimdModel
  DsfmtModel DsfmtEquiModel AnniModel PerTestModel.
Import ListNotations.
Set Implicit Arguments.
Unset Strict Implicit.
Unset Printing Implicit Defensive.
Local Open Scope ring_scope.
Delimit Scope Z_scope with coqZ.

(** wseed.u64[0] = opt.seed (the option -s or clock()); u64[1] is not initialised,
    here it is taken from [junk] *)
Definition eq_seed (seed junk : N) : N := join (seed mod 2 ^ 64) (junk mod 2 ^ 64).
(** calc_equidist.cpp:79, 86, 93 (sfmtdc) and 73 (dSFMTdc): a line of a table is
    k(j + 1) = veq[j], d(j + 1) = mexp / (j + 1) - veq[j]. *)
Definition eq_table (mexp : Z) (n : nat) (veq : list Z) : list (Z * Z) :=
  map (fun j => let k := List.nth j veq 0%coqZ in (k, Z.quot mexp (Z.of_nat j + 1) - k)%coqZ) (List.seq 0 n).
(** What is printed: the line of the parameters, the numbers behind it, the tables *)
Record eq_out := EQO { eq_text : list N; eq_deltas : list Z; eq_tables : list (list (Z * Z)) }.

Section Programs.
(** NTL::MinPolySeq, calc_1pos<w128_t>; the arrays are not initialised *)
Variables (M : seq 'F_2 -> nat -> f2x) (pos : N -> res Z) (fuel : nat) (seed junk : N).
(** sfmtdc/calc_equidist.cpp:27-97, 174-201 (the fields are those of test_period);
    [reverse] is the option -r.  None: main returns -1 without printing a line.  A
    negative mexp is not followed any further. *)
Definition sf_equi_main (v128 v32 v64 : list Z) (reverse : bool) (para : list N) : res (option eq_out) :=
  do p <- sf_parse para;
  if (f_mexp p <? 0)%coqZ then Undef
  else
    let sf := sf_seed (eq_seed seed junk) (sf_new p) in
    do '(b, sf) <- anni_s sf_ops sf_par_ops M fuel sf;
    if ~~ b then Ret None
    else
      let sf := if reverse then sf_setrev true sf else sf in
      do '(_, veq, delta128) <- get_all_equidist sf_ops pos fuel (ae_new sf_ops sf 128 (f_mexp p)) v128;
      let sf := sf_setrev false sf in
      do '(veq32, delta32) <- calc_SIMD sf_ops pos (SI 128 32 4) reverse sf_setStart sf_setWeight fuel (f_mexp p) sf 32 v32;
      do '(veq64, delta64) <- calc_SIMD sf_ops pos (SI 128 64 2) reverse sf_setStart sf_setWeight fuel (f_mexp p) sf 64 v64;
      Ret (Some (EQO (sf_text (c_par sf.1.1)) [delta32; delta64; delta128]
                     [eq_table (f_mexp p) 32 veq32; eq_table (f_mexp p) 64 veq64; eq_table (f_mexp p) 128 veq])).
(** dSFMTdc/calc_equidist.cpp:26-77, 149-166 (the fields are those of calc_period) *)
Definition ds_equi_main (v52 : list Z) (para : list N) : res (option eq_out) :=
  do p <- ds_parse para;
  if (d_mexp p <? 128)%coqZ then Undef
  else
    let sf := ds_seed (eq_seed seed junk) (ds_new p) in
    do '(b, sf) <- anni_d ds_ops ds_par_ops M fuel sf;
    if ~~ b then Ret None
    else
      do '(veq52, delta52) <- calc_DSFMT ds_ops pos (DI 128 2) ds_setStart ds_setWeight fuel (d_mexp p) sf 52 v52;
      Ret (Some (EQO (ds_text (e_par sf.1.1)) [delta52] [eq_table (d_mexp p) 52 veq52])).
End Programs.
