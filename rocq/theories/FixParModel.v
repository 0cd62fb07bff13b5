(** Model of the programs calc_fixpoint and calc_parity of dSFMTdc without the
    option -c: samples/dSFMTdc/calc_fixpoint_main.cpp and calc_parity_main.cpp.  The
    argument is the text of argv[optind]; the loop of getopt before it is left out.
    Where a program prints a message with a degree instead of a line, the degree is
    left out. *)
From Coq Require Import NArith ZArith List Bool.
From mathcomp Require Import all_ssreflect all_algebra.
From Verif Require Import Base UtilModel GenModel PolyF2 PeriodModel ParityModel ArrayModel W128Model DsfmtModel DsfmtFixModel AnniModel
  RmtCalcModel PerTestModel.
Import ListNotations.
Set Implicit Arguments.
Unset Strict Implicit.
Unset Printing Implicit Defensive.
Import GRing.Theory.
Local Open Scope ring_scope.
Delimit Scope Z_scope with coqZ.

(** calc_fixpoint_main.cpp:147-157: five fields; the others are zero, as the
    constructor of dSFMT_param (dSFMTsearch.hpp:59-69) leaves them *)
Definition fix_bases : list N := (List.repeat 10 3 ++ List.repeat 16 2)%num.
Definition fix_parse (para : list N) : res dsp :=
  do l <- read_fields fix_bases para;
  let i k := rc_int (List.nth k l 0%num) in
  let u k := List.nth k l 0%num in
  Ret (DSP (i 0) (i 1) (i 2) (u 3) (u 4) 0 0)%N.
(** calc_parity_main.cpp:162-175: seven fields *)
Definition par_bases : list N := (List.repeat 10 3 ++ List.repeat 16 4)%num.
Definition par_parse (para : list N) : res dsp :=
  do l <- read_fields par_bases para;
  let i k := rc_int (List.nth k l 0%num) in
  let u k := List.nth k l 0%num in
  Ret (DSP (i 0) (i 1) (i 2) (u 3) (u 4) (join (u 5) (u 6)) 0)%N.
(** w.u64[0] = 1; u64[1] is not initialised, here it is taken from [junk] *)
Definition fp_seed (junk : N) : N := join 1 (junk mod 2 ^ 64)%num.

(** What is printed: a line of parameters, or the message that there is no factor
    of degree mexp, or that the division has a remainder. *)
Inductive fp_out := FpLine (text : list N) | FpNoFactor | FpRemainder.

Section Programs.
(** NTL::MinPolySeq, NTL::XGCD, NTL::kernel, calc_1pos<w128_t>; [junk2] as in
    ParityModel *)
Variables (M : seq 'F_2 -> nat -> f2x) (XGCD : f2x -> f2x -> f2x * f2x * f2x).
Variables (pos : N -> res Z) (kernel : nat -> nat -> (nat -> nat -> bool) -> list (list bool)).
Variables (fuel : nat) (junk junk2 : N).

(** calc_fixpoint_main.cpp:160-184, 187-235; main returns 0 in every case.  A mexp
    less than 128 is not followed any further (the length of the array). *)
Definition fix_main (para : list N) : res fp_out :=
  do p <- fix_parse para;
  if (d_mexp p <? 128)%coqZ then Undef
  else
    let dsfmt := ds_seed (fp_seed junk) (ds_new p) in
    do '(poly, dsfmt) <- minpoly ds_ops M dsfmt 0 0;
    do '(irreducible, has) <- hasFactorOfDegree fuel poly (p_getMexp ds_par_ops dsfmt);
    if ~~ has then Ret FpNoFactor
    else
      do lcmpoly <- getLCMPoly_d ds_ops ds_par_ops M poly dsfmt;
      do smallpoly <- gf2x_div lcmpoly irreducible;
      if (0 <=? deg (lcmpoly %% irreducible))%coqZ then Ret FpRemainder
      else
        do fix_ <- calc_fixpoint XGCD dsfmt irreducible smallpoly;
        Ret (FpLine (ds_text (e_par (ds_setFixPoint fix_ dsfmt).1.1))).
(** calc_parity_main.cpp:179-214, calc_parity.cpp:19-24; the second component is
    the value main returns *)
Definition par_main (para : list N) : res (fp_out * Z) :=
  do p <- par_parse para;
  if (d_mexp p <? 128)%coqZ then Undef
  else
    let dsfmt := ds_seed (fp_seed junk) (ds_new p) in
    do '(poly, dsfmt) <- minpoly ds_ops M dsfmt 0 0;
    do '(irreducible, has) <- hasFactorOfDegree fuel poly (p_getMexp ds_par_ops dsfmt);
    if ~~ has then Ret (FpNoFactor, (-1)%coqZ)
    else
      do '(_, dsfmt) <- searchParity ds_ops ds_par_ops pos kernel (Some junk2) fuel dsfmt irreducible;
      Ret (FpLine (ds_text (e_par dsfmt.1.1)), 0%coqZ).
End Programs.
