(** Model of the search programs: search() of samples/sfmtdc/sfmtdc.cpp and of
    samples/dSFMTdc/dSFMTdc.cpp.  The time stamps and the header line are left
    out; the printed parameter lines are the result. *)
From Coq Require Import NArith ZArith List Bool.
From mathcomp Require Import all_ssreflect all_algebra.
From Verif Require Import Base UtilModel GenModel PolyF2 PeriodModel ParityModel EquiModel ArrayModel W128Model SfmtModel SimdModel
  DsfmtModel DsfmtFixModel DsfmtEquiModel AnniModel.
Import ListNotations.
Set Implicit Arguments.
Unset Strict Implicit.
Unset Printing Implicit Defensive.
Local Open Scope ring_scope.
Delimit Scope Z_scope with coqZ.

(** opt.mexp * 100, an int: overflow is undefined *)
Definition tries_of (mexp : Z) : res Z :=
  let t := (mexp * 100)%coqZ in if (t <? 2 ^ 31)%coqZ then Ret t else Undef.

Section Search.
(** The parameter generator: MersenneTwister in sfmtdc.cpp, MersenneTwister64 in
    dSFMTdc.cpp; one call of getUint32() resp. getUint64(). *)
Variable B : Type.
Variable next : B -> N * B.
(** NTL::MinPolySeq, NTL::kernel, NTL::XGCD, calc_1pos<w128_t>; junk as in
    ParityModel *)
Variable M : seq 'F_2 -> nat -> f2x.
Variable kernel : nat -> nat -> (nat -> nat -> bool) -> list (list bool).
Variable XGCD : f2x -> f2x -> f2x * f2x * f2x.
Variable pos : N -> res Z.
Variable junk : N.

(** The next k values. *)
Fixpoint draw (k : nat) (b : B) : list N * B :=
  match k with
  | O => ([], b)
  | Datatypes.S c => let '(x, b1) := next b in let '(l, b2) := draw c b1 in (x :: l, b2)
  end.

(** An object with another generator behind the pointer rand. *)
Definition with_rand (S : Type) (o : rr_state S B) (g : S) : rr_state S B :=
  {| rr_rand := g; rr_base := rr_base o; rr_poly := rr_poly o; rr_irreducible := rr_irreducible o; rr_count := rr_count o |}.
(** AlgorithmReducibleRecursionSearch.hpp:110-115  the constructor *)
Definition ars_new (S : Type) (g : S) (b : B) : rr_state S B :=
  {| rr_rand := g; rr_base := b; rr_poly := 0; rr_irreducible := 0; rr_count := 0 |}.

(** * sfmtdc.cpp *)
(** sfmtsearch.hpp:462-482  setUpParam with the generator: 13 values *)
Definition sf_setUp (g : sfmt) (b : B) : res (sfmt * B) :=
  let '(l, b') := draw 13 b in
  do g' <- sf_setUpParam (fun i => List.nth i l 0%num) g;
  Ret (g', b').
(** One printed line, sfmtdc.cpp:133-135: the parameters, delta32, delta64, delta128 *)
Record sf_line := SFL { sl_par : sfp; sl_d32 : Z; sl_d64 : Z; sl_d128 : Z }.
(** sfmtdc.cpp:91-158: the loop, [cnt] passes left; the result is the list of the
    lines and the return value.  ars.start changes g (it holds a pointer to it).
    The arrays veq, veq32, veq64 are not initialised: v128, v32, v64 are their contents. *)
Fixpoint sfmtdc_loop (fuel : nat) (v128 v32 v64 : list Z) (mexp : Z) (cnt : nat) (ars : rr_state sfmt B) : res (list sf_line * Z) :=
  match cnt with
  | O => Ret ([], 0%coqZ)
  | Datatypes.S c =>
      do tries <- tries_of mexp;
      do '(found, ars1) <- rr_start sf_ops M sf_setUp 1 fuel (f_mexp (c_par (rr_rand ars).1.1)) tries ars;
      if ~~ found then Ret ([], 0%coqZ)
      else
        let irreducible := rr_irreducible ars1 in
        do quotient <- gf2x_div (rr_poly ars1) irreducible;
        if ~~ (deg irreducible =? mexp)%coqZ then Ret ([], (-1)%coqZ)
        else
          do '(_, g1) <- searchParity sf_ops sf_par_ops pos kernel (Some junk) fuel (rr_rand ars1) irreducible;
          let g2 := sf_seed 1 g1 in
          do '(good, g) <- anni_s sf_ops sf_par_ops M fuel g2;
          if ~~ good then Ret ([], (-1)%coqZ)
          else
            do '(_, _, delta128) <- get_all_equidist sf_ops pos fuel (ae_new sf_ops g 128 mexp) v128;
            do '(_, delta32) <- calc_SIMD sf_ops pos (SI 128 32 4) false sf_setStart sf_setWeight fuel mexp g 32 v32;
            do '(_, delta64) <- calc_SIMD sf_ops pos (SI 128 64 2) false sf_setStart sf_setWeight fuel mexp g 64 v64;
            do '(lines, ret) <- sfmtdc_loop fuel v128 v32 v64 mexp c (with_rand ars1 g);
            Ret (SFL (c_par g.1.1) delta32 delta64 delta128 :: lines, ret)
  end.
(** sfmtdc.cpp:77-165  search; arr are the contents of the new state array *)
Definition sfmtdc_search (fuel : nat) (arr : list N) (v128 v32 v64 : list Z) (mexp count : Z) (mt : B) : res (list sf_line * Z) :=
  sfmtdc_loop fuel v128 v32 v64 mexp (Z.to_nat count) (ars_new (sf_new_mexp mexp arr) mt).

(** * dSFMTdc.cpp *)
(** dSFMTsearch.hpp:378-391  setUpParam with the generator: 5 or 6 values *)
Definition ds_setUp (g : dsfmt) (b : B) : res (dsfmt * B) :=
  let '(l, b') := draw (if e_fixed g.1.1 then 5 else 6)%N b in
  do g' <- ds_setUpParam (fun i => List.nth i l 0%num) g;
  Ret (g', b').
(** One printed line, dSFMTdc.cpp:130-131 *)
Record ds_line := DSL { dl_par : dsp; dl_d52 : Z }.
(** dSFMTdc.cpp:98-135: the loop *)
Fixpoint dsfmtdc_loop (fuel : nat) (v52 : list Z) (mexp : Z) (cnt : nat) (ars : rr_state dsfmt B) : res (list ds_line * Z) :=
  match cnt with
  | O => Ret ([], 0%coqZ)
  | Datatypes.S c =>
      do tries <- tries_of mexp;
      do '(found, ars1) <- rr_start ds_ops M ds_setUp 1 fuel (d_mexp (e_par (rr_rand ars).1.1)) tries ars;
      if ~~ found then Ret ([], 0%coqZ)
      else
        let irreducible := rr_irreducible ars1 in
        if ~~ (deg irreducible =? mexp)%coqZ then Ret ([], (-1)%coqZ)
        else
          do characteristic <- getLCMPoly_d ds_ops ds_par_ops M (rr_poly ars1) (rr_rand ars1);
          do quotient <- gf2x_div characteristic irreducible;
          do fixpoint <- calc_fixpoint XGCD (rr_rand ars1) irreducible quotient;
          let g0 := ds_setFixPoint fixpoint (rr_rand ars1) in
          do '(_, g1) <- searchParity ds_ops ds_par_ops pos kernel (Some junk) fuel g0 irreducible;
          let g2 := ds_seed 1 g1 in
          do '(good, g3) <- anni_d ds_ops ds_par_ops M fuel g2;
          if ~~ good then Ret ([], (-1)%coqZ)
          else
            let g := annihilate ds_ops g3 quotient in
            do '(_, delta52) <- calc_DSFMT ds_ops pos (DI 128 2) ds_setStart ds_setWeight fuel mexp g 52 v52;
            do '(lines, ret) <- dsfmtdc_loop fuel v52 mexp c (with_rand ars1 g);
            Ret (DSL (e_par g.1.1) delta52 :: lines, ret)
  end.
(** dSFMTsearch.hpp:606-611  setFixed, setFixedSL1 *)
Definition ds_setFixed (fixed : option Z) (g : dsfmt) : dsfmt :=
  match fixed with
  | None => g
  | Some sl1 => let '((c, s), l) := g in
      ((DSC (e_par c) (e_size c) (e_start c) (e_weight c) (e_prefix c) true sl1, s), l)
  end.
(** dSFMTdc.cpp:80-143  search; fixed is Some opt.fixedSL1 if opt.fixed *)
Definition dsfmtdc_search (fuel : nat) (arr : list N) (v52 : list Z) (mexp count : Z) (fixed : option Z) (mt : B) : res (list ds_line * Z) :=
  dsfmtdc_loop fuel v52 mexp (Z.to_nat count) (ars_new (ds_setFixed fixed (ds_new_mexp mexp arr)) mt).
End Search.
