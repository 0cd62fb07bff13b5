(** Model of the program samples/MTDC/mt2.cpp, main.  The header line and what the
    option verbose prints are left out, so is the parsing of the options; the
    printed parameter lines are the result. *)
From Coq Require Import NArith ZArith List Bool.
From mathcomp Require Import all_ssreflect all_algebra.
From Verif Require Import Base GenModel PolyF2 PeriodModel EquiModel TemperModel RecTemperModel MtdcModel SearchModel.
Set Implicit Arguments.
Unset Strict Implicit.
Unset Printing Implicit Defensive.
Delimit Scope Z_scope with coqZ.

(** mt2.cpp:166-175 getParamString and 405: the printed line, without mexp and id,
    which are those of the options. *)
Record mt2_line := M2L { ml_pos : nat; ml_mata : N; ml_maskb : N; ml_maskc : N; ml_delta : Z }.
Definition mt2_lineof (g : mtg) (delta : Z) : mt2_line :=
  M2L (m_pos g.1) (m_mata g.1) (m_maskb g.1) (m_maskc g.1) delta.

Section Program.
(** The parameter generator, MersenneTwister; one call of getUint32(). *)
Variables (B : Type) (next : B -> N * B).
(** NTL's MinPolySeq, calc_1pos, the fuel of the loops of the library and the
    uninitialised array veq. *)
Variables (M : seq 'F_2 -> nat -> f2x) (pos : N -> res Z) (efuel ffuel : nat) (veq0 : list Z).

(** mt2.cpp:150-160 with the generator: two values *)
Definition mt2_setUp (g : mtg) (b : B) : res (mtg * B) :=
  let '(l, b') := draw next 2 b in
  do g' <- mt32_setUpParam (List.nth 0 l 0%num) (List.nth 1 l 0%num) g;
  Ret (g', b').
(** mt2.cpp:394-395  tmp(32, {7, 15}, 2, 15) *)
Definition mt2_temper : mtg -> res (Z * mtg) :=
  bb_call mtg mt32_temper_ops 32 (fun g => Z.of_nat (g_bitSize mtg_ops g))
    (tm_get_equidist mtg mtg_ops mt32_temper_ops pos efuel veq0) 2 [:: 7; 15]%coqZ 15.
(** 399  rt.search(mt, tmp, tmp, opt.verbose, cout, true) with the default
    MersennePrimitivity; isLSBTempering() of AlgorithmBestBits is false *)
Definition mt2_search (verbose : bool) (g : mtg) (b : B) : res (bool * rt_state mtg B) :=
  rt_search mtg_ops mt32_temper_ops M mt2_setUp 1 pos efuel veq0 ffuel MersennePrimitivity
    mt2_temper mt2_temper false verbose true g b.
(** 398-411: the loop.  The result are the lines and the return value of main. *)
Fixpoint mt2_loop (loops : nat) (max_delta : Z) (verbose : bool) (count : Z) (g : mtg) (b : B)
  : res (list mt2_line * Z) :=
  if (0 <? count)%coqZ then
    match loops with
    | O => NoFuel
    | c.+1 =>
        do '(found, r) <- mt2_search verbose g b;
        if found : bool then
          if (max_delta <? rt_delta r)%coqZ then mt2_loop c max_delta verbose count (rt_rand r) (rt_base r)
          else
            do '(lines, ret) <- mt2_loop c max_delta verbose (count - 1)%coqZ (rt_rand r) (rt_base r);
            Ret (mt2_lineof (rt_rand r) (rt_delta r) :: lines, ret)
        else Ret (nil, (-1)%coqZ)
    end
  else Ret (nil, 0%coqZ).
(** 387-413  main; jpos and jmata are the uninitialised members pos and mata, b is
    the state of mto *)
Definition mt2_main (loops : nat) (mexp : nat) (id : Z) (jpos : nat) (jmata : N) (max_delta : Z) (verbose : bool) (count : Z) (b : B)
  : res (list mt2_line * Z) :=
  do g <- mt32_new mexp id jpos jmata 0 0 1;
  mt2_loop loops max_delta verbose count g b.
End Program.
