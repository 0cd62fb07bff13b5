(** Model of the program samples/RMT/rmt64dc.cpp, without the option verbose.
    The header line and the parsing of the options are left out; the printed
    parameter lines are the result.  (With verbose the search also calls
    getParamString before it looks for tempering masks; that clears bits of the
    masks, see rmt_getParamString_effect.) *)
From Coq Require Import NArith ZArith List Bool.
From mathcomp Require Import all_ssreflect all_algebra.
From Verif Require Import Base UtilModel GenModel PolyF2 PeriodModel EquiModel TemperModel ParityModel RecTemperModel RedTemperModel RmtModel RmtParity.
Set Implicit Arguments.
Unset Strict Implicit.
Unset Printing Implicit Defensive.
Delimit Scope Z_scope with coqZ.

(** 102 and rmt64.hpp:204-210: the printed line without mexp. *)
Record rd_line := RL { rl_pos : nat; rl_mata : N; rl_parity : N; rl_maskb : N; rl_maskc : N; rl_delta : Z }.
Definition rd_lineof (g : rmt) (delta : Z) : rd_line :=
  RL (r_pos g.1) (r_mata g.1) (r_par g.1) (r_maskb g.1) (r_maskc g.1) delta.

Section Program.
(** The parameter generator, MersenneTwister64; one call of getUint64(). *)
Variables (B : Type) (next : B -> N * B).
(** NTL's MinPolySeq and kernel, calc_1pos, the value of a shift by -1 (as in
    ParityModel), the fuel of the loops of the library and the uninitialised
    array veq. *)
Variables (M : seq 'F_2 -> nat -> f2x) (kernel : nat -> nat -> (nat -> nat -> bool) -> list (list bool))
  (pos : N -> res Z) (junk : N) (efuel sfuel ffuel : nat) (veq0 : list Z).

(** rmt64.hpp:188-192 with the generator: two values *)
Definition rd_setUp (g : rmt) (b : B) : res (rmt * B) :=
  let '(u1, b1) := next b in
  let '(u2, b2) := next b1 in
  Ret (rmt_setUpParam u1 u2 g, b2).
(** 87-88  AlgorithmPartialBitPattern<uint64_t, 64, 2, 63, 6> *)
Definition rd_temper : rmt -> res (Z * rmt) :=
  pb_call rmt rmt_temper_ops 64 count_bit64 (fun g => Z.of_nat (g_bitSize rmt_ops g))
    (tm_get_equidist rmt rmt_ops rmt_temper_ops pos efuel veq0 64) 64 2 63 6 false sfuel.
(** 96  all.search(g, st, st, false): the same tempering search twice *)
Definition rd_search (g : rmt) (b : B) : res (bool * rrt_state rmt B) :=
  rrt_search rmt_ops rmt_temper_ops rmt_par M kernel rd_setUp 1 pos junk efuel veq0 ffuel rd_temper rd_temper false false false g b.
(** 95-108: the loop; getParamString changes the object *)
Fixpoint rd_loop (cnt : nat) (g : rmt) (b : B) : res (list rd_line) :=
  match cnt with
  | O => Ret nil
  | c.+1 =>
      do '(found, r) <- rd_search g b;
      if found : bool then
        let g' := rmt_getParamString_effect (rrt_rand r) in
        do lines <- rd_loop c g' (rrt_base r);
        Ret (rd_lineof g' (rrt_delta r) :: lines)
      else Ret nil
  end.
(** 78-114  search; 80 RMT64Search g(opt.mexp, 1) leaves pos and mata
    uninitialised *)
Definition rd_main (mexp : nat) (upos : nat) (umata : N) (count : Z) (b : B) : res (list rd_line) :=
  rd_loop (Z.to_nat count) (rmt_new mexp upos umata 0 0 1) b.
End Program.
