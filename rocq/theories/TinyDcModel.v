(** Model of the program samples/TinyMTDC/tinymt32dc.cpp.  The lines written to
    cout are represented by what they are printed from; the header line, the
    text of the option verbose and the number formatting are not modelled,
    nor is the parsing of the options. *)
From Coq Require Import NArith ZArith List Bool.
From mathcomp Require Import all_ssreflect all_algebra.
From Verif Require Import Base GenModel PolyF2 PeriodModel EquiModel SequentialModel TemperModel RecTemperModel TinyModel.
Set Implicit Arguments.
Unset Strict Implicit.
Unset Printing Implicit Defensive.
Delimit Scope Z_scope with coqZ.

(** tinymt32search.hpp:267-277 with a Sequential<uint32_t> as parameter
    generator. *)
Definition tiny_setUp (g : tiny) (b : sequential) : res (tiny * sequential) :=
  do '(num, b') <- sq_getUint32 32 b;
  Ret (tiny_setUpParam num g, b').

(** tinymt32dc.cpp:91-95: characteristic polynomial, parameters, weight and
    delta. *)
Record tiny_line := { tl_poly : f2x; tl_par : tiny_param; tl_weight : Z; tl_delta : Z }.

Section Program.
(** NTL's MinPolySeq, calc_1pos, the fuel of the loops of the library and the
    uninitialised array veq. *)
Variables (M : seq 'F_2 -> nat -> f2x) (pos : N -> res Z) (efuel sfuel ffuel : nat) (veq0 : list Z).

(** tinymt32dc.cpp:79  all.search(g, st, stlsb, opt.verbose) with the default
    MersennePrimitivity *)
Definition td_search (verbose : bool) (g : tiny) (sq : sequential) : res (bool * rt_state tiny sequential) :=
  rt_search tiny_ops tiny_temper_ops M tiny_setUp 1 pos efuel veq0 ffuel MersennePrimitivity
    (st32 pos efuel veq0 sfuel) (stlsb32 pos efuel veq0 sfuel) true verbose false g sq.
(** 77-107: the loop of search.  i++ is undefined at INT_MAX.  The
    underflow_error of the parameter generator ends the program, 53-57. *)
Fixpoint td_loop (loops : nat) (max_delta : Z) (all verbose : bool) (count i : Z) (g : tiny) (sq : sequential)
  : res (list tiny_line) :=
  match loops with
  | O => NoFuel
  | c.+1 =>
      if (i <? count)%coqZ || all then
        match td_search verbose g sq with
        | Ret (true, r) =>
            if (max_delta <? rt_delta r)%coqZ then td_loop c max_delta all verbose count i (rt_rand r) (rt_base r)
            else if (i =? 2 ^ 31 - 1)%coqZ then Undef
            else
              do l <- td_loop c max_delta all verbose count (i + 1)%coqZ (rt_rand r) (rt_base r);
              Ret ({| tl_poly := rt_poly r; tl_par := tm_par (rt_rand r); tl_weight := rt_weight r; tl_delta := rt_delta r |} :: l)
        | Ret (false, _) => Ret nil
        | Throw => Ret nil
        | Undef => Undef | Exit => Exit | NoFuel => NoFuel
        end
      else Ret nil
  end.
(** 66-77: search(opt, count) *)
Definition td_main (loops : nat) (start uid : N) (max_delta : Z) (all verbose : bool) (count : Z) : res (list tiny_line) :=
  td_loop loops max_delta all verbose count 0%coqZ (tiny_new uid) (sq_make_seed 0 start).
End Program.
