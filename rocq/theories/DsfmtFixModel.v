(** Model of samples/dSFMTdc/calc_fixpoint.cpp. *)
From Coq Require Import NArith ZArith.
From mathcomp Require Import all_ssreflect all_algebra.
From Verif Require Import Base GenModel PolyF2 PeriodModel ArrayModel DsfmtModel.
Set Implicit Arguments.
Unset Strict Implicit.
Unset Printing Implicit Defensive.
Import GRing.Theory.
Local Open Scope ring_scope.
Delimit Scope Z_scope with coqZ.

Section Model.
(** NTL::XGCD(d, s, t, x, y) as a function returning (d, s, t). *)
Variable XGCD : f2x -> f2x -> f2x * f2x * f2x.
(** calc_fixpoint.cpp:16-47  calc_fixpoint.  [a] is not used afterwards; the
    printing is left out, the exceptions are Throw. *)
Definition calc_fixpoint (g : dsfmt) (irreducible quotient : f2x) : res N :=
  let '(d, a, b) := XGCD irreducible quotient in
  if ~~ (deg d =? 0)%coqZ then Throw
  else
    let b := b * quotient in
    do cst <- ds_setConst g;
    let cst := annihilate ds_ops cst b in
    let '(d, a, b) := XGCD irreducible ('X + 1) in
    if ~~ (deg d =? 0)%coqZ then Throw
    else Ret (ds_getParity (annihilate ds_ops cst b)).
End Model.
