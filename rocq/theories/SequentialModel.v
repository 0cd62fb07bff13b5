(** Model of include/MTToolBox/Sequential.hpp for an unsigned type T of [w]
    bits.  The default constructor (lines 58-59) leaves all fields
    uninitialised; an object in that state is not modelled. *)
From Coq Require Import NArith ZArith List Bool.
From Verif Require Import Base.
Import ListNotations.
Local Open Scope N_scope.

(** Sequential.hpp:255-258, the fields. *)
Record sequential := mkSeq { sq_status : N; sq_mask : N; sq_error : bool }.

(** Sequential.hpp:73-77  Sequential(T p_mask). *)
Definition sq_make (w p_mask : N) : sequential :=
  mkSeq (wsub w 0 1) p_mask false.

(** Sequential.hpp:93-97  Sequential(T p_mask, T seed). *)
Definition sq_make_seed (p_mask seed : N) : sequential := mkSeq seed p_mask false.

(** Sequential.hpp:110-114  copy constructor. *)
Definition sq_copy (s : sequential) : sequential :=
  mkSeq (sq_status s) (sq_mask s) (sq_error s).

(** Sequential.hpp:156-159  reseed. *)
Definition sq_reseed (s : sequential) (seed : N) : sequential :=
  mkSeq seed (sq_mask s) false.

(** Sequential.hpp:127-144  seed(uint32_t), seed(uint64_t): conversion of the
    argument to T. *)
Definition sq_seed (w : N) (s : sequential) (value : N) : sequential :=
  sq_reseed s (trunc w value).

(** Sequential.hpp:224-234  next. *)
Definition sq_next (w : N) (s : sequential) : res (N * sequential) :=
  if sq_error s then Throw
  else
    let err := if sq_status s <=? 0 then true else sq_error s in
    let work := sq_status s in
    Ret (N.lxor work (sq_mask s), mkSeq (wsub w (sq_status s) 1) (sq_mask s) err).

(** Sequential.hpp:178-201  getUint32, getUint64: conversion of the T result
    to the return type. *)
Definition sq_getUint32 (w : N) (s : sequential) : res (N * sequential) :=
  do '(v, s') <- sq_next w s; Ret (trunc 32 v, s').
Definition sq_getUint64 (w : N) (s : sequential) : res (N * sequential) :=
  do '(v, s') <- sq_next w s; Ret (trunc 64 v, s').

(** A client: [n] consecutive calls of next; stops at the first outcome that
    is not a value. *)
Fixpoint sq_take (w : N) (n : nat) (s : sequential) : res (list N * sequential) :=
  match n with
  | O => Ret ([], s)
  | S n' =>
      do '(v, s1) <- sq_next w s;
      do '(l, s2) <- sq_take w n' s1;
      Ret (v :: l, s2)
  end.
