(** 128-bit words as natural numbers. *)
From Coq Require Import NArith ZArith List Bool.
From Verif Require Import W128Model UtilSpec.
Local Open Scope N_scope.

(** The number a union stands for; its halves are 64-bit words. *)
Definition wval (x : w128) : N := u1 x * 2 ^ 64 + u0 x.
Definition wok (x : w128) : Prop := u0 x < 2 ^ 64 /\ u1 x < 2 ^ 64.

(** The inner product over GF(2) of two 128-bit words: the parity of the number
    of positions where both have a one. *)
Definition inner (a b : N) : bool := Nat.odd (popcount 128 (N.land a b)).

(** [b] differs from [a] in exactly the bit [i]. *)
Definition flips (a b i : N) : Prop := forall j, N.testbit b j = (if j =? i then negb (N.testbit a j) else N.testbit a j).
