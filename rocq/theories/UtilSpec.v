(** Specifications for the helpers of util.hpp, independent of the model. *)
From Coq Require Import NArith ZArith List Bool.
Import ListNotations.

(** Number of one bits among the positions below [w]. *)
Definition popcount (w : nat) (x : N) : nat :=
  length (filter (fun i => N.testbit x (N.of_nat i)) (seq 0 w)).

(** [p] is the position, counted from the most significant bit of a w-bit
    word, of the lowest one bit of [x]. *)
Definition lowest_one_from_msb (w : N) (x : N) (p : Z) : Prop :=
  exists i : N,
    (i < w)%N /\ p = (Z.of_N w - 1 - Z.of_N i)%Z /\
    N.testbit x i = true /\ (forall j, (j < i)%N -> N.testbit x j = false).

(** XOR of the [src] entries selected by the bits of [i]. *)
Fixpoint select_xor (i : N) (src : list N) (k : N) : N :=
  match src with
  | [] => 0%N
  | s :: src' =>
      N.lxor (if N.testbit i k then s else 0%N) (select_xor i src' (k + 1))
  end.
