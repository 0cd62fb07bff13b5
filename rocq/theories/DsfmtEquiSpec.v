(** What calc_dSFMT_equidistribution should compute: the dimension of
    equidistribution of the sequence of 52-bit words of a dSFMT object.  Said
    with the sequence alone. *)
From Coq Require Import Arith NArith ZArith List Bool.
From Verif Require Import ArrayModel DsfmtModel DsfmtLin SimdSpec.
Local Open Scope nat_scope.

(** Each 128-bit word of the sequence W has two words of 52 bits, in the lower
    bits of its halves; word q of the sequence of 52-bit words, its bit b from
    the top. *)
Definition seqbit52 (W : nat -> N) (q b : nat) : bool :=
  N.testbit (W (q / 2)) (N.of_nat (64 * (q mod 2) + (51 - b))).

(** With the sequence W all sums of shifted copies of W are sequences of the
    generator.  The v leading bits of the k 52-bit words from number phi on take
    all values in these sequences. *)
Definition equid52 (W : nat -> N) (phi v k : nat) : Prop :=
  forall y : nat -> nat -> bool, exists (K : nat) (a : nat -> bool),
    forall i b, i < k -> b < v -> xsum K (fun j => a j && seqbit52 W (phi + i + 2 * j) b) = y i b.

(** The 128-bit words of a dSFMT object: those of the array, from the oldest,
    continued by the recursion with the lung. *)
Definition dsfmt_words (g : dsfmt) (W : nat -> N) : Prop :=
  let c := fst (fst g) in let p := e_par c in let size := e_size c in
  (forall k, k < size -> W k = nth ((rr_idx (snd (fst g)) + 1 + k) mod size) (rr_arr (snd (fst g))) 0%N) /\
  exists U : nat -> N, U 0 = ds_lung g /\ forall k,
    U (k + 1) = dlung p (W k) (W (k + Z.to_nat (d_pos1 p) mod size)) (U k) /\
    W (k + size) = dnew p (W k) (U (k + 1)).
