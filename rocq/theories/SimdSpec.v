(** What calc_SIMD_equidistribution should compute: the dimension of
    equidistribution of the sequence of 32-bit (or 64-bit) words of a generator
    of 128-bit words.  Said with the sequence alone. *)
From Coq Require Import Arith NArith ZArith List Bool.
From Verif Require Import SfmtModel SfmtLin ArrayModel.
Local Open Scope nat_scope.

(** f (0) xor ... xor f (K - 1) *)
Fixpoint xsum (K : nat) (f : nat -> bool) : bool :=
  match K with O => false | S k => xorb (xsum k f) (f k) end.

(** Each 128-bit word of the sequence W is L words of ew bits; word q of the
    sequence of short words, its bit b from the top (or from the bottom). *)
Definition seqbit (lsb : bool) (ew L : nat) (W : nat -> N) (q b : nat) : bool :=
  N.testbit (W (q / L)) (N.of_nat (ew * (q mod L) + (if lsb then b else ew - 1 - b))).

(** The generator is linear: with the sequence W all sums of shifted copies of W
    are sequences of the generator.  The v leading bits of the k short words
    from number phi on take all values in these sequences. *)
Definition equid (lsb : bool) (ew L : nat) (W : nat -> N) (phi v k : nat) : Prop :=
  forall y : nat -> nat -> bool, exists (K : nat) (a : nat -> bool),
    forall i b, i < k -> b < v -> xsum K (fun j => a j && seqbit lsb ew L W (phi + i + L * j) b) = y i b.

(** W satisfies a linear recurrence of order d: the span of the shifted copies
    has at most the dimension d. *)
Definition recurrent (W : nat -> N) (d : nat) : Prop :=
  exists a : nat -> bool, forall k i, N.testbit (W (k + d)) i = xsum d (fun j => a j && N.testbit (W (k + j)) i).

(** The 128-bit words of an sfmt object: those of the array, from the oldest,
    continued by the recursion. *)
Definition sfmt_words (g : sfmt) (W : nat -> N) : Prop :=
  let c := fst (fst g) in let p := c_par c in let size := c_size c in
  (forall k, k < size -> W k = nth ((rr_idx (snd (fst g)) + 1 + k) mod size) (rr_arr (snd (fst g))) 0%N) /\
  forall k, W (k + size) = frec p (W k) (W (k + Z.to_nat (f_pos1 p) mod size)) (W (k + (size - 2))) (W (k + (size - 1))).
