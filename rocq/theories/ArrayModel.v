(** Round robin arrays of words, as the sample generators MT19937, MT32Search,
    RMT64Search and mtgp32 use them: an array and the index of the word that was
    written last. *)
From Coq Require Import Arith NArith ZArith List Bool.
From Verif Require Import Base.
Import ListNotations.

Record rr := RR { rr_idx : nat; rr_arr : list N }.

(** Write of one element. *)
Fixpoint put (l : list N) (i : nat) (x : N) : list N :=
  match l, i with
  | [], _ => []
  | _ :: r, O => x :: r
  | y :: r, S j => y :: put r j x
  end.
(** state[i % size]; the index is in range when the array has [size] words. *)
Definition rr_at (size : nat) (a : list N) (i : nat) : N := nth (i mod size) a 0%N.

(** The loops of add, for example mt2.cpp:129-131:
    state[(index + i) % size] ^= that->state[(that->index + i) % size]. *)
Fixpoint rr_xor_loop (size : nat) (cnt i : nat) (idx : nat) (a : list N) (idx' : nat) (b : list N) : list N :=
  match cnt with
  | O => a
  | S c => rr_xor_loop size c (S i) idx
             (put a ((idx + i) mod size) (N.lxor (rr_at size a (idx + i)) (rr_at size b (idx' + i)))) idx' b
  end.
Definition rr_xor (size : nat) (s t : rr) : rr :=
  RR (rr_idx s) (rr_xor_loop size size 0 (rr_idx s) (rr_arr s) (rr_idx t) (rr_arr t)).

(** The loops of isZero, for example mt2.cpp:108-112: the words from number i
    after the index on. *)
Fixpoint rr_zero_loop (size : nat) (cnt i : nat) (idx : nat) (a : list N) : bool :=
  match cnt with
  | O => true
  | S c => if negb (rr_at size a (idx + i) =? 0)%N then false else rr_zero_loop size c (S i) idx a
  end.

(** The loops of seed: state[i] = f(i, state[i-1]). *)
Fixpoint rr_fill (cnt : nat) (i : nat) (prev : N) (f : nat -> N -> N) : list N :=
  match cnt with
  | O => []
  | S c => let x := f i prev in x :: rr_fill c (S i) x f
  end.
