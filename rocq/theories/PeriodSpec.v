(** Specification notions for the period and factorisation functions. *)
From Coq Require Import NArith ZArith List.
From mathcomp Require Import all_ssreflect all_algebra.
From Verif Require Import Base GenModel PolyF2 LinSpec.
Set Implicit Arguments.
Unset Strict Implicit.
Unset Printing Implicit Defensive.
Import GRing.Theory.
Local Open Scope ring_scope.
Delimit Scope Z_scope with coqZ.

(** A primitive polynomial of degree d: irreducible, and 2^d-1 is the least
    positive k with X^k = 1 modulo f. *)
Definition primitive (f : f2x) (d : nat) : Prop :=
  [/\ irreducible_poly f, size f = d.+1,
      f %| 'X^(2 ^ d - 1) - 1 &
      forall k, (0 < k < 2 ^ d - 1)%N -> ~~ (f %| 'X^k - 1)].

(** [l] contains every prime divisor of m. *)
Definition all_primes_of (m : nat) (l : list N) : Prop :=
  forall q, prime q -> (q %| m)%N -> List.In (N.of_nat q) l.
(** [l] lists exactly the prime divisors of m. *)
Definition prime_divisors (m : nat) (l : list N) : Prop :=
  forall q : N, List.In q l <-> prime (N.to_nat q) /\ (N.to_nat q %| m)%N.

(** f is an irreducible factor of p of degree d and all other irreducible
    factors of p have smaller degree. *)
Definition large_factor (p f : f2x) (d : nat) : Prop :=
  [/\ irreducible_poly f, size f = d.+1 &
      exists2 g, p = f * g & forall h, irreducible_poly h -> h %| g -> (size h <= d)%N].

(** h generates the sequence u: sum_j h_j u_(i+j) = 0 for all i. *)
Definition generates (h : f2x) (u : nat -> 'F_2) : Prop :=
  forall i, \sum_(j < size h) h`_j * u (i + j)%N = 0.
(** The minimal polynomial of a sequence. *)
Definition is_minpoly (u : nat -> 'F_2) (m : f2x) : Prop :=
  [/\ m != 0, generates m u & forall h, generates h u -> m %| h].
(** The documented behaviour of NTL's MinPolySeq(h, a, m): the minimal
    polynomial of a sequence generated by a polynomial of degree at most m,
    from its first 2m terms. *)
Definition minpolyseq_spec (M : seq 'F_2 -> nat -> f2x) : Prop :=
  forall (u : nat -> 'F_2) (m : nat) (h : f2x),
    h != 0 -> (size h <= m.+1)%N -> generates h u ->
    is_minpoly u (M (mkseq u (2 * m)) m).

(** The output of generate() is linear: D p computes bit p (from the least
    significant) of the output in a state. *)
Definition linear_out {S : Type} (G : gen_ops S) (n : nat) (ok : S -> Prop)
  (abs : S -> 'rV['F_2]_n) (D : nat -> 'cV['F_2]_n) : Prop :=
  forall s p, ok s -> (N.of_nat p < g_width G)%num ->
    (N.testbit (g_generate G s).1 (N.of_nat p))%:R = (abs s *m D p) 0 0 :> 'F_2.

(** Bit p of the i-th output, starting from the state x. *)
Definition out_seq (n : nat) (A : 'M['F_2]_n) (D : nat -> 'cV['F_2]_n) (x : 'rV['F_2]_n) (p : nat)
  : nat -> 'F_2 := fun i => (st A i x *m D p) 0 0.

(** p(A), acting on row vectors from the right. *)
Definition poly_mx (n : nat) (A : 'M['F_2]_n) (p : f2x) : 'M['F_2]_n :=
  \sum_(i < size p) p`_i *: iter i (mulmx^~ A) 1%:M.

(** Value of a decimal string: digit times power of ten, summed. *)
Fixpoint dec_value (s : list N) : N :=
  match s with
  | nil => 0%num
  | cons c r => ((c - 48) * 10 ^ N.of_nat (length r) + dec_value r)%num
  end.
Definition all_digits (s : list N) : Prop :=
  forall c, List.In c s -> (48 <= c <= 57)%num.
(** The longest prefix of a text that consists of digits. *)
Fixpoint digit_prefix (s : list N) : list N :=
  match s with
  | nil => nil
  | cons c r => if ((48 <=? c) && (c <=? 57))%num then cons c (digit_prefix r) else nil
  end.

(** Reading back a printed polynomial: the characters before the letter d,
    without line breaks. *)
Fixpoint printed_digits (t : list N) : list N :=
  match t with
  | nil => nil
  | cons c r => if (c =? 100)%num then nil
                else if (c =? 10)%num then printed_digits r else cons c (printed_digits r)
  end.
(** The coefficients from degree 0 to the degree, as digits. *)
Definition coef_digits (p : f2x) : list N :=
  map (fun a : 'F_2 => if a == 0 then 48%num else 49%num) (polyseq p).

(** The minimal polynomial of the sequence is primitive of degree n. *)
Definition good_seq (u : nat -> 'F_2) (n : nat) : Prop :=
  exists2 q, is_minpoly u q & primitive q n.

Section Tried.
Variables (S : Type) (G : gen_ops S) (B : Type) (setUpParam : S -> B -> res (S * B)) (one : N)
  (n : nat) (Th : Type) (ok : Th -> S -> Prop) (bad : Th -> S -> Prop).
(** [tried k r b r' b']: starting with generator r and parameter source b, k
    parameter sets were drawn one after the other; each was seeded with [one],
    was [bad], and consumed 2n outputs; r' and b' are left. *)
Inductive tried : nat -> S -> B -> S -> B -> Prop :=
| tried0 r b : tried 0 r b r b
| triedS k r b th s b1 r' b' :
    setUpParam r b = Ret (s, b1) -> ok th (g_seed G one s) -> bad th (g_seed G one s) ->
    tried k (iter (2 * n) (fun s => (g_generate G s).2) (g_seed G one s)) b1 r' b' ->
    tried k.+1 r b r' b'.
End Tried.

(** The component of the generator that belongs to the polynomial phi: the
    states x with phi(A) x = 0.  [comp_equidist]: when the state ranges over
    the component, the top v bits of k consecutive outputs take all values. *)
Definition comp_equidist (n : nat) (A : 'M['F_2]_n) (C : nat -> 'cV['F_2]_n) (phi : f2x) (v k : nat) : Prop :=
  forall y : nat -> nat -> 'F_2,
  exists x : 'rV['F_2]_n, x *m poly_mx A phi = 0 /\
    forall i j, (i < k)%N -> (j < v)%N -> obit C (st A i x) j = y i j.
Definition comp_dim (n : nat) (A : 'M['F_2]_n) (C : nat -> 'cV['F_2]_n) (phi : f2x) (v k : nat) : Prop :=
  comp_equidist A C phi v k /\ forall k', comp_equidist A C phi v k' -> (k' <= k)%N.
