(** Property C31: the period certification vector (parity vector). *)
From Coq Require Import NArith ZArith List.
From mathcomp Require Import all_ssreflect all_algebra.
From Verif Require Import Base UtilModel GenModel PolyF2 LinSpec PeriodModel PeriodSpec PolyAct PeriodProofs2 PeriodProofs4 PeriodEx.
From Verif Require Import ParityModel ParitySpec ParityProofs ParityProofs2 ParityProofs3 ParityProofs4 ParityEx.
Set Implicit Arguments.
Unset Strict Implicit.
Unset Printing Implicit Defensive.
Import GRing.Theory.
Local Open Scope ring_scope.
Delimit Scope Z_scope with coqZ.

(** Conformance to the C++ standard: the two shifts by -1 make every call that
    reaches them undefined, so searchParity never returns a vector. *)
Theorem C31_strict_never (S : Type) (G : gen_ops S) (P : par_ops S) pos kernel fuel (g : S) f r :
  (0 < g_width G)%num -> searchParity G P pos kernel None fuel g f <> Ret r.
Proof. exact: search_strict. Qed.
Theorem C31_strict_refuted : exists (S : Type) (G : gen_ops S) P (n : nat) ok (abs : S -> 'rV['F_2]_n) A C pos kernel nb e Q d (f : f2x) g,
  [/\ parity_setting G P ok abs A C pos kernel nb e Q d f, ok g, p_getMexp P g = Z.of_nat d &
      searchParity G P pos kernel None 3 g f = Undef].
Proof. exact: toy_search_undef. Qed.

(** Whatever the values of these two shifts: the result is not zero, and a
    state whose parity word has odd inner product with it has a component in
    the part of the large irreducible factor f, so its period is a multiple of
    2^mexp - 1. *)
Theorem C31_certifies_partial (S : Type) (G : gen_ops S) (P : par_ops S) (n : nat) ok (abs : S -> 'rV['F_2]_n)
    A C pos kernel nb e Q d (f : f2x) junk fuel g v g' :
  parity_setting G P ok abs A C pos kernel nb e Q d f -> ok g -> p_getMexp P g = Z.of_nat d ->
  searchParity G P pos kernel (Some junk) fuel g f = Ret (v, g') ->
  [/\ (0 < v < 2 ^ g_width G)%num, g' = p_setParityValue P v g &
    forall s, ok s -> inner (g_width G) v (p_getParityValue P s) = 1 ->
      abs s *m poly_mx A (char_poly A %/ f) != 0 /\
      (primitive f d -> forall k, abs (run G k s) = abs s -> 2 ^ d - 1 %| k)%N].
Proof. move=> PS okg Em; exact: (certifies PS okg Em). Qed.

(** With fewer than w dimensions beside the large part the search ends in a
    result, within [n] silent steps per candidate, if no non-zero state has
    vanishing parity words for ever ... *)
Theorem C31_returns_partial (S : Type) (G : gen_ops S) (P : par_ops S) (n : nat) ok (abs : S -> 'rV['F_2]_n)
    A C pos kernel nb e Q d (f : f2x) junk fuel g :
  parity_setting G P ok abs A C pos kernel nb e Q d f -> ok g -> p_getMexp P g = Z.of_nat d ->
  observable A Q (g_width G) -> (n <= fuel)%N -> (n < d + N.to_nat (g_width G))%N ->
  (forall s i, ok s -> (i < nb)%N -> p_setOneBit P i s <> Undef) ->
  exists v g', searchParity G P pos kernel (Some junk) fuel g f = Ret (v, g').
Proof. move=> PS okg Em; exact: (returns junk PS okg Em). Qed.
(** ... and without this condition it may never end. *)
Theorem C31_returns_refuted : exists (P : par_ops toy) nb e Q,
  parity_setting toy_ops P (toy_ok false) (LinInst.vec_of 3 toy_bits)
    (LinInst.trans_mat 3 toy_bits (toy_mk false) toy_ops)
    (LinInst.out_col 3 (toy_mk false) (fun s j => N.testbit s.2 (2 - N.of_nat j)%num)) toy_pos brute nb e Q 2 ('X^2 + 'X + 1) /\
  forall fuel, searchParity toy_ops P toy_pos brute (Some 5%num) fuel (false, 4%num) ('X^2 + 'X + 1) = NoFuel.
Proof. exact: blind_search. Qed.

(** It throws only if no vector is a certificate. *)
Theorem C31_throw_partial (S : Type) (G : gen_ops S) (P : par_ops S) (n : nat) ok (abs : S -> 'rV['F_2]_n)
    A C pos kernel nb e Q d (f : f2x) junk fuel g :
  parity_setting G P ok abs A C pos kernel nb e Q d f -> ok g -> p_getMexp P g = Z.of_nat d ->
  (forall x, exists2 s, ok s & abs s = x) ->
  searchParity G P pos kernel (Some junk) fuel g f = Throw ->
  forall v, (0 < v < 2 ^ g_width G)%num ->
  exists s, [/\ ok s, inner (g_width G) v (p_getParityValue P s) = 1 & abs s *m poly_mx A (char_poly A %/ f) = 0].
Proof. move=> PS okg Em; exact: (throws PS okg Em). Qed.

(** The rotation of three bits: X^3+1 with the large factor X^2+X+1, Mersenne
    exponent 2; the parity vector is 011, and the states 001 and 010 (but not
    111, of period one) have odd inner product with it. *)
Example C31_toy : parity_setting toy_ops toy_par (toy_ok false) (LinInst.vec_of 3 toy_bits)
    (LinInst.trans_mat 3 toy_bits (toy_mk false) toy_ops)
    (LinInst.out_col 3 (toy_mk false) (fun s j => N.testbit s.2 (2 - N.of_nat j)%num)) toy_pos brute 3 toy_e (tC false) 2 ('X^2 + 'X + 1) /\
  [/\ toy_ok false (false, 4%num), primitive ('X^2 + 'X + 1 : f2x) 2, observable (tA false) (tC false) 3 &
   [/\ searchParity toy_ops toy_par toy_pos brute (Some 5%num) 3 (false, 4%num) ('X^2 + 'X + 1) = Ret (3%num, (false, 3%num)),
      inner 3 3 2 = 1, inner 3 3 7 = 0 & forall x, exists2 s, toy_ok false s & tabs s = x]].
Proof. exact: toy_example. Qed.
Example C31_toy_strict : searchParity toy_ops toy_par toy_pos brute None 3 (false, 4%num) ('X^2 + 'X + 1) = Undef.
Proof. exact: toy_undef. Qed.
(** With one bit of output, which is also the parity word, the state 111 of
    period one has an odd parity word, and the search throws. *)
Example C31_toy_throw : parity_setting toy1_ops toy1_par (toy_ok false) (LinInst.vec_of 3 toy_bits)
    (LinInst.trans_mat 3 toy_bits (toy_mk false) toy_ops)
    (LinInst.out_col 3 (toy_mk false) (fun s j => N.testbit s.2 (2 - N.of_nat j)%num)) toy1_pos brute 3 toy_e (tC false) 2 ('X^2 + 'X + 1) /\
  searchParity toy1_ops toy1_par toy1_pos brute (Some 5%num) 3 (false, 4%num) ('X^2 + 'X + 1) = Throw.
Proof. exact: (conj toy1_setting toy1_throw). Qed.

Print Assumptions C31_strict_never.
Print Assumptions C31_strict_refuted.
Print Assumptions C31_certifies_partial.
Print Assumptions C31_returns_partial.
Print Assumptions C31_returns_refuted.
Print Assumptions C31_throw_partial.
