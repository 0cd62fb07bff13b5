(** Properties C09, C10, C20-C22, C24-C30 and C37: polynomials, periods and
    the recursion searches. *)
From Coq Require Import NArith ZArith List Bool Lia.
From mathcomp Require Import all_ssreflect all_algebra.
From Verif Require Import Base UtilModel GenModel PolyF2 LinSpec PeriodModel PeriodSpec EquiModel.
From Verif Require Import LinLemmas PolyAct PeriodProofs PeriodProofs2 PeriodProofs3 PeriodProofs4 PeriodProofs5 PeriodProofs6 PeriodProofs7 PeriodEx.
Set Implicit Arguments.
Unset Strict Implicit.
Unset Printing Implicit Defensive.
Import GRing.Theory.
Local Open Scope ring_scope.
Delimit Scope Z_scope with coqZ.

(** * C09 print_binary *)
Theorem C09_digits : forall (p : f2x) breakline, p != 0 ->
  printed_digits (print_binary p breakline) = coef_digits p.
Proof. exact print_digits_spec. Qed.
Theorem C09_injective : forall (p q : f2x) b c, print_binary p b = print_binary q c -> p = q.
Proof. exact print_inj. Qed.
Theorem C09_zero : forall b, print_binary 0 b = [:: 48; 100; 101; 103; 61; 45; 49; 10]%num.
Proof. exact print_zero. Qed.

(** * C10 LCM *)
Theorem C10_lcm : forall x y : f2x, ~~ ((x == 0) && (y == 0)) ->
  exists l, LCM x y = Ret l /\ [/\ x %| l, y %| l & forall c, x %| c -> y %| c -> l %| c].
Proof. exact LCM_spec. Qed.
Theorem C10_alias : forall out st, exists r, LCM_alias out st =
  (do l <- LCM (st VX) (st VY); Ret (r l)) /\
  forall l, r l out = l /\ forall v, v <> out -> r l v = st v.
Proof. exact LCM_alias_spec. Qed.
(** With two zero polynomials the program stops in the division. *)
Theorem C10_zero_refuted : exists x y, LCM x y = Exit.
Proof. by exists 0, 0; exact LCM_zero. Qed.

(** * C20 minpoly *)
Theorem C20_minpoly : forall S (G : gen_ops S) n ok (abs : S -> 'rV['F_2]_n) A C D M,
  linear_gen G ok abs A C -> linear_out G ok abs D -> minpolyseq_spec M ->
  forall s p stateSize, ok s -> (N.of_nat p < g_width G)%num ->
  let size := if (stateSize <=? 0)%coqZ then g_bitSize G s else Z.to_nat stateSize in
  (n <= size)%N ->
  exists mu, minpoly G M s (Z.of_nat p) stateSize = Ret (mu, iter (2 * size) (fun s => (g_generate G s).2) s) /\
             is_minpoly (out_seq A D (abs s) p) mu.
Proof. by move=> S G n ok abs A C D M H1 H2 H3; exact (minpoly_spec H1 H2 H3). Qed.
(** There is only one such polynomial. *)
Theorem C20_unique : forall u m m', is_minpoly u m -> is_minpoly u m' -> m = m'.
Proof. exact minpoly_unique. Qed.
(** A bit position outside the output word is undefined behaviour. *)
Theorem C20_position : forall S (G : gen_ops S) cnt pos s, ~ (0 <= pos < Z.of_N (g_width G))%coqZ ->
  record_bits G cnt.+1 pos s = Undef.
Proof. exact record_undef. Qed.

(** * C21 isPrime with a factor list *)
Theorem C21_decides : forall (poly : f2x) d l, prime_divisors (2 ^ d - 1) l -> (d, poly) <> (1%N, 'X) ->
  isPrime_vec poly (Z.of_nat d) l = Ret true <-> primitive poly d.
Proof. exact isPrime_vec_iff. Qed.
Theorem C21_any_list : forall poly degree l, isPrime_vec poly degree l = Ret true ->
  deg poly = degree /\ irreducible_poly poly.
Proof. exact isPrime_vec_sound. Qed.
Theorem C21_returns : forall poly d l, (forall q, List.In q l -> q <> 0%num) ->
  exists b, isPrime_vec poly d l = Ret b.
Proof. exact isPrime_vec_total. Qed.
(** The polynomial X is accepted for degree 1 although it is not primitive. *)
Theorem C21_X_refuted : exists (poly : f2x) d l, [/\ prime_divisors (2 ^ d - 1) l,
  isPrime_vec poly (Z.of_nat d) l = Ret true & ~ primitive poly d].
Proof. by exists 'X, 1%N, [::]; exact isPrime_X. Qed.

(** * C22 Mersenne exponents *)
Theorem C22_isMexp : forall d : N, (d < 2 ^ 32)%num ->
  exists b, isMexp d = Ret b /\ (b <-> List.In (Z.of_N d) (List.removelast mersenne_exponent)).
Proof. exact isMexp_iff. Qed.
(** Partial: that the entry of the table which is the degree of f is the
    exponent of a Mersenne prime is a hypothesis. *)
Theorem C22_isPrime_partial : forall f : f2x, isPrime f = Ret true -> (deg f < 2 ^ 32)%coqZ ->
  (forall e : nat, List.In (Z.of_nat e) (List.removelast mersenne_exponent) -> e = (size f).-1 -> prime (2 ^ e - 1)) ->
  primitive f (size f).-1.
Proof. exact isPrime_sound. Qed.

(** * C24 hasFactorOfDegree *)
Theorem C24_factor : forall (p : f2x) (d : nat) fuel, p != 0 -> (size p <= fuel)%N ->
  exists poly' b, [/\ hasFactorOfDegree fuel p (Z.of_nat d) = Ret (poly', b),
    b -> large_factor p poly' d & ~~ b -> forall f, ~ large_factor p f d].
Proof. exact hasFactor_spec. Qed.
Theorem C24_zero_polynomial : forall fuel d, hasFactorOfDegree fuel 0 (Z.of_nat d) = Ret (0, false).
Proof. exact hasFactor_zero. Qed.
(** With a negative degree the loop never ends. *)
Theorem C24_negative : forall (p : f2x) d, (d < 0)%coqZ -> p != 0 ->
  forall fuel, hasFactorOfDegree fuel p d = NoFuel.
Proof. by move=> p d H1 H2 fuel; exact (hasFactor_negative fuel H1 H2). Qed.
Theorem C24_terminates_refuted : exists (p : f2x) d, p != 0 /\ forall fuel, hasFactorOfDegree fuel p d = NoFuel.
Proof. by exists 1, (-1)%coqZ; split=> [|fuel]; [exact: oner_neq0 | apply: hasFactor_negative => //; exact: oner_neq0]. Qed.

(** * C25 decimal strings *)
Theorem C25_string_table : forall l, (forall s, List.In s l -> forall c, List.In c s -> (c < 128)%num) ->
  read_table l = Ret (List.map (fun s => dec_value (digit_prefix s)) l).
Proof. exact read_table_spec. Qed.
Theorem C25_digit_strings : forall s, all_digits s -> digit_prefix s = s.
Proof. exact digit_prefix_all. Qed.
Theorem C25_stream_table : forall l, (forall s, List.In s l -> s <> [::] /\ all_digits s) ->
  forall buf, List.Forall (fun c => is_space c) buf ->
  stream_table l buf = Ret (List.map dec_value l).
Proof. exact stream_table_spec. Qed.

(** * C26 primitivity tests; [decides prim n] says that the test, for degree
    n, returns, and returns true exactly for the primitive polynomials. *)
Theorem C26_mersenne : forall n, prime (2 ^ n - 1) ->
  forall f : f2x, exists b, pr_call MersennePrimitivity (Z.of_nat n) f = Ret b /\ (b <-> primitive f n).
Proof. exact mersenne_decides. Qed.
Theorem C26_table : forall n (l : list (list N)), (forall s, List.In s l -> s <> nil /\ all_digits s) ->
  prime_divisors (2 ^ n - 1) (List.map dec_value l) -> n <> 1%N ->
  exists prim, AlgorithmPrimitivity l = Ret prim /\
    forall f : f2x, exists b, pr_call prim (Z.of_nat n) f = Ret b /\ (b <-> primitive f n).
Proof. exact table_decides. Qed.

(** * C27 AlgorithmRecursionSearch *)
Section Search.
Variables (S : Type) (G : gen_ops S) (n : nat) (Th : Type) (ok : Th -> S -> Prop)
  (abs : Th -> S -> 'rV['F_2]_n) (A : Th -> 'M['F_2]_n) (C D : Th -> nat -> 'cV['F_2]_n).
Variable legal : S -> Prop.
Variable M : seq 'F_2 -> nat -> f2x.
Variables (B : Type) (setUpParam : S -> B -> res (S * B)) (one : N).

(** Each polynomial test of the search is a decision procedure, see C26. *)
Theorem C27_search : family G ok abs A C D legal setUpParam one -> minpolyseq_spec M ->
  forall prim tries o res o', (0 < n)%N -> decides prim n -> legal (rs_rand o) ->
  rs_start G M setUpParam one prim tries o = Ret (res, o') ->
  let bad th s := ~ good_seq (out_seq (A th) (D th) (abs th s) 0) n in
  if res then
    exists k r b s th, [/\ (k < Z.to_nat tries)%N,
      tried G setUpParam one n ok bad k (rs_rand o) (rs_base o) r b,
      setUpParam r b = Ret (s, rs_base o') /\ ok th (g_seed G one s) &
      rs_rand o' = iter (2 * n) (fun s => (g_generate G s).2) (g_seed G one s) /\ ok th (rs_rand o')] /\
      [/\ rs_count o' = (rs_count o + Z.of_nat k + 1)%coqZ,
        primitive (rs_poly o') n, rs_poly o' = char_poly (A th),
        forall c, poly_mx (A th) c = 0 <-> rs_poly o' %| c &
        forall x, x != 0 -> full_period (A th) x]
  else
    tried G setUpParam one n ok bad (Z.to_nat tries) (rs_rand o) (rs_base o) (rs_rand o') (rs_base o') /\
    rs_count o' = (rs_count o + Z.of_nat (Z.to_nat tries))%coqZ.
Proof. exact (@search_spec S G n Th ok abs A C D legal M B setUpParam one). Qed.
(** The search returns when the tests and setUpParam do. *)
Theorem C27_returns : family G ok abs A C D legal setUpParam one -> minpolyseq_spec M ->
  forall prim tries o, (forall f, exists b, pr_call prim (Z.of_nat n) f = Ret b) -> legal (rs_rand o) ->
  (forall r b, exists r', setUpParam r b = Ret r') ->
  exists r, rs_start G M setUpParam one prim tries o = Ret r.
Proof. exact (@search_returns S G n Th ok abs A C D legal M B setUpParam one). Qed.

(** * C28 AlgorithmReducibleRecursionSearch *)
Theorem C28_search : family G ok abs A C D legal setUpParam one -> minpolyseq_spec M ->
  forall fuel d tries o, legal (rr_rand o) -> (n < fuel)%N ->
  (forall r b, legal r -> exists r', setUpParam r b = Ret r' \/ setUpParam r b = Throw) ->
  let low th s := out_seq (A th) (D th) (abs th s) 0 in
  let no_large th s := forall q f, is_minpoly (low th s) q -> ~ large_factor q f d in
  rr_start G M setUpParam one fuel (Z.of_nat d) tries o = Throw /\ (exists r b, legal r /\ setUpParam r b = Throw) \/
  exists res o', rr_start G M setUpParam one fuel (Z.of_nat d) tries o = Ret (res, o') /\
  if res then
    exists k r b s th, [/\ (k < Z.to_nat tries)%N,
      tried G setUpParam one n ok no_large k (rr_rand o) (rr_base o) r b,
      setUpParam r b = Ret (s, rr_base o') /\ ok th (g_seed G one s) &
      rr_rand o' = iter (2 * n) (fun s => (g_generate G s).2) (g_seed G one s) /\ ok th (rr_rand o')] /\
      [/\ rr_count o' = (rr_count o + Z.of_nat k + 1)%coqZ,
        is_minpoly (low th (g_seed G one s)) (rr_poly o'),
        rr_poly o' %| char_poly (A th),
        large_factor (rr_poly o') (rr_irreducible o') d &
        prime (2 ^ d - 1) -> forall k,
          abs th (iter k (fun s => (g_generate G s).2) (g_seed G one s)) = abs th (g_seed G one s) ->
          (2 ^ d - 1 %| k)%N]
  else
    tried G setUpParam one n ok no_large (Z.to_nat tries) (rr_rand o) (rr_base o) (rr_rand o') (rr_base o') /\
    rr_count o' = (rr_count o + Z.of_nat (Z.to_nat tries))%coqZ.
Proof. exact (@reducible_search S G n Th ok abs A C D legal M B setUpParam one). Qed.
End Search.

(** What [good_seq] means: a parameter set with maximal period whose seeded
    state shows in the lowest bit is accepted, and only parameter sets of
    maximal period are. *)
Theorem C27_good_full : forall n (A : 'M['F_2]_n) D x p, good_seq (out_seq A D x p) n ->
  forall y, y != 0 -> full_period A y.
Proof. exact good_full. Qed.
Theorem C27_full_good : forall n (A : 'M['F_2]_n) D x p, (0 < n)%N -> full_period A x ->
  (exists i, out_seq A D x p i != 0) -> good_seq (out_seq A D x p) n.
Proof. exact full_good. Qed.

(** * C29 annihilate *)
Theorem C29_annihilate : forall S (G : gen_ops S) n ok (abs : S -> 'rV['F_2]_n) A C,
  linear_gen G ok abs A C -> forall s p, ok s ->
  ok (annihilate G s p) /\ abs (annihilate G s p) = abs s *m poly_mx A p.
Proof.
move=> S G n ok abs A C LG s p oks; have [H1 H2] := annihilate_spec LG p oks.
by rewrite H2 pact_mx.
Qed.
Theorem C29_annihilating : forall S (G : gen_ops S) n ok (abs : S -> 'rV['F_2]_n) A C,
  linear_gen G ok abs A C -> forall s p, ok s -> char_poly A %| p -> abs (annihilate G s p) = 0.
Proof.
move=> S G n ok abs A C LG s p oks D; have [H1 ->] := annihilate_spec LG p oks.
by apply: pact_dvd D _; exact: cayley.
Qed.
Theorem C29_compose : forall S (G : gen_ops S) n ok (abs : S -> 'rV['F_2]_n) A C,
  linear_gen G ok abs A C -> forall s p q, ok s ->
  abs (annihilate G (annihilate G s p) q) = abs (annihilate G s (q * p)).
Proof.
move=> S G n ok abs A C LG s p q oks; have [H1 H2] := annihilate_spec LG p oks.
have [_ ->] := annihilate_spec LG q H1; have [_ ->] := annihilate_spec LG (q * p) oks.
by rewrite H2 pactM.
Qed.

(** * C30 calcCharacteristicPolynomial; L is the polynomial passed in (1 in
    the code).  The result annihilates every bit sequence from the state
    reached, divides the characteristic polynomial of the transition, and
    divides whatever else annihilates the output. *)
Theorem C30_charpoly : forall S (G : gen_ops S) n ok (abs : S -> 'rV['F_2]_n) A C D M,
  linear_gen G ok abs A C -> linear_out G ok abs D -> minpolyseq_spec M ->
  forall nb, (forall s, ok s -> g_bitSize G s = nb) -> (n <= nb)%N ->
  forall s L, ok s -> L != 0 ->
  exists L' k, [/\ calcCharacteristicPolynomial G M s L = Ret (L', iter k (fun s => (g_generate G s).2) s),
    L %| L', L' != 0, L %| char_poly A -> L' %| char_poly A &
    (L %| char_poly A -> forall p, (N.of_nat p < g_width G)%num ->
       generates L' (out_seq A D (abs (iter k (fun s => (g_generate G s).2) s)) p)) /\
    (forall c, L %| c -> (forall p, (N.of_nat p < g_width G)%num -> generates c (out_seq A D (abs s) p)) -> L' %| c)].
Proof. by move=> S G n ok abs A C D M H1 H2 H3 nb H4 H5; exact (ccp_spec H1 H2 H3 H4 H5). Qed.
Theorem C30_full_degree : forall n (A : 'M['F_2]_n) (L : f2x), L %| char_poly A -> size L = n.+1 -> L = char_poly A.
Proof. exact ccp_full. Qed.

(** * C37 AlgorithmReducibleEquidistribution *)
Section Red.
Variables (S : Type) (G : gen_ops S) (M : seq 'F_2 -> nat -> f2x) (n : nat) (ok : S -> Prop)
  (abs : S -> 'rV['F_2]_n) (A : 'M['F_2]_n) (C D : nat -> 'cV['F_2]_n) (nb : nat) (pos : N -> res Z).
Definition red_setting : Prop :=
  [/\ linear_gen G ok abs A C, linear_out G ok abs D, minpolyseq_spec M &
      [/\ forall s, ok s -> g_bitSize G s = nb, (n <= nb)%N & pos_spec (g_width G) pos]].
(** The outputs from s have full linear complexity. *)
Definition full_complexity (s : S) : Prop :=
  forall c, (forall p, (N.of_nat p < g_width G)%num -> generates c (out_seq A D (abs s) p)) -> char_poly A %| c.

Theorem C37_component : red_setting -> forall s phi d L veq fuel,
  ok s -> A \in unitmx -> full_complexity s ->
  irreducible_poly phi -> size phi = d.+1 -> phi %| char_poly A -> ~~ (phi ^+ 2 %| char_poly A) ->
  ((2 * n + 2 * nb + 2) * (N.to_nat (g_width G)).+1 <= fuel)%N ->
  (1 <= L)%N -> (N.of_nat L <= g_width G)%num -> (L <= length veq)%N ->
  exists s1 a' veq' sum, [/\ reducible_state G M s phi = Ret s1, ok s1, abs s1 != 0,
    get_all_equidist G pos fuel (ae_new G s1 L (Z.of_nat d)) veq = Ret (a', veq', sum) &
    forall v, (1 <= v <= L)%N -> exists k : nat, nth_error veq' (v - 1) = Some (Z.of_nat k) /\
      comp_dim A C phi v k].
Proof. case=> H1 H2 H3 [H4 H5 H6]; exact (reducible_dims H1 H2 H3 H4 H5 H6). Qed.
(** In general: the state handed to AlgorithmEquidistribution, and phi
    annihilates all its outputs. *)
Theorem C37_state : red_setting -> forall s (phi : f2x), ok s -> phi != 0 ->
  exists L k s1, [/\ calcCharacteristicPolynomial G M s 1 = Ret (L, iter k (fun s => (g_generate G s).2) s),
    reducible_state G M s phi = Ret s1, ok s1,
    abs s1 = st A k (abs s) *m poly_mx A (L %/ phi) &
    phi %| L -> forall p, (N.of_nat p < g_width G)%num -> generates phi (out_seq A D (abs s1) p)].
Proof.
case=> H1 H2 H3 [H4 H5 H6] s phi oks p0.
have [L [k [s1 [E1 E2 E3 E4 E5]]]] := reducible_spec H1 H2 H3 H4 H5 oks p0.
by exists L, k, s1; split=> //; rewrite E4 pact_mx.
Qed.
End Red.

(** * Examples *)
(** MinPolySeq as documented exists. *)
Example minpolyseq_exists : minpolyseq_spec mps.
Proof. exact mps_spec. Qed.
(** A three-bit generator with two parameter sets is a family ... *)
Example toy_is_family : family toy_ops toy_ok (fun _ => LinInst.vec_of 3 toy_bits)
  (fun th => LinInst.trans_mat 3 toy_bits (toy_mk th) toy_ops)
  (fun th => LinInst.out_col 3 (toy_mk th) (fun s j => N.testbit s.2 (2 - N.of_nat j)%num)) tD
  (fun s => (s.2 < 8)%num) toy_setUp 1.
Proof. exact toy_family. Qed.
(** ... whose search rejects the first and accepts the second parameter set ... *)
Example toy_search_run : rs_start toy_ops mps toy_setUp 1 MersennePrimitivity 5 toy_start =
  Ret (true, Build_rs_state (iter 6 (fun s => (g_generate toy_ops s).2) (true, 1%num)) 2%num ('X^3 + 'X + 1 : f2x) 2%coqZ).
Proof. exact toy_search. Qed.
Example toy_prime : prime (2 ^ 3 - 1). Proof. by []. Qed.
(** ... and whose reducible search finds X^2+X+1 in X^3+1. *)
Example toy_red_run : rr_start toy_ops mps toy_setUp 1 5 2 5 toy_start_red =
  Ret (true, Build_rr_state (iter 6 (fun s => (g_generate toy_ops s).2) (false, 1%num)) 1%num
    ('X^3 + 1 : f2x) ('X^2 + 'X + 1 : f2x) 1%coqZ).
Proof. exact toy_red_search. Qed.
Example toy_has_factor : hasFactorOfDegree 5 ('X^3 + 1 : f2x) 2 = Ret ('X^2 + 'X + 1 : f2x, true).
Proof. exact toy_factor. Qed.
Example toy_primitive : primitive ('X^3 + 'X + 1 : f2x) 3 /\ prime_divisors (2 ^ 3 - 1) [:: 7%num].
Proof.
split; first exact lfsr_primitive.
move=> q; split=> [[<-|[]]//|[P]]; rewrite (dvdn_prime2 P (isT : prime 7)) => /eqP E; left.
by rewrite -[q]N2Nat.id E.
Qed.
(** The component of the rotation for C37. *)
Example toy_component : red_setting toy_ops mps (toy_ok false) (LinInst.vec_of 3 toy_bits)
    (LinInst.trans_mat 3 toy_bits (toy_mk false) toy_ops)
    (LinInst.out_col 3 (toy_mk false) (fun s j => N.testbit s.2 (2 - N.of_nat j)%num)) (tD false) 3
    toy_pos /\
  [/\ toy_ok false (toy_one false), LinInst.trans_mat 3 toy_bits (toy_mk false) toy_ops \in unitmx,
      full_complexity toy_ops (LinInst.vec_of 3 toy_bits)
        (LinInst.trans_mat 3 toy_bits (toy_mk false) toy_ops) (tD false) (toy_one false),
      irreducible_poly ('X^2 + 'X + 1 : f2x) &
      ('X^2 + 'X + 1 : f2x) %| char_poly (LinInst.trans_mat 3 toy_bits (toy_mk false) toy_ops) /\
      ~~ (('X^2 + 'X + 1 : f2x) ^+ 2 %| char_poly (LinInst.trans_mat 3 toy_bits (toy_mk false) toy_ops))].
Proof.
split; first by split; [exact: toy_lin | exact: toy_out | exact: mps_spec | split=> //; exact: toy_pos_spec].
split; [by [] | exact: toy_unit | exact: toy_full | exact: quad_irred | split; [exact: toy_quad | exact: toy_quad2]].
Qed.
Example print_example : print_binary ('X^3 + 1 : f2x) false = [:: 49; 48; 48; 49; 100; 101; 103; 61; 51; 10]%num.
Proof. exact print_rot. Qed.
Example string_example : read_table [:: [:: 51; 53; 120; 49]%num; [:: 54]%num] = Ret [:: 35; 6]%num.
Proof. by []. Qed.
Example stream_example : stream_table [:: [:: 51; 53]%num; [:: 54]%num] [::] = Ret [:: 35; 6]%num.
Proof. by []. Qed.

Print Assumptions C09_digits.
Print Assumptions C09_injective.
Print Assumptions C10_lcm.
Print Assumptions C10_alias.
Print Assumptions C20_minpoly.
Print Assumptions C21_decides.
Print Assumptions C21_any_list.
Print Assumptions C24_factor.
Print Assumptions C25_string_table.
Print Assumptions C25_stream_table.
Print Assumptions C26_mersenne.
Print Assumptions C26_table.
Print Assumptions C27_search.
Print Assumptions C27_returns.
Print Assumptions C28_search.
Print Assumptions C29_annihilate.
Print Assumptions C30_charpoly.
Print Assumptions C37_component.
Print Assumptions C37_state.
Print Assumptions C09_zero.
Print Assumptions C10_zero_refuted.
Print Assumptions C20_unique.
Print Assumptions C20_position.
Print Assumptions C21_returns.
Print Assumptions C21_X_refuted.
Print Assumptions C22_isMexp.
Print Assumptions C22_isPrime_partial.
Print Assumptions C24_zero_polynomial.
Print Assumptions C24_negative.
Print Assumptions C24_terminates_refuted.
Print Assumptions C25_digit_strings.
Print Assumptions C27_good_full.
Print Assumptions C27_full_good.
Print Assumptions C29_annihilating.
Print Assumptions C29_compose.
Print Assumptions C30_full_degree.
