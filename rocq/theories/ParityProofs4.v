(** searchParity: the statements about the period certification vector. *)
From Coq Require Import NArith ZArith List Bool Lia.
From mathcomp Require Import all_ssreflect all_algebra.
From mathcomp Require Import zify.
From Verif Require Import Base UtilModel WordLemmas UtilProofs UtilProofs2 GenModel PolyF2 LinSpec LinLemmas PeriodModel PeriodSpec PolyAct.
From Verif Require Import PeriodProofs PeriodProofs2 PeriodProofs3 PeriodProofs4 PeriodProofs5 PeriodProofs6 PeriodProofs7.
From Verif Require Import ParityModel ParitySpec ParityProofs ParityProofs2 ParityProofs3.
Set Implicit Arguments.
Unset Strict Implicit.
Unset Printing Implicit Defensive.
Import GRing.Theory.
Local Open Scope ring_scope.
Delimit Scope Z_scope with coqZ.

Section Par.
Variables (S : Type) (G : gen_ops S) (P : par_ops S) (n : nat) (ok : S -> Prop) (abs : S -> 'rV['F_2]_n).
Variables (A : 'M['F_2]_n) (C : nat -> 'cV['F_2]_n) (pos : N -> res Z).
Variable kernel : nat -> nat -> (nat -> nat -> bool) -> list (list bool).
Variables (nb : nat) (e : nat -> 'rV['F_2]_n) (Q : nat -> 'cV['F_2]_n) (d : nat) (f : f2x) (junk : N) (fuel : nat) (g : S).
Hypothesis PS : parity_setting G P ok abs A C pos kernel nb e Q d f.
Hypothesis okg : ok g.
Hypothesis Em : p_getMexp P g = Z.of_nat d.
Notation w := (g_width G).
Notation q := (char_poly A %/ f).

Lemma spec : match searchParity G P pos kernel (Some junk) fuel g f with
  | Ret (v, g') => [/\ (0 < v)%num, (v < 2 ^ w)%num, g' = p_setParityValue P v g &
      forall s, ok s -> inner w v (p_getParityValue P s) = 1 -> pact A q (abs s) != 0]
  | Throw => forall v, (0 < v < 2 ^ w)%num -> exists2 x, pact A q x = 0 & \sum_(j < N.to_nat w) msb w v j * obit Q x j = 1
  | Undef => badbit P ok nb
  | NoFuel => ~ enough G A Q fuel
  | Exit => False
  end.
Proof.
case: PS => LG PG Hp HK w0 Au I sf [D1 D2].
exact: (search_spec LG PG Hp HK Au I sf D1 D2 junk w0 fuel okg Em).
Qed.

Lemma certifies v g' : searchParity G P pos kernel (Some junk) fuel g f = Ret (v, g') ->
  [/\ (0 < v < 2 ^ g_width G)%num, g' = p_setParityValue P v g &
    forall s, ok s -> inner (g_width G) v (p_getParityValue P s) = 1 ->
      abs s *m poly_mx A (char_poly A %/ f) != 0 /\
      (primitive f d -> forall k, abs (run G k s) = abs s -> 2 ^ d - 1 %| k)%N].
Proof.
move=> E; have := spec; rewrite E => -[v0 vw -> H]; split=> // s oks odd.
have N0 := H s oks odd; split; first by rewrite -pact_mx.
case: PS => LG PG Hp HK w0 Au I sf [D1 D2] Pf k; rewrite (run_abs LG) // => Ek.
have K := out_period I D1 Pf N0 Ek. exact: K.
Qed.

Lemma returns0 : observable A Q (g_width G) -> (n <= fuel)%N ->
  (forall s i, ok s -> (i < nb)%N -> p_setOneBit P i s <> Undef) ->
  (exists v g', searchParity G P pos kernel (Some junk) fuel g f = Ret (v, g')) \/
  searchParity G P pos kernel (Some junk) fuel g f = Throw.
Proof.
move=> Ob Hf Hb; have := spec.
case: searchParity => [[v g'] _|[s [i [oks Hi E]]]|_|//|K].
- by left; exists v, g'.
- by case: (Hb s i oks Hi).
- by right.
- by case: K.
Qed.

(** Fewer than w dimensions outside the large part leave room for a vector. *)
Lemma no_throw : (n < d + N.to_nat w)%N -> searchParity G P pos kernel (Some junk) fuel g f <> Throw.
Proof.
move=> Hn E; have := spec; rewrite E => H.
case: PS => LG PG Hp HK w0 Au I sf [D1 D2].
set W := N.to_nat w in Hn H.
pose M : 'M['F_2]_(n, W) := poly_mx A f *m Pm G Q.
have rM : (\rank M < W)%N.
  apply: leq_ltn_trans (mxrankM_maxl _ _) _; apply: leq_ltn_trans (rank_image I sf D1 D2) _.
  by rewrite ltn_psubLR //; rewrite /W; lia.
have /existsP[k Hk] : [exists k : 'I_W, row k (kermx M^T) != 0].
  apply: contraTT rM => /existsPn Hz; rewrite -leqNgt.
  have : kermx M^T == 0 by apply/eqP/row_matrixP => i; rewrite row0; apply/eqP; move: (Hz i); rewrite negbK.
  by rewrite kermx_eq0 /row_free mxrank_tr => /eqP ->.
pose y := row k (kermx M^T).
have yM : y *m M^T = 0 by rewrite -row_mul mulmx_ker row0.
have [v [vw Ev]] : exists v, (v < 2 ^ w)%num /\ wv G v = y.
  pose bs (i : nat) : bool := if insub (W - 1 - i)%N is Some o then y 0 (o : 'I_W) != 0 else false.
  have vw : (WordVec.mkw W bs < 2 ^ w)%num by have := WordVec.mkw_lt W bs; rewrite /W N2Nat.id.
  exists (WordVec.mkw W bs); split=> //; apply/rowP => j; rewrite mxE /msb.
  have Hj : (j < W)%N by [].
  have -> : (w - 1 - N.of_nat j)%num = N.of_nat (W - 1 - j) by rewrite /W in Hj *; move: Hj; clear; lia.
  rewrite WordVec.mkw_bit /bs.
  have -> : (W - 1 - (W - 1 - j))%N = j by move: Hj; clear; lia.
  have -> : (W - 1 - j <? W)%nat by move: Hj; clear; lia.
  by rewrite valK andTb; case: (eqVneq (y 0 j) 0) => [->|/f2_neq0 ->].
have v0 : (0 < v)%num.
  apply/N.neq_0_lt_0 => Ez; move/negP: Hk; apply; by rewrite -/y -Ev Ez wv0.
have [x x0 Ex] := H v (conj v0 vw).
have /submxP[z Ez] : (x <= poly_mx A f)%MS by apply/(image_ker I D1 D2).
move: Ex; rewrite (eq_bigr (fun j : 'I_W => (wv G v) 0 j * (x *m Pm G Q) 0 j)) => [|j _]; last by rewrite mxE obit_par.
have -> : \sum_(j < W) (wv G v) 0 j * (x *m Pm G Q) 0 j = ((wv G v) *m (x *m Pm G Q)^T) 0 0.
  rewrite [RHS]mxE; apply: eq_bigr => j _; congr (_ * _); by rewrite [RHS]mxE.
have -> : x *m Pm G Q = z *m M by rewrite Ez /M mulmxA.
rewrite Ev trmx_mul mulmxA.
have -> : y *m M^T *m z^T = 0 by rewrite yM mul0mx.
rewrite mxE => /eqP.
by rewrite eq_sym oner_eq0.
Qed.

Lemma returns : observable A Q (g_width G) -> (n <= fuel)%N -> (n < d + N.to_nat w)%N ->
  (forall s i, ok s -> (i < nb)%N -> p_setOneBit P i s <> Undef) ->
  exists v g', searchParity G P pos kernel (Some junk) fuel g f = Ret (v, g').
Proof. by move=> Ob Hf Hn Hb; case: (returns0 Ob Hf Hb) => // /(no_throw Hn). Qed.

Lemma throws : (forall x, exists2 s, ok s & abs s = x) ->
  searchParity G P pos kernel (Some junk) fuel g f = Throw ->
  forall v, (0 < v < 2 ^ g_width G)%num ->
  exists s, [/\ ok s, inner (g_width G) v (p_getParityValue P s) = 1 & abs s *m poly_mx A (char_poly A %/ f) = 0].
Proof.
move=> Sur E v Hv; have := spec; rewrite E => /(_ v Hv) [x x0 Ex].
have [s oks Es] := Sur x; exists s; split=> //; last by rewrite Es -pact_mx.
rewrite inner_msb -Ex; apply: eq_bigr => j _; rewrite -Es.
by rewrite (pg_parity (ps_par PS)) //; have := ltn_ord j; clear; lia.
Qed.
End Par.
