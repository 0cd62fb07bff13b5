(** Final forms of the theorems about primitivity tests and searches. *)
From Coq Require Import NArith ZArith List Bool Lia.
From mathcomp Require Import all_ssreflect all_algebra.
From mathcomp Require Import zify.
From Verif Require Import Base UtilModel GenModel PolyF2 LinSpec LinLemmas PeriodModel PeriodSpec PolyAct.
From Verif Require Import PeriodProofs PeriodProofs2 PeriodProofs3 PeriodProofs4 PeriodProofs5 PeriodProofs6.
From Verif Require Import EquiModel EquiEx.
Set Implicit Arguments.
Unset Strict Implicit.
Unset Printing Implicit Defensive.
Import GRing.Theory.
Local Open Scope ring_scope.
Delimit Scope Z_scope with coqZ.

Definition decides (prim : primitivity) (n : nat) : Prop :=
  forall f : f2x, exists b, pr_call prim (Z.of_nat n) f = Ret b /\ (b <-> primitive f n).

Lemma mersenne_decides n : prime (2 ^ n - 1) -> decides MersennePrimitivity n.
Proof.
move=> Pn f; rewrite /pr_call /= Z.eqb_sym degZ_eq; case: eqP => [sf|nf] /=; last first.
  by exists false; split=> //; split=> // -[_ /nf].
case: (irredP f) => I /=; last by exists false; split=> //; split=> // -[/I].
by exists true; split=> //; split=> // _; apply: mersenne_primitive.
Qed.

Lemma pr_list_call (f : f2x) n l : pr_call {| pr_mersenne := false; pr_primes := l |} (Z.of_nat n) f = isPrime_vec f (Z.of_nat n) l.
Proof.
rewrite /pr_call /isPrime_vec /= Z.eqb_sym; case: (_ =? _)%coqZ => //=.
by rewrite /isIrreducible; case: (irredb f).
Qed.

Lemma list_decides n l : prime_divisors (2 ^ n - 1) l -> n <> 1%N ->
  decides {| pr_mersenne := false; pr_primes := l |} n.
Proof.
move=> Hl n1 f; rewrite pr_list_call.
have nz q : List.In q l -> q <> 0%num by move=> /Hl [P _] E; move: P; rewrite E.
have [b E] := isPrime_vec_total f (Z.of_nat n) nz.
exists b; split=> //; rewrite -(isPrime_vec_iff (d := n) Hl); last by case.
by rewrite E; split=> [->|[->]].
Qed.

Lemma table_decides n (l : list (list N)) : (forall s, List.In s l -> s <> nil /\ all_digits s) ->
  prime_divisors (2 ^ n - 1) (List.map dec_value l) -> n <> 1%N ->
  exists prim, AlgorithmPrimitivity l = Ret prim /\ decides prim n.
Proof.
move=> Hs Hl n1; exists {| pr_mersenne := false; pr_primes := List.map dec_value l |}.
split; last exact: list_decides.
by rewrite /AlgorithmPrimitivity (stream_table_spec Hs).
Qed.

(** The order of X modulo a primitive polynomial. *)
Lemma primitive_dvd f d k : primitive f d -> f %| 'X^k - 1 -> (2 ^ d - 1 %| k)%N.
Proof.
move=> [I sf Hp Hk]; have [L [phi [cL H _]]] := irred_field I; rewrite !(phi_X_exp _ H) in Hp *.
set z := phi 'X in Hp *; move=> /eqP zk; set N := (2 ^ d - 1)%N in Hp Hk *.
have N0 : (0 < N)%N.
  have := irred_size I; rewrite sf ltnS => d0; rewrite /N subn_gt0.
  by rewrite -{1}(expn0 2) ltn_exp2l.
rewrite /dvdn; apply/eqP; have : z ^+ (k %% N) = 1.
  by have := zk; rewrite {1}(divn_eq k N) exprD mulnC exprM (eqP Hp) expr1n mul1r.
have := ltn_pmod k N0; case: (k %% N)%N => // j jN zj.
by have := Hk j.+1 jN; rewrite (phi_X_exp _ H) zj eqxx.
Qed.

Section Good.
Variables (n : nat) (A : 'M['F_2]_n) (D : nat -> 'cV['F_2]_n) (x : 'rV['F_2]_n) (p : nat).
Notation u := (out_seq A D x p).

Lemma good_char q : is_minpoly u q -> primitive q n -> q = char_poly A.
Proof. by move=> Hm [_ sq _ _]; apply: ccp_full => //; apply: minpoly_char Hm. Qed.
Lemma good_full : good_seq u n -> forall y, y != 0 -> full_period A y.
Proof.
case=> q Hm Hq y y0; apply: (primitive_full Hq) y0.
by rewrite (good_char Hm Hq) cayley.
Qed.
Lemma full_good : (0 < n)%N -> full_period A x -> (exists i, u i != 0) -> good_seq u n.
Proof.
move=> n0 F [i ui]; have P := full_primitive n0 F; have [I _ _ _] := P.
have [mu Hm] := out_minpoly A D x p; exists mu => //.
have := minpoly_char Hm; have [mu0 g _] := Hm.
case: (eqVneq (size mu) 1%N) => [s1|s1 D1].
  have E : mu = 1 by apply/eqP; rewrite -f2x_size1 s1.
  move: (g i); rewrite E size_poly1 big_ord1 coef1 /= mul1r addn0.
  by move/eqP; rewrite (negbTE ui).
have [_ /(_ mu s1 D1)] := I; by move/f2x_eqp => ->.
Qed.
Lemma good_ann q : (0 < n)%N -> is_minpoly u q -> primitive q n ->
  forall c, poly_mx A c = 0 <-> q %| c.
Proof.
move=> n0 Hm Hq c; have E := good_char Hm Hq; have [I _ _ _] := Hq; split=> [z|Dc].
  pose y : 'rV['F_2]_n := \row_j (j == Ordinal n0)%:R.
  have y0 : y != 0 by apply/eqP => /rowP/(_ (Ordinal n0)); rewrite !mxE eqxx.
  have fy : pact A q y = 0 by rewrite E cayley.
  rewrite -(ann_irred c I fy y0).
  by rewrite pact_mx z mulmx0.
apply/row_matrixP => i; rewrite row0 rowE -pact_mx.
by apply: pact_dvd Dc _; rewrite E cayley.
Qed.
End Good.

Section Search.
Variables (S : Type) (G : gen_ops S) (n : nat) (Th : Type) (ok : Th -> S -> Prop)
  (abs : Th -> S -> 'rV['F_2]_n) (A : Th -> 'M['F_2]_n) (C D : Th -> nat -> 'cV['F_2]_n).
Variable legal : S -> Prop.
Variable M : seq 'F_2 -> nat -> f2x.
Variables (B : Type) (setUpParam : S -> B -> res (S * B)) (one : N).
Hypothesis F : family G ok abs A C D legal setUpParam one.
Hypothesis HM : minpolyseq_spec M.

Definition low_seq (th : Th) (s : S) : nat -> 'F_2 := out_seq (A th) (D th) (abs th s) 0.
Definition not_good (th : Th) (s : S) : Prop := ~ good_seq (low_seq th s) n.
Definition no_factor (d : nat) (th : Th) (s : S) : Prop :=
  forall q f, is_minpoly (low_seq th s) q -> ~ large_factor q f d.

Lemma rejected_tried prim k r b p r' b' p' : decides prim n ->
  rejected G ok abs A D setUpParam one prim k r b p r' b' p' ->
  tried G setUpParam one n ok not_good k r b r' b'.
Proof.
move=> Hd; elim=> [{}r {}b {}p|{}k {}r {}b {}p th q r1 b1 {}r' {}b' {}p' [s [E oks -> Hm]] rj _ IH].
  exact: tried0.
apply: triedS E oks _ IH => -[q' Hm' Hq].
have {}Hm' := minpoly_unique Hm Hm'; subst q'; have [_ sq _ _] := Hq.
have [b2 [E2 Hb]] := Hd q; move: (rj sq); rewrite E2 => -[b2f].
by move: Hb; rewrite b2f => -[_ /(_ Hq)].
Qed.

Lemma search_spec prim tries o res o' : (0 < n)%N -> decides prim n -> legal (rs_rand o) ->
  rs_start G M setUpParam one prim tries o = Ret (res, o') ->
  if res then
    exists k r b s th, [/\ (k < Z.to_nat tries)%N,
      tried G setUpParam one n ok not_good k (rs_rand o) (rs_base o) r b,
      setUpParam r b = Ret (s, rs_base o') /\ ok th (g_seed G one s) &
      rs_rand o' = run G (2 * n) (g_seed G one s) /\ ok th (rs_rand o')] /\
      [/\ rs_count o' = (rs_count o + Z.of_nat k + 1)%coqZ,
        primitive (rs_poly o') n, rs_poly o' = char_poly (A th),
        forall c, poly_mx (A th) c = 0 <-> rs_poly o' %| c &
        forall x, x != 0 -> full_period (A th) x]
  else
    tried G setUpParam one n ok not_good (Z.to_nat tries) (rs_rand o) (rs_base o) (rs_rand o') (rs_base o') /\
    rs_count o' = (rs_count o + Z.of_nat (Z.to_nat tries))%coqZ.
Proof.
move=> n0 Hd lo; rewrite /rs_start (fam_size F lo).
case/(rs_loop_spec F HM lo)=> k [r [b [p [Hr Hres]]]].
have Ht := rejected_tried Hd Hr; move: Hres; case: (res).
  case=> lt [ec [th [[s [E oks rE Hm]] [sz Hp]]]].
  have [b2 [E2 Hb]] := Hd (rs_poly o'); move: E2; rewrite Hp => -[bE]; subst b2.
  have P : primitive (rs_poly o') n by apply/Hb.
  exists k, r, b, s, th; split; split=> //.
  - by split=> //; rewrite rE; apply: (PeriodProofs4.run_ok (fam_gen F th)).
  - exact: good_char Hm P.
  - exact: good_ann n0 Hm P.
  - by apply: (@good_full _ _ (D th) (abs th (g_seed G one s)) 0); exists (rs_poly o').
by case=> kE -> rE bE _; rewrite -kE -rE -bE.
Qed.

Lemma search_returns prim tries o : (forall f, exists b, pr_call prim (Z.of_nat n) f = Ret b) -> legal (rs_rand o) ->
  (forall r b, exists r', setUpParam r b = Ret r') ->
  exists r, rs_start G M setUpParam one prim tries o = Ret r.
Proof.
move=> Hp lo Hs; rewrite /rs_start (fam_size F lo).
elim: (Z.to_nat tries) o lo => [|t IH] o lo /=; first by eexists.
have [[s b] E] := Hs (rs_rand o) (rs_base o); rewrite E [bind _ _]/=.
have [th [poly [r1 [Ht Em okr]]]] := trial_step F HM lo E; rewrite Em [bind _ _]/=.
set o1 := Build_rs_state _ _ _ _; have lo1 : legal (rs_rand o1) by apply: (fam_legal F) okr.
have [b1 Eb] := Hp poly; case: (_ =? _)%coqZ; last exact: IH lo1.
by rewrite Eb [bind _ _]/=; case: (b1); [eexists | apply: IH lo1].
Qed.

(** * The reducible search *)
Lemma rejected_red_tried d k r b r' b' :
  rejected_red G ok abs A D setUpParam one d k r b r' b' ->
  tried G setUpParam one n ok (no_factor d) k r b r' b'.
Proof.
elim=> [{}r {}b|{}k {}r {}b th q r1 b1 {}r' {}b' [s [E oks -> Hm]] rj _ IH]; first exact: tried0.
by apply: triedS E oks _ IH => q' f Hm'; rewrite -(minpoly_unique Hm Hm').
Qed.

Lemma seq_period th s q f d k : ok th s -> is_minpoly (low_seq th s) q -> f %| q -> primitive f d ->
  abs th (run G k s) = abs th s -> (2 ^ d - 1 %| k)%N.
Proof.
move=> oks Hm Df Hf; rewrite (PeriodProofs4.run_abs (fam_gen F th)) // => E.
apply: primitive_dvd Hf _; apply: dvdp_trans Df _.
by case: Hm => _ _; apply; apply: out_zero; apply/eqP; rewrite -st_fix E.
Qed.

Lemma reducible_search fuel d tries o : legal (rr_rand o) -> (n < fuel)%N ->
  (forall r b, legal r -> exists r', setUpParam r b = Ret r' \/ setUpParam r b = Throw) ->
  rr_start G M setUpParam one fuel (Z.of_nat d) tries o = Throw /\ (exists r b, legal r /\ setUpParam r b = Throw) \/
  exists res o', rr_start G M setUpParam one fuel (Z.of_nat d) tries o = Ret (res, o') /\
  if res then
    exists k r b s th, [/\ (k < Z.to_nat tries)%N,
      tried G setUpParam one n ok (no_factor d) k (rr_rand o) (rr_base o) r b,
      setUpParam r b = Ret (s, rr_base o') /\ ok th (g_seed G one s) &
      rr_rand o' = run G (2 * n) (g_seed G one s) /\ ok th (rr_rand o')] /\
      [/\ rr_count o' = (rr_count o + Z.of_nat k + 1)%coqZ,
        is_minpoly (low_seq th (g_seed G one s)) (rr_poly o'),
        rr_poly o' %| char_poly (A th),
        large_factor (rr_poly o') (rr_irreducible o') d &
        prime (2 ^ d - 1) -> forall k, abs th (run G k (g_seed G one s)) = abs th (g_seed G one s) ->
          (2 ^ d - 1 %| k)%N]
  else
    tried G setUpParam one n ok (no_factor d) (Z.to_nat tries) (rr_rand o) (rr_base o) (rr_rand o') (rr_base o') /\
    rr_count o' = (rr_count o + Z.of_nat (Z.to_nat tries))%coqZ.
Proof.
move=> lo nf Hs; rewrite /rr_start.
case: (rr_loop_spec F HM d (Z.to_nat tries) lo nf Hs) => [[-> HT]|[res [o' [-> [k [r [b [Hr Hres]]]]]]]]; first by left.
right; exists res, o'; split=> //; have Ht := rejected_red_tried Hr; move: Hres; case: (res).
  case=> lt [ec [th [[s [E oks rE Hm]] HL]]].
  exists k, r, b, s, th; split; split=> //.
  - by split=> //; rewrite rE; apply: (PeriodProofs4.run_ok (fam_gen F th)).
  - exact: minpoly_char Hm.
  move=> Pd k' Ek; have [If sf [g gE _]] := HL.
  apply: (seq_period (f := rr_irreducible o') oks Hm _ _ Ek); first by rewrite gE dvdp_mulr.
  exact: mersenne_primitive.
by case=> kE -> rE bE; rewrite -kE -rE -bE.
Qed.
End Search.

(** * AlgorithmReducibleEquidistribution *)
Section Red.
Variables (S : Type) (G : gen_ops S) (M : seq 'F_2 -> nat -> f2x) (n : nat) (ok : S -> Prop)
  (abs : S -> 'rV['F_2]_n) (A : 'M['F_2]_n) (C D : nat -> 'cV['F_2]_n) (nb : nat) (pos : N -> res Z).
Hypothesis LG : linear_gen G ok abs A C.
Hypothesis LO : linear_out G ok abs D.
Hypothesis HM : minpolyseq_spec M.
Hypothesis Hsz : forall s, ok s -> g_bitSize G s = nb.
Hypothesis Hnb : (n <= nb)%N.
Hypothesis Hpos : pos_spec (g_width G) pos.

Lemma comp_span phi x v k : (forall y, in_orbit_span A x y <-> y *m poly_mx A phi = 0) ->
  comp_equidist A C phi v k <-> equidistributed A C x v k.
Proof. by move=> H; split=> E y; have [z [/H Hz Hy]] := E y; exists z. Qed.

Lemma reducible_dims s phi d L veq fuel : ok s -> A \in unitmx ->
  (forall c, (forall p, (N.of_nat p < g_width G)%num -> generates c (out_seq A D (abs s) p)) -> char_poly A %| c) ->
  irreducible_poly phi -> size phi = d.+1 -> phi %| char_poly A -> ~~ (phi ^+ 2 %| char_poly A) ->
  ((2 * n + 2 * nb + 2) * (N.to_nat (g_width G)).+1 <= fuel)%N ->
  (1 <= L)%N -> (N.of_nat L <= g_width G)%num -> (L <= length veq)%N ->
  exists s1 a' veq' sum, [/\ reducible_state G M s phi = Ret s1, ok s1, abs s1 != 0,
    get_all_equidist G pos fuel (ae_new G s1 L (Z.of_nat d)) veq = Ret (a', veq', sum) &
    forall v, (1 <= v <= L)%N -> exists k : nat, nth_error veq' (v - 1) = Some (Z.of_nat k) /\
      comp_dim A C phi v k].
Proof.
move=> oks Au full I sphi D1 D2 Hf HL1 HL2 HL3.
have [s1 [E1 ok1 y0 Hsp Hr]] := component LG LO HM Hsz Hnb oks full Au I sphi D1 D2.
have d0 : (0 < d)%N by have := irred_size I; rewrite sphi ltnS.
have Hs : [/\ linear_gen G ok abs A C, forall s, ok s -> g_bitSize G s = nb, (n <= 2 * nb + 1)%N &
      pos_spec (g_width G) pos] by split=> //; lia.
have Hfit : (\rank (krylov A (abs s1)) <= d)%N /\ (if (Z.of_nat d =? 0)%coqZ then Z.of_nat nb else Z.of_nat d) = Z.of_nat d.
  by rewrite Hr leqnn; split=> //; case: Z.eqb_spec => //; lia.
have [a' [veq' [sum [E V]]]] := dimension_thm Hs ok1 Hfit Hf HL1 HL2 HL3.
exists s1, a', veq', sum; split=> // v Hv; have [k [Ek [D3 D4]]] := V v Hv.
exists k; split=> //; split; first by apply/(comp_span _ _ Hsp).
by move=> k' /(comp_span _ _ Hsp)/D4.
Qed.
End Red.
