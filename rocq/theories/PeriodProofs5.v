(** The recursion searches and the equidistribution of reducible generators. *)
From Coq Require Import NArith ZArith List Bool Lia.
From mathcomp Require Import all_ssreflect all_algebra.
From mathcomp Require Import zify.
From Verif Require Import Base UtilModel GenModel PolyF2 LinSpec LinLemmas PeriodModel PeriodSpec PolyAct.
From Verif Require Import PeriodProofs PeriodProofs2 PeriodProofs3 PeriodProofs4 EquiModel EquiProofs5.
Set Implicit Arguments.
Unset Strict Implicit.
Unset Printing Implicit Defensive.
Import GRing.Theory.
Local Open Scope ring_scope.
Delimit Scope Z_scope with coqZ.

Section Mat.
Variables (n : nat) (A : 'M['F_2]_n).
Implicit Types (x : 'rV['F_2]_n) (f g h : f2x).

(** The annihilator of a non-zero vector killed by an irreducible polynomial. *)
Lemma ann_irred f x g : irreducible_poly f -> pact A f x = 0 -> x != 0 ->
  (pact A g x == 0) = (f %| g).
Proof.
move=> I fx x0; apply/eqP/idP => [gx|D]; last exact: pact_dvd D fx.
apply/negPn/negP => nd; have := irred_coprime I nd.
case/Bezout_eq1_coprimepP=> [[u v]] /= E.
case/negP: x0; rewrite -(pact1 A x) -E pactD !pactM fx gx !pact_v0 addr0 //.
Qed.

Lemma st_fix k x : (st A k x == x) = (pact A ('X^k - 1) x == 0).
Proof. by rewrite pactB pactX pact1 subr_eq0. Qed.

Lemma primitive_full f x : primitive f n -> pact A f x = 0 -> x != 0 -> full_period A x.
Proof.
move=> [I sf Hp Hk] fx x0; split=> //; first by apply/eqP; rewrite st_fix (ann_irred _ I fx x0).
by move=> i /Hk; rewrite st_fix (ann_irred _ I fx x0).
Qed.

(** Conversely a maximal period makes the characteristic polynomial primitive
    (n > 0). *)
Lemma full_pact x g : full_period A x -> (size g <= n)%N -> pact A g x = 0 -> g = 0.
Proof.
move=> F sg gx; have := full_rank F => rk.
have fr : row_free (krylov A x) by rewrite /row_free rk.
have : (poly_rV g : 'rV_n) *m krylov A x = 0.
  rewrite -gx (pactE A (K := n)) //; apply/rowP=> j.
  rewrite mxE summxE; apply: eq_bigr => i _; by rewrite !mxE.
move/eqP; rewrite mulmx_free_eq0 // => /eqP E; by rewrite -[g](poly_rV_K sg) E linear0.
Qed.

Lemma full_primitive x : (0 < n)%N -> full_period A x -> primitive (char_poly A) n.
Proof.
move=> n0 F; have [x0 Hp Hk] := F; set f := char_poly A.
have sf : size f = n.+1 by rewrite size_char_poly.
have f0 : f != 0 := char_neq0 A.
have ann g : (pact A g x == 0) = (f %| g).
  apply/eqP/idP => [gx|D]; last by apply: pact_dvd D _; apply: cayley.
  have : pact A (g %% f) x = 0.
    have -> : g %% f = g - g %/ f * f by rewrite {2}(divp_eq g f) addrC addKr.
    by rewrite pactB pactM cayley pact_v0 gx subr0.
  move/(full_pact F) => H; rewrite /dvdp H //.
  by rewrite -ltnS -sf ltn_modp.
have P1 : f %| 'X^(2 ^ n - 1) - 1 by rewrite -ann -st_fix Hp.
have P2 k : (0 < k < 2 ^ n - 1)%N -> ~~ (f %| 'X^k - 1) by rewrite -ann -st_fix; apply: Hk.
split=> //; split=> [|q sq Dq]; first by rewrite sf.
have q0 : q != 0 by apply: contraNneq f0 => E; move: Dq; rewrite E dvd0p.
have s1 : (1 < size q)%N by rewrite ltn_neqAle eq_sym sq size_poly_gt0.
(* f = r q with q not constant; the vector r(A) x is not zero when r has degree < n *)
have [r rE] := dvdpP _ _ Dq.
have r0 : r != 0 by apply: contraNneq f0 => E; rewrite rE E mul0r.
have sr : (size r < n.+1)%N by rewrite -sf rE size_mul // -subn1 -addnBA ?(ltnW s1) // -{1}[size r]addn0 ltn_add2l subn_gt0.
have y0 : pact A r x != 0.
  by rewrite ann; apply/negP=> /(dvd_size r0); rewrite sf leqNgt sr.
have [i yE] := st_onto F y0.
(* the order of x equals the order of r(A) x, whose annihilator is q *)
have xq : pact A q x = 0.
  have qy : pact A q (st A i x) = 0 by rewrite -yE -pactM mulrC -rE; apply: cayley.
  have : st A (2 ^ n - 1 - i) (pact A q (st A i x)) = 0 by rewrite qy st0.
  by rewrite pact_st -st_add subnK ?Hp ?(ltnW (ltn_ord i)) // -pact_st Hp.
have Df : f %| q by rewrite -ann xq.
by rewrite /eqp Dq Df.
Qed.
End Mat.

Section Search.
Variables (S : Type) (G : gen_ops S) (n : nat) (Th : Type) (ok : Th -> S -> Prop)
  (abs : Th -> S -> 'rV['F_2]_n) (A : Th -> 'M['F_2]_n) (C D : Th -> nat -> 'cV['F_2]_n).
Variable legal : S -> Prop.
Variable M : seq 'F_2 -> nat -> f2x.
Variables (B : Type) (setUpParam : S -> B -> res (S * B)) (one : N).

(** A family of linear generators, indexed by the parameters th: whatever
    parameters setUpParam chooses, the seeded generator is linear. *)
Record family : Prop := {
  fam_gen : forall th, linear_gen G (ok th) (abs th) (A th) (C th);
  fam_out : forall th, linear_out G (ok th) (abs th) (D th);
  fam_size : forall s, legal s -> g_bitSize G s = n;
  fam_legal : forall th s, ok th s -> legal s;
  fam_setup : forall s b s' b', legal s -> setUpParam s b = Ret (s', b') ->
    exists th, ok th (g_seed G one s');
  fam_width : (0 < g_width G)%num
}.
Hypothesis F : family.
Hypothesis HM : minpolyseq_spec M.

(** One trial: parameters, seed, minimal polynomial of the lowest bit. *)
Definition trial (r : S) (b : B) (th : Th) (poly : f2x) (r' : S) (b' : B) : Prop :=
  exists s, [/\ setUpParam r b = Ret (s, b'), ok th (g_seed G one s),
    r' = run G (2 * n) (g_seed G one s) &
    is_minpoly (out_seq (A th) (D th) (abs th (g_seed G one s)) 0) poly].

Lemma trial_step r b s b' : legal r -> setUpParam r b = Ret (s, b') ->
  exists th poly r', [/\ trial r b th poly r' b', minpoly G M (g_seed G one s) 0 0 = Ret (poly, r') & ok th r'].
Proof.
move=> lr E; have [th oks] := fam_setup F lr E.
have szE : mp_size G (g_seed G one s) 0 = n by rewrite /mp_size /= (fam_size F) //; apply: fam_legal oks.
have pw : (N.of_nat 0 < g_width G)%num by exact: (fam_width F).
have [|mu [Em Hm]] := minpoly_spec (fam_gen F th) (@fam_out F th) HM (stateSize := 0) oks pw.
  by rewrite szE.
exists th, mu, (run G (2 * n) (g_seed G one s)); split.
- by exists s.
- by rewrite -szE.
- by apply: (run_ok (fam_gen F th)).
Qed.

Lemma trial_char r b th poly r' b' : trial r b th poly r' b' ->
  [/\ poly != 0, poly %| char_poly (A th) & ok th r'].
Proof.
case=> s [_ oks -> Hm]; split; first by case: Hm.
  exact: minpoly_char Hm.
by apply: (run_ok (fam_gen F th)).
Qed.

(** * AlgorithmRecursionSearch *)
Variable prim : primitivity.
(** The history of a search: k trials, from (r,b) to (r',b'), the polynomial
    of the last one (or the initial one), none of the first ones accepted. *)
Inductive rejected : nat -> S -> B -> f2x -> S -> B -> f2x -> Prop :=
| rej0 r b p : rejected 0 r b p r b p
| rejS k r b p th q r1 b1 r' b' p' :
    trial r b th q r1 b1 ->
    (size q = n.+1 -> pr_call prim (Z.of_nat n) q = Ret false) ->
    rejected k r1 b1 q r' b' p' -> rejected k.+1 r b p r' b' p'.

Lemma rs_loop_spec tries o res o' : legal (rs_rand o) ->
  rs_loop G M setUpParam one tries prim n o = Ret (res, o') ->
  exists k r b p, rejected k (rs_rand o) (rs_base o) (rs_poly o) r b p /\
    if res then (k < tries)%N /\ rs_count o' = (rs_count o + Z.of_nat k + 1)%coqZ /\
      exists th, trial r b th (rs_poly o') (rs_rand o') (rs_base o') /\ size (rs_poly o') = n.+1 /\
                 pr_call prim (Z.of_nat n) (rs_poly o') = Ret true
    else [/\ k = tries, rs_count o' = (rs_count o + Z.of_nat k)%coqZ, r = rs_rand o', b = rs_base o' & p = rs_poly o'].
Proof.
elim: tries o => [|tries IH] o lo /=.
  case=> <- <-; exists 0%N, (rs_rand o), (rs_base o), (rs_poly o); split; first exact: rej0.
  by split=> //; lia.
case E: (setUpParam (rs_rand o) (rs_base o)) => [[s b1]||||] //=.
have [th [poly [r1 [Ht Em okr]]]] := trial_step lo E; rewrite Em /=.
set o1 := Build_rs_state _ _ _ _.
have lo1 : legal (rs_rand o1) by apply: fam_legal okr.
have rec : (size poly = n.+1 -> pr_call prim (Z.of_nat n) poly = Ret false) ->
  rs_loop G M setUpParam one tries prim n o1 = Ret (res, o') -> exists k r b p,
  rejected k (rs_rand o) (rs_base o) (rs_poly o) r b p /\
    if res then (k < tries.+1)%N /\ rs_count o' = (rs_count o + Z.of_nat k + 1)%coqZ /\
      exists th, trial r b th (rs_poly o') (rs_rand o') (rs_base o') /\ size (rs_poly o') = n.+1 /\
                 pr_call prim (Z.of_nat n) (rs_poly o') = Ret true
    else [/\ k = tries.+1, rs_count o' = (rs_count o + Z.of_nat k)%coqZ, r = rs_rand o', b = rs_base o' & p = rs_poly o'].
  move=> rj /(IH o1 lo1) [k [r [b [p [Hr Hres]]]]].
  exists k.+1, r, b, p; split; first exact: rejS Ht rj Hr.
  move: Hres; rewrite /o1 /=; case: (res).
    by case=> lt [ec [th' Hth]]; split=> //; split; [rewrite ec; lia | exists th'].
  by case=> -> ec E1 E2 E3; split=> //; rewrite ec; lia.
rewrite degZ_eq; case: eqP => [sz|ns]; last by apply: rec => /ns.
case Ep: (pr_call prim (Z.of_nat n) poly) => [[|]||||] //=; last exact: rec.
case=> <- <-; exists 0%N, (rs_rand o), (rs_base o), (rs_poly o); split; first exact: rej0.
by split=> //; split; [rewrite /=; lia | exists th].
Qed.

(** * AlgorithmReducibleRecursionSearch *)
Variable d : nat.
Inductive rejected_red : nat -> S -> B -> S -> B -> Prop :=
| rrej0 r b : rejected_red 0 r b r b
| rrejS k r b th q r1 b1 r' b' :
    trial r b th q r1 b1 -> (forall f, ~ large_factor q f d) ->
    rejected_red k r1 b1 r' b' -> rejected_red k.+1 r b r' b'.

Lemma rr_loop_spec fuel tries o : legal (rr_rand o) -> (n < fuel)%N ->
  (forall r b, legal r -> exists r', setUpParam r b = Ret r' \/ setUpParam r b = Throw) ->
  rr_loop G M setUpParam one fuel tries (Z.of_nat d) o = Throw /\ (exists r b, legal r /\ setUpParam r b = Throw) \/
  exists res o', rr_loop G M setUpParam one fuel tries (Z.of_nat d) o = Ret (res, o') /\
  exists k r b, rejected_red k (rr_rand o) (rr_base o) r b /\
    if res then (k < tries)%N /\ rr_count o' = (rr_count o + Z.of_nat k + 1)%coqZ /\
      exists th, trial r b th (rr_poly o') (rr_rand o') (rr_base o') /\
                 large_factor (rr_poly o') (rr_irreducible o') d
    else [/\ k = tries, rr_count o' = (rr_count o + Z.of_nat k)%coqZ, r = rr_rand o' & b = rr_base o'].
Proof.
move=> + nf Hs; elim: tries o => [|tries IH] o lo.
  right; exists false, o; split=> //; exists 0%N, (rr_rand o), (rr_base o); split; first exact: rrej0.
  by split=> //; lia.
rewrite [rr_loop _ _ _ _ _ _ _ _]/=.
have [[s b1] [E|E]] := Hs (rr_rand o) (rr_base o) lo; rewrite E; last by left; split=> //; exists (rr_rand o), (rr_base o).
rewrite [bind _ _]/=; have [th [poly [r1 [Ht Em okr]]]] := trial_step lo E; rewrite Em [bind _ _]/=.
have rec irr : (forall f, ~ large_factor poly f d) ->
  let o1 := {| rr_rand := r1; rr_base := b1; rr_poly := poly; rr_irreducible := irr; rr_count := (rr_count o + 1)%coqZ |} in
  rr_loop G M setUpParam one fuel tries (Z.of_nat d) o1 = Throw /\ (exists r b, legal r /\ setUpParam r b = Throw) \/
  exists res o', rr_loop G M setUpParam one fuel tries (Z.of_nat d) o1 = Ret (res, o') /\
  exists k r b, rejected_red k (rr_rand o) (rr_base o) r b /\
    if res then (k < tries.+1)%N /\ rr_count o' = (rr_count o + Z.of_nat k + 1)%coqZ /\
      exists th, trial r b th (rr_poly o') (rr_rand o') (rr_base o') /\
                 large_factor (rr_poly o') (rr_irreducible o') d
    else [/\ k = tries.+1, rr_count o' = (rr_count o + Z.of_nat k)%coqZ, r = rr_rand o' & b = rr_base o'].
  move=> nl o1; case: (IH o1 (fam_legal F okr)) => [[-> HT]|[res [o' [-> [k [r [b [Hr Hres]]]]]]]]; first by left.
  right; exists res, o'; split=> //; exists k.+1, r, b; split; first exact: rrejS Ht nl Hr.
  move: Hres; rewrite /o1 /=; case: (res).
    by case=> lt [ec [th' Hth]]; split=> //; split; [rewrite ec; lia | exists th'].
  by case=> -> ec E1 E2; split=> //; rewrite ec; lia.
have [p0 pc _] := trial_char Ht.
have sp : (size poly <= fuel)%N.
  by apply: leq_trans nf; rewrite -(size_char_poly (A th)); apply: dvd_size pc; apply: char_neq0.
have [irr [b [Eh Ht1 Hf1]]] := hasFactor_spec d p0 sp.
rewrite degZ_lt; case: leqP => [le|gt].
  apply: rec => f [If sf [g gE _]].
  have fD : f %| poly by rewrite gE dvdp_mulr.
  by have := leq_trans (dvd_size p0 fD) le; rewrite sf ltnn.
rewrite Eh [bind _ _]/=; case: b Ht1 Hf1 {Eh} => [Ht1 _|_ Hf1] /=; last by apply: rec; apply: Hf1.
have L := Ht1 isT; have [_ sf _] := L.
rewrite degZ_eq sf eqxx /=; right; exists true; eexists; split; first by reflexivity.
exists 0%N, (rr_rand o), (rr_base o); split; first exact: rrej0.
by split=> //; split; [rewrite /=; lia | exists th].
Qed.
End Search.
