(** getLCMPoly and anni on a linear generator with invertible transition. *)
From Coq Require Import NArith ZArith List Bool Lia.
From mathcomp Require Import all_ssreflect all_algebra.
From mathcomp Require Import zify.
From Verif Require Import Base UtilModel GenModel PolyF2 LinSpec LinLemmas PeriodModel PeriodSpec PolyAct PeriodProofs PeriodProofs2
  PeriodProofs3 PeriodProofs4 PeriodProofs5 PeriodProofs7 ParityModel ParitySpec AnniModel.
Set Implicit Arguments.
Unset Strict Implicit.
Unset Printing Implicit Defensive.
Import GRing.Theory.
Local Open Scope ring_scope.
Delimit Scope Z_scope with coqZ.

Section Anni.
Variables (S : Type) (G : gen_ops S) (P : par_ops S) (n : nat) (ok : S -> Prop) (abs : S -> 'rV['F_2]_n)
  (A : 'M['F_2]_n) (C D : nat -> 'cV['F_2]_n) (nb : nat) (e : nat -> 'rV['F_2]_n) (Q : nat -> 'cV['F_2]_n).
Variable M : seq 'F_2 -> nat -> f2x.
Hypothesis LG : linear_gen G ok abs A C.
Hypothesis LO : linear_out G ok abs D.
Hypothesis PG : parity_gen G P ok abs nb e Q.
Hypothesis HM : minpolyseq_spec M.
Hypothesis UA : A \in unitmx.
Hypothesis H1B : forall s i, ok s -> (i < nb)%N -> exists s', p_setOneBit P i s = Ret s' /\ ok s' /\ abs s' = e i.
Hypothesis Hw : g_width G = 128%num.
Notation run := (run G).

Lemma nb_n : (n <= nb)%N.
Proof. have := pg_full PG; rewrite /row_full => /eqP <-; exact: rank_leq_row. Qed.
Lemma nbE s : ok s -> g_bitSize G s = nb.
Proof. exact: (pg_bitSize PG). Qed.

(** Bit p of the parity word, from the least significant. *)
Definition par_col (p : nat) : 'cV['F_2]_n := Q (127 - p)%N.
Lemma par_bit s p : ok s -> (p < 128)%N -> (N.testbit (p_getParityValue P s) (N.of_nat p))%:R = (abs s *m par_col p) 0 0 :> 'F_2.
Proof.
move=> H pw; have := @pg_parity _ _ _ _ _ _ _ _ _ PG s (127 - p)%N H; rewrite Hw => E.
have pq : (N.of_nat (127 - p) < 128)%num by clear -pw; lia.
rewrite -[RHS]/(obit Q (abs s) (127 - p)) -(E pq) /msb; congr ((N.testbit _ _)%:R); by clear -pw; lia.
Qed.

Lemma shift_gen k x h c p : generates h (out_seq A c (st A k x) p) <-> generates h (out_seq A c x p).
Proof.
split; first exact: out_back.
move=> /out_generates g; apply/out_generates => i; rewrite pact_st -st_add; exact: g.
Qed.
Lemma shift_min k x m c p : is_minpoly (out_seq A c (st A k x) p) m <-> is_minpoly (out_seq A c x p) m.
Proof.
split=> -[m0 g1 g2]; split=> //; try (by apply/(shift_gen k)).
- by move=> h /(shift_gen k); apply: g2.
- by move=> h /(shift_gen k); apply: g2.
Qed.

Lemma lung_spec cnt p s : ok s -> (p < 128)%N ->
  lung_bits G P cnt (Z.of_nat p) s = Ret (mkseq (out_seq A par_col (st A 1 (abs s)) p) cnt, run cnt s).
Proof.
move=> H pw; elim: cnt s H => [|cnt IH] s H; first by [].
rewrite [lung_bits _ _ _ _ _]/=; set s' := (g_generate G s).2.
have ok' : ok s' := lin_generate_ok LG H.
rewrite -nat_N_Z bit_spec ?Hw; last by lia.
rewrite [bind _ _]/= nat_N_Z IH // [bind _ _]/= runSr -/s' mkseq_cons.
have E : abs s' = st A 1 (abs s) by rewrite /s' (lin_generate_abs LG).
congr (Ret (_ :: _, _)).
  rewrite /out_seq -[st A 0 _]/(st A 1 (abs s)) -E -par_bit //; by case: N.testbit.
by rewrite E; apply: eq_map => i /=; rewrite /out_seq -stSr.
Qed.

Lemma lung_min s p : ok s -> (p < 128)%N ->
  exists mu, minPolyLung G P M s (Z.of_nat p) = Ret (mu, run (2 * nb) s) /\ is_minpoly (out_seq A par_col (abs s) p) mu.
Proof.
move=> H pw; rewrite /minPolyLung nbE // lung_spec //.
eexists; split; first by reflexivity.
apply/(shift_min 1). apply: (HM (h := char_poly A)); first exact: char_neq0.
  by rewrite size_char_poly; exact: nb_n.
exact: out_char.
Qed.
Lemma out_min s : ok s ->
  exists mu, minpoly G M s 0 0 = Ret (mu, run (2 * nb) s) /\ is_minpoly (out_seq A D (abs s) 0) mu.
Proof.
move=> H. have p0 : (N.of_nat 0 < g_width G)%num by rewrite Hw.
have := @minpoly_spec _ _ _ _ _ _ _ _ LG LO _ HM s 0%N 0%coqZ H p0. rewrite /mp_size /= nbE // => /(_ nb_n). exact.
Qed.

Lemma lcm_step (L mu : f2x) : L != 0 -> mu != 0 ->
  exists l, [/\ LCM L mu = Ret l, l != 0, L %| l, mu %| l & forall c, L %| c -> mu %| c -> l %| c].
Proof.
move=> L0 m0; have [|l [E _]] := @LCM_spec L mu; first by rewrite (negPf L0).
have [D1 D2 D3 D4] := lcm_ret E L0; exists l; split=> //.
by case: D3 => // Z; rewrite Z eqxx in m0.
Qed.

Lemma lungLCM_spec cnt i s L : ok s -> L != 0 -> (i + cnt <= 128)%N ->
  exists L' k, [/\ lungLCM_loop G P M cnt i s L = Ret (L', run k s), L' != 0, L %| L',
    forall p, (i <= p < i + cnt)%N -> generates L' (out_seq A par_col (abs s) p) &
    forall c, L %| c -> (forall p, (i <= p < i + cnt)%N -> generates c (out_seq A par_col (abs s) p)) -> L' %| c].
Proof.
elim: cnt i s L => [|cnt IH] i s L H L0 le.
  by exists L, 0%N; split=> // p; rewrite addn0; case: leqP => //= H1 H2; have := leq_ltn_trans H1 H2; rewrite ltnn.
rewrite [lungLCM_loop _ _ _ _ _ _ _]/=.
have ip : (i < 128)%N by apply: leq_trans le; rewrite addnS ltnS leq_addr.
have [mu [-> Hm]] := lung_min H ip. rewrite [bind _ _]/=. have [m0 g1 g2] := Hm.
have [l [-> l0 Dl Dm Dc]] := lcm_step L0 m0. rewrite [bind _ _]/=.
have okr : ok (run (2 * nb) s) := run_ok LG _ H.
have le' : (i.+1 + cnt <= 128)%N by rewrite addSnnS.
have [L' [k [E L'0 D1 G1 C1]]] := IH i.+1 _ l okr l0 le'.
exists L', (k + 2 * nb)%N; split=> //.
- by rewrite E /PeriodProofs4.run iterD.
- exact: dvdp_trans D1.
- move=> p /andP[p1 p2]. have [->|ne] := eqVneq p i.
    by apply: gen_dvd g1; apply: dvdp_trans D1.
  have := G1 p; rewrite (run_abs LG) // => /(_ _) /shift_gen; apply. by rewrite ltn_neqAle eq_sym ne p1 addSnnS.
- move=> c Lc gc; apply: C1.
    by apply: Dc => //; apply: g2; apply: gc; rewrite leqnn addnS ltnS leq_addr.
  move=> p /andP[p1 p2]; rewrite (run_abs LG) //; apply/shift_gen; apply: gc.
  by rewrite (ltnW p1) -addSnnS.
Qed.

Section Units.
Variables (mp : S -> res (f2x * S)) (c0 : nat -> 'cV['F_2]_n) (p0 : nat).
Hypothesis Hmp : forall s, ok s -> exists mu s', mp s = Ret (mu, s') /\ ok s' /\ is_minpoly (out_seq A c0 (abs s) p0) mu.
Lemma gen_units h : (forall j, (j < nb)%N -> generates h (out_seq A c0 (e j) p0)) -> forall x, generates h (out_seq A c0 x p0).
Proof.
move=> H x; apply/out_generates => i.
have /submxP [y ->] : (x <= \matrix_(j < nb) e j)%MS by apply: submx_full; exact: (pg_full PG).
rewrite [y *m _]mulmx_sum_row; set T := \matrix_(j < nb) e j.
have -> : pact A h (\sum_j y 0 j *: row j T) = \sum_j y 0 j *: pact A h (row j T).
  by rewrite -[LHS]/(pact A h _) -pact_sum; apply: eq_bigr => j _; rewrite pact_vZ.
rewrite st_sum mulmx_suml summxE big1 // => j _.
rewrite rowK stZ -scalemxAl mxE; have /out_generates -> := H j (ltn_ord j); by rewrite mulr0.
Qed.
Lemma unit_spec cnt i s L : ok s -> L != 0 -> (i + cnt = nb)%N ->
  (forall j, (j < i)%N -> generates L (out_seq A c0 (e j) p0)) ->
  exists L', [/\ unit_loop P mp cnt i nb s L = Ret L', L' != 0, L %| L',
    L %| char_poly A -> forall x, generates L' (out_seq A c0 x p0) &
    forall c, L %| c -> (forall x, generates c (out_seq A c0 x p0)) -> L' %| c].
Proof.
elim: cnt i s L => [|cnt IH] i s L H L0 le Hg.
  exists L; split=> // _. apply: gen_units => j; rewrite -le addn0; exact: Hg.
rewrite [unit_loop _ _ _ _ _ _ _]/=.
have ip : (i < nb)%N by rewrite -le addnS ltnS leq_addr.
have [s1 [-> [ok1 E1]]] := H1B H ip. rewrite [bind _ _]/=.
have [mu [s2 [-> [ok2 Hm]]]] := Hmp ok1. rewrite [bind _ _]/=. have [m0 g1 g2] := Hm.
have [l [-> l0 Dl Dm Dc]] := lcm_step L0 m0. rewrite [bind _ _]/= degZ_eq.
have gl j : (j < i.+1)%N -> generates l (out_seq A c0 (e j) p0).
  rewrite ltnS leq_eqVlt => /orP[/eqP ->|/Hg]; last exact: gen_dvd.
  by rewrite -E1; apply: gen_dvd g1.
case: eqP => [sl|_].
  exists l; split=> // [LA x|c Lc gc].
  - have lA : l %| char_poly A by apply: Dc => //; apply: g2; exact: out_char.
    have nE : n = nb.
      apply/eqP; rewrite eqn_leq nb_n /=. have := dvdp_leq (char_neq0 A) lA. by rewrite sl size_char_poly.
    have -> : l = char_poly A by apply: ccp_full => //; rewrite sl nE.
    exact: out_char.
  - by apply: Dc => //; apply: g2; exact: gc.
have le' : (i.+1 + cnt = nb)%N by rewrite addSnnS.
have [L' [E L'0 D1 G1 C1]] := IH i.+1 s2 l ok2 l0 le' gl.
exists L'; split=> //.
- exact: dvdp_trans D1.
- by move=> LA x; apply: G1; apply: Dc => //; apply: g2; exact: out_char.
- by move=> c Lc gc; apply: C1 => //; apply: Dc => //; apply: g2; exact: gc.
Qed.
End Units.

(** * getLCMPoly *)
Lemma gen_par x h : observable A Q 128 -> (forall p, (p < 128)%N -> generates h (out_seq A par_col x p)) -> pact A h x = 0.
Proof.
move=> OB H; apply: OB => i j Hj. have j1 : (127 - j < 128)%N by clear; lia.
have /out_generates/(_ i) := H _ j1. by rewrite /par_col /obit; have -> : (127 - (127 - j) = j)%N by clear -Hj; lia.
Qed.
Lemma lcm_d_spec l s : ok s -> l != 0 -> exists L, [/\ getLCMPoly_d G P M l s = Ret L, L != 0, l %| L,
    l %| char_poly A -> [/\ L %| char_poly A,
      (forall p, (p < 128)%N -> generates L (out_seq A par_col (abs s) p)) & forall x, generates L (out_seq A par_col x 0)] &
    forall c, l %| c -> (forall p, (p < 128)%N -> generates c (out_seq A par_col (abs s) p)) ->
      (forall x, generates c (out_seq A par_col x 0)) -> L %| c].
Proof.
move=> H l0. rewrite /getLCMPoly_d /lungLCM.
have le : (0 + N.to_nat 128 <= 128)%N by rewrite add0n -[N.to_nat 128]/128%N.
have [L1 [k [E1 L10 D1 G1 C1]]] := lungLCM_spec H l0 le. rewrite E1 [bind _ _]/=.
have okr : ok (run k s) := run_ok LG _ H. rewrite nbE //.
have Hmp t : ok t -> exists mu t', minPolyLung G P M t 0 = Ret (mu, t') /\ ok t' /\ is_minpoly (out_seq A par_col (abs t) 0) mu.
  move=> okt; have [mu [E Hm]] := @lung_min t 0%N okt isT. exists mu, (run (2 * nb) t); split; [exact E|split; [exact: (run_ok LG _ okt)|exact Hm]].
have [|L [E L0 D2 G2 C2]] := @unit_spec _ par_col 0%N Hmp nb 0 (run k s) L1 okr L10 (add0n nb); first by move=> j; rewrite ltn0.
have c1 : l %| char_poly A -> L1 %| char_poly A by move=> lc; apply: C1 => // p _; exact: out_char.
exists L; split=> //.
- exact: dvdp_trans D2.
- move=> lc; split.
  + by apply: C2; [exact: c1|move=> x; exact: out_char].
  + by move=> p Hp; apply: gen_dvd D2 _; apply: G1; rewrite add0n.
  + exact: G2 (c1 lc).
- move=> c lc gc gx; apply: C2 => //. exact: C1.
Qed.

(** * anni *)
Variable d : nat.
Hypothesis Hd : (n < 2 * d)%N.
Notation low s := (out_seq A D (abs s) 0).

(** What anni achieves, from the state s with the polynomial mu of the lowest output bit. *)
Definition annihilated (s s' : S) : Prop :=
  exists mu f, [/\ is_minpoly (low s) mu, large_factor mu f d, abs s' != 0 & abs s' *m poly_mx A f = 0].

Lemma quotient_spec s k mu f L : ok s -> is_minpoly (low s) mu -> large_factor mu f d -> mu %| L -> L %| char_poly A ->
  pact A L (abs s) = 0 ->
  let s3 := annihilate G (run k s) (L %/ f) in ok s3 /\ annihilated s (run (2 * nb) s3).
Proof.
move=> H Hm Hf mL LA LK s3. have [If sf [g mE Hg]] := Hf. have okr : ok (run k s) := run_ok LG _ H.
have f0 : f != 0 by rewrite -size_poly_eq0 sf.
have fm : f %| mu by rewrite mE dvdp_mulr.
have fL : f %| L by apply: dvdp_trans mL.
have [K1 K2] := annihilate_spec LG (L %/ f) okr. split; first exact: K1.
exists mu, f; split=> //; rewrite (run_abs LG) // K2 (run_abs LG) // pact_st -st_add.
- apply/eqP => Z.
  have Z2 : pact A (L %/ f) (st A (2 * nb + k) (abs s)) = 0 by rewrite pact_st.
  have gq : generates (L %/ f) (low s) by apply/(shift_gen (2 * nb + k)); apply: out_zero.
  have mq : mu %| L %/ f by case: Hm => _ _; apply.
  have f2 : f * f %| char_poly A.
    apply: dvdp_trans LA. rewrite -[L in _ %| L](divpK fL). rewrite dvdp_mul2r //.
    exact: dvdp_trans mq.
  have := dvdp_leq (char_neq0 A) f2. rewrite size_char_poly size_mul // sf.
  by move: Hd; clear; lia.
- rewrite -pact_mx pact_st -pactM mulrC divpK // LK. elim: (_ + _)%N => //= m IH. by rewrite IH mul0mx.
Qed.

Lemma anni_period s s' : annihilated s s' -> prime (2 ^ d - 1) -> ok s' -> forall k, abs (run k s') = abs s' <-> (2 ^ d - 1 %| k)%N.
Proof.
move=> [mu [f [_ [If sf _] x0 Kf]]] Hp oks k. rewrite (run_abs LG) //. rewrite -pact_mx in Kf.
have Pf := mersenne_primitive If sf Hp.
have -> : st A k (abs s') = abs s' <-> f %| 'X^k - 1.
  by rewrite -(ann_irred _ If Kf x0) -st_fix; split=> /eqP.
split; first exact: primitive_dvd.
case: Pf => _ _ D1 _ /dvdnP [m ->]. apply: dvdp_trans D1 _. rewrite mulnC exprM.
by rewrite -[X in _ %| _ - X](expr1n _ m) subrXX dvdp_mulr.
Qed.

Hypothesis Hmexp : forall s, ok s -> p_getMexp P s = Z.of_nat d.

Lemma anni_d_spec fuel s : observable A Q 128 -> ok s -> (n < fuel)%N ->
  exists b s', [/\ anni_d G P M fuel s = Ret (b, s'), ok s', b -> annihilated s s' &
    ~~ b -> forall mu f, is_minpoly (low s) mu -> ~ large_factor mu f d].
Proof.
move=> OB H Hfu. rewrite /anni_d. have [mu [-> Hm]] := out_min H. rewrite [bind _ _]/= Hmexp //.
have [m0 g1 g2] := Hm.
have sm : (size mu <= fuel)%N.
  apply: leq_trans Hfu. rewrite -(size_char_poly A). apply: dvdp_leq (char_neq0 A) _. exact: minpoly_char Hm.
have [f [b [-> Fb Fn]]] := hasFactor_spec d m0 sm. rewrite [bind _ _]/=.
have ok1 : ok (run (2 * nb) s) := run_ok LG _ H.
case: b Fb Fn => Fb Fn; last first.
  exists false, (run (2 * nb) s); split=> // _ mu' f' Hm'. rewrite (minpoly_unique Hm' Hm). exact: Fn.
have Lf := Fb isT. cbn [negb].
have [mu2 [-> Hm2]] := out_min ok1. rewrite [bind _ _]/=.
have Em : mu2 = mu by move: Hm2; rewrite (run_abs LG) // => /shift_min Hm2; exact: minpoly_unique Hm2 Hm.
rewrite Em {mu2 Hm2 Em}. have ok2 : ok (run (2 * nb) (run (2 * nb) s)) := run_ok LG _ ok1. rewrite nbE // degZ_eq.
have mA : mu %| char_poly A := minpoly_char Hm.
set s2 := run _ (run _ s). have Es2 : s2 = run (2 * nb + 2 * nb) s by rewrite /s2 /PeriodProofs4.run iterD.
have [L [EL mL LA LK]] : exists L, [/\ (if ~~ (size mu == nb.+1) then getLCMPoly_d G P M mu s2 else Ret mu) = Ret L, mu %| L,
    L %| char_poly A & pact A L (abs s) = 0].
  case: eqP => sz /=.
    have nE : n = nb by apply/eqP; rewrite eqn_leq nb_n /=; have := dvdp_leq (char_neq0 A) mA; rewrite sz size_char_poly.
    have E : mu = char_poly A by apply: ccp_full => //; rewrite sz nE.
    by exists mu; split=> //; rewrite E; exact: cayley.
  have [L [E L0 D1 G1 _]] := lcm_d_spec ok2 m0. have [LA G2 _] := G1 mA. exists L; split=> //.
  apply: gen_par => // p Hp. by have := G2 p Hp; rewrite -/s2 Es2 (run_abs LG) // => /shift_gen.
rewrite EL [bind _ _]/= /gf2x_div.
have f0 : f != 0 by case: Lf => _ sf _; rewrite -size_poly_eq0 sf.
rewrite (negPf f0) [bind _ _]/=.
have [K1 K2] := @quotient_spec s (2 * nb + 2 * nb) mu f L H Hm Lf mL LA LK. rewrite -Es2 in K1 K2.
have [mu3 [-> _]] := out_min K1. rewrite [bind _ _]/=. exists true, (run (2 * nb) (annihilate G s2 (L %/ f))). split=> //.
exact: (run_ok LG).
Qed.

(** The output determines the state. *)
Definition out_observable : Prop := forall x, (forall i p, (p < 128)%N -> (st A i x *m D p) 0 0 = 0) -> x = 0.
Lemma lcm_s_spec l s : ok s -> l != 0 -> exists L, [/\ getLCMPoly_s G P M l s = Ret L, L != 0, l %| L,
    l %| char_poly A -> L %| char_poly A /\ forall x, generates L (out_seq A D x 0) &
    forall c, l %| c -> (forall x, generates c (out_seq A D x 0)) -> L %| c].
Proof.
move=> H l0. rewrite /getLCMPoly_s nbE //.
have Hmp t : ok t -> exists mu t', minpoly G M t 0 0 = Ret (mu, t') /\ ok t' /\ is_minpoly (out_seq A D (abs t) 0) mu.
  move=> okt; have [mu [E Hm]] := out_min okt. exists mu, (run (2 * nb) t); split; [exact E|split; [exact: (run_ok LG _ okt)|exact Hm]].
have [|L [E L0 D2 G2 C2]] := @unit_spec _ D 0%N Hmp nb 0 s l H l0 (add0n nb); first by move=> j; rewrite ltn0.
exists L; split=> // lc; split; last exact: G2. by apply: C2 => // x; exact: out_char.
Qed.
Lemma anni_s_spec fuel s : out_observable -> ok s -> (n < fuel)%N ->
  exists b s', [/\ anni_s G P M fuel s = Ret (b, s'), ok s', b -> annihilated s s' &
    ~~ b -> forall mu f, is_minpoly (low s) mu -> ~ large_factor mu f d].
Proof.
move=> OB H Hfu. rewrite /anni_s. have [mu [-> Hm]] := out_min H. rewrite [bind _ _]/= Hmexp //.
have [m0 g1 g2] := Hm.
have sm : (size mu <= fuel)%N.
  apply: leq_trans Hfu. rewrite -(size_char_poly A). apply: dvdp_leq (char_neq0 A) _. exact: minpoly_char Hm.
have [f [b [-> Fb Fn]]] := hasFactor_spec d m0 sm. rewrite [bind _ _]/=.
have ok1 : ok (run (2 * nb) s) := run_ok LG _ H.
case: b Fb Fn => Fb Fn; last first.
  exists false, (run (2 * nb) s); split=> // _ mu' f' Hm'. rewrite (minpoly_unique Hm' Hm). exact: Fn.
have Lf := Fb isT. cbn [negb].
have mA : mu %| char_poly A := minpoly_char Hm.
have [L1 [k [-> mL1 L10 LA1 [G1 _]]]] := ccp_spec LG LO HM nbE nb_n ok1 m0. rewrite [bind _ _]/=.
have ok2 : ok (run k (run (2 * nb) s)) := run_ok LG _ ok1. rewrite nbE //.
set s2 := run k (run _ s). have Es2 : s2 = run (k + 2 * nb) s by rewrite /s2 /PeriodProofs4.run iterD.
have K1 : pact A L1 (abs s) = 0.
  apply: OB => i p Hp. have pw : (N.of_nat p < g_width G)%num by rewrite Hw; clear -Hp; lia.
  have := G1 mA p pw. rewrite -/s2 Es2 (run_abs LG) // => /shift_gen /out_generates. exact.
have [L [EL mL LA LK]] : exists L, [/\ (if ~~ (deg L1 =? Z.of_nat nb)%coqZ then getLCMPoly_s G P M L1 s2 else Ret L1) = Ret L, mu %| L,
    L %| char_poly A & pact A L (abs s) = 0].
  case: (_ =? _)%coqZ => /=; first by exists L1; split=> //; exact: LA1.
  have [L [E L0 D1 G2 _]] := lcm_s_spec ok2 L10. exists L; split=> //; [exact: dvdp_trans D1|by case: (G2 (LA1 mA))|exact: pact_dvd D1 K1].
rewrite EL [bind _ _]/= /gf2x_div.
have f0 : f != 0 by case: Lf => _ sf _; rewrite -size_poly_eq0 sf.
rewrite (negPf f0) [bind _ _]/=.
have [K3 K2] := @quotient_spec s (k + 2 * nb) mu f L H Hm Lf mL LA LK. rewrite -Es2 in K3 K2.
have [mu3 [-> _]] := out_min K3. rewrite [bind _ _]/=. exists true, (run (2 * nb) (annihilate G s2 (L %/ f))). split=> //.
exact: (run_ok LG).
Qed.
End Anni.
