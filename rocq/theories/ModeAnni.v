(** anni of sfmtdc and dSFMTdc on an object whose output mixes the newest word
    with one of the call before (start mode and weight mode). *)
From Coq Require Import NArith ZArith List Bool Lia.
From mathcomp Require Import all_ssreflect all_algebra.
From mathcomp Require Import zify.
From Verif Require Import Base UtilModel GenModel PolyF2 LinSpec LinLemmas PeriodModel PeriodSpec PolyAct PeriodProofs PeriodProofs2
  PeriodProofs3 PeriodProofs4 PeriodProofs5 PeriodProofs7 ParityModel ParitySpec SearchLin AnniModel AnniProofs.
Set Implicit Arguments.
Unset Strict Implicit.
Unset Printing Implicit Defensive.
Import GRing.Theory.
Local Open Scope ring_scope.
Delimit Scope Z_scope with coqZ.

(** The state x; pb are the bits of the word kept from the call before, R the
    bits of the word built by the call, lo p says that bit p of the output is
    taken from the latter. *)
Record mode_gen {S : Type} (G : gen_ops S) (P : par_ops S) (n : nat) (ok : S -> Prop) (abs : S -> 'rV['F_2]_n)
  (A : 'M['F_2]_n) (R : nat -> 'cV['F_2]_n) (pb : S -> nat -> 'F_2) (lo : nat -> bool)
  (e : nat -> 'rV['F_2]_n) (Q : nat -> 'cV['F_2]_n) : Prop := {
  mg_width : g_width G = 128%num;
  mg_ok : forall s, ok s -> ok (g_generate G s).2;
  mg_abs : forall s, ok s -> abs (g_generate G s).2 = abs s *m A;
  mg_out : forall s p, ok s -> (p < 128)%N ->
    (N.testbit (g_generate G s).1 (N.of_nat p))%:R = (if lo p then (abs s *m R p) 0 0 else pb s p) :> 'F_2;
  mg_prev : forall s p, ok s -> (p < 128)%N -> pb (g_generate G s).2 p = (abs s *m R p) 0 0;
  mg_add_ok : forall s t, ok s -> ok t -> ok (g_add G s t);
  mg_add_abs : forall s t, ok s -> ok t -> abs (g_add G s t) = abs s + abs t;
  mg_add_pb : forall s t p, ok s -> ok t -> (p < 128)%N -> pb (g_add G s t) p = pb s p + pb t p;
  mg_zero_ok : forall s, ok s -> ok (g_setZero G s);
  mg_zero_abs : forall s, ok s -> abs (g_setZero G s) = 0;
  mg_zero_pb : forall s p, ok s -> (p < 128)%N -> pb (g_setZero G s) p = 0;
  mg_lo : lo 0%N;
  mg_size : forall s, ok s -> g_bitSize G s = n;
  mg_one : forall s i, ok s -> (i < n)%N -> exists s', p_setOneBit P i s = Ret s' /\ ok s' /\ abs s' = e i;
  mg_full : row_full (\matrix_(i < n) e i);
  mg_plt : forall s, ok s -> (p_getParityValue P s < 2 ^ 128)%num;
  mg_parity : forall s j, ok s -> (N.of_nat j < 128)%num -> msb 128 (p_getParityValue P s) j = obit Q (abs s) j;
  mg_unit : A \in unitmx
}.

Section Mode.
Variables (S : Type) (G : gen_ops S) (P : par_ops S) (n : nat) (ok : S -> Prop) (abs : S -> 'rV['F_2]_n)
  (A : 'M['F_2]_n) (R : nat -> 'cV['F_2]_n) (pb : S -> nat -> 'F_2) (lo : nat -> bool)
  (e : nat -> 'rV['F_2]_n) (Q : nat -> 'cV['F_2]_n).
Variable M : seq 'F_2 -> nat -> f2x.
Hypothesis MG : mode_gen G P ok abs A R pb lo e Q.
Hypothesis HM : minpolyseq_spec M.
Notation run := (run G).

(** States in which the bits used of the word kept are the ones of the call before. *)
Definition okc (s : S) : Prop := ok s /\ forall p, (p < 128)%N -> ~~ lo p -> pb s p = (abs s *m (invmx A *m R p)) 0 0.
Definition mD (p : nat) : 'cV['F_2]_n := if lo p then R p else invmx A *m R p.

(** Only the lowest bit of the output. *)
Definition low_ops : gen_ops S :=
  {| g_width := g_width G; g_generate := fun s => (N.land (g_generate G s).1 1, (g_generate G s).2);
     g_generate_len := fun _ s => (0%num, (g_generate G s).2);
     g_add := g_add G; g_setZero := g_setZero G; g_isZero := fun s => abs s == 0; g_seed := g_seed G; g_bitSize := g_bitSize G |}.
Definition all_ops : gen_ops S :=
  {| g_width := g_width G; g_generate := g_generate G; g_generate_len := fun _ s => (0%num, (g_generate G s).2);
     g_add := g_add G; g_setZero := g_setZero G; g_isZero := g_isZero G; g_seed := g_seed G; g_bitSize := g_bitSize G |}.
Definition lD (p : nat) : 'cV['F_2]_n := if p == 0%N then R 0 else 0.

Lemma low_lin : linear_gen low_ops ok abs A (fun=> 0).
Proof.
split=> //=.
- exact: (mg_ok MG).
- exact: (mg_abs MG).
- by move=> v s Hs _; exact: (mg_ok MG).
- by move=> v s Hs _; exact: (mg_abs MG).
- by move=> v s _ _; rewrite (mg_width MG).
- by move=> v s j _ _ _; rewrite /obit mulmx0 mxE /msb N.bits_0; case: (_ <? _)%coqZ.
- exact: (mg_add_ok MG).
- exact: (mg_add_abs MG).
- exact: (mg_zero_ok MG).
- exact: (mg_zero_abs MG).
Qed.
Lemma low_out : linear_out low_ops ok abs lD.
Proof.
move=> s p Hs; cbn [g_width low_ops g_generate fst]; rewrite (mg_width MG) => Hp.
rewrite N.land_spec /lD; case: p Hp => [|p] Hp.
  have := mg_out MG (p := 0%N) Hs isT; rewrite (mg_lo MG) => <-; by rewrite andbT.
rewrite eqE /= mulmx0 mxE; set b := (X in _ && X); have -> : b = false; last by rewrite andbF.
by rewrite /b; case: (Pos.of_succ_nat p).
Qed.
Lemma low_par : parity_gen low_ops P ok abs n e Q.
Proof.
split=> //.
- exact: (mg_size MG).
- by move=> s i Hs Hi; right; have [s' [E1 [E2 E3]]] := mg_one MG Hs Hi; exists s'.
- exact: (mg_full MG).
- by move=> s Hs; cbn [g_width low_ops]; rewrite (mg_width MG); exact: (mg_plt MG).
- by move=> s j Hs; cbn [g_width low_ops]; rewrite (mg_width MG); exact: (mg_parity MG).
Qed.
Lemma low_width : g_width low_ops = 128%num.
Proof. exact: (mg_width MG). Qed.

Lemma okc_step s : ok s -> okc (g_generate G s).2.
Proof.
move=> Hs; split; first exact: (mg_ok MG).
by move=> p Hp _; rewrite (mg_prev MG) // (mg_abs MG) // mulmxA mulmxK // (mg_unit MG).
Qed.
Lemma all_lin : linear_gen all_ops okc abs A (fun=> 0).
Proof.
have add_ok s t : okc s -> okc t -> okc (g_add G s t).
  move=> [s1 s2] [t1 t2]; split; first exact: (mg_add_ok MG).
  by move=> p Hp nl; rewrite (mg_add_pb MG) // (mg_add_abs MG) // mulmxDl mxE s2 // t2.
have zero_ok s : okc s -> okc (g_setZero G s).
  move=> [s1 _]; split; first exact: (mg_zero_ok MG).
  by move=> p Hp _; rewrite (mg_zero_pb MG) // (mg_zero_abs MG) // mul0mx mxE.
split=> //=.
- by move=> s [Hs _]; exact: okc_step.
- by move=> s [Hs _]; exact: (mg_abs MG).
- by move=> v s [Hs _] _; exact: okc_step.
- by move=> v s [Hs _] _; exact: (mg_abs MG).
- by move=> v s _ _; rewrite (mg_width MG).
- by move=> v s j _ _ _; rewrite /obit mulmx0 mxE /msb N.bits_0; case: (_ <? _)%coqZ.
- by move=> s t [Hs _] [Ht _]; exact: (mg_add_abs MG).
- by move=> s [Hs _]; exact: (mg_zero_abs MG).
Qed.
Lemma all_out : linear_out all_ops okc abs mD.
Proof.
move=> s p [Hs Hc]; cbn [g_width all_ops g_generate fst]; rewrite (mg_width MG) => Hp.
have Hp' : (p < 128)%N by clear -Hp; lia.
by rewrite (mg_out MG) // /mD; case El: (lo p) => //; rewrite Hc // El.
Qed.

(** Where only the lowest bit is read the two interfaces are the same. *)
Lemma low_record cnt s : record_bits low_ops cnt 0 s = record_bits G cnt 0 s.
Proof.
elim: cnt s => [|cnt IH] s //.
rewrite [LHS]/= [RHS]/=; case: (g_generate G s) => x s'; cbn [fst snd].
have H : (0 < g_width G)%num by rewrite (mg_width MG).
rewrite -[0%coqZ]/(Z.of_N 0) !bit_spec //; cbn [bind].
have -> : N.testbit (N.land x 1) 0 = N.testbit x 0 by rewrite N.land_spec andbT.
by rewrite -[Z.of_N 0]/0%coqZ IH.
Qed.
Lemma low_minpoly s : minpoly low_ops M s 0 0 = minpoly G M s 0 0.
Proof. by rewrite /minpoly low_record. Qed.
Lemma low_unit (f g : S -> res (f2x * S)) cnt i nb s L : (forall s, f s = g s) -> unit_loop P f cnt i nb s L = unit_loop P g cnt i nb s L.
Proof.
move=> E; elim: cnt i s L => [|cnt IH] i s L //=; case: (p_setOneBit P i s) => //= s1; rewrite E.
case: (g s1) => //= -[mu s2] /=; case: (LCM L mu) => //= l; by case: (_ =? _)%coqZ.
Qed.
Lemma low_lcm_s L s : getLCMPoly_s low_ops P M L s = getLCMPoly_s G P M L s.
Proof. by apply: low_unit => t; exact: low_minpoly. Qed.
Lemma low_lcm_d L s : getLCMPoly_d low_ops P M L s = getLCMPoly_d G P M L s.
Proof. by []. Qed.
Lemma low_ann s q : annihilate low_ops s q = annihilate G s q.
Proof. by []. Qed.
Lemma low_anni_d fuel s : anni_d low_ops P M fuel s = anni_d G P M fuel s.
Proof.
rewrite /anni_d low_minpoly; case: (minpoly G M s 0 0) => //= -[mu s1] /=.
case: (hasFactorOfDegree _ _ _) => //= -[f [|]] //=.
rewrite low_minpoly; case: (minpoly G M s1 0 0) => //= -[mu2 s2] /=.
rewrite low_lcm_d; set X := (if _ then _ else _); case: X => //= L; case: (gf2x_div _ _) => //= q.
by rewrite low_ann low_minpoly.
Qed.

(** * anni *)
Hypothesis n0 : (0 < n)%N.
Variable d : nat.
Hypothesis Hd : (n < 2 * d)%N.
Hypothesis Hmexp : forall s, ok s -> p_getMexp P s = Z.of_nat d.
Notation annihilated := (annihilated abs A lD d).

Lemma run_okc k s : ok s -> (0 < k)%N -> okc (run k s).
Proof.
move=> Hs; case: k => // k _; rewrite /PeriodProofs4.run iterS; apply: okc_step.
exact: (run_ok low_lin k Hs).
Qed.
Lemma okc_ok s : okc s -> ok s.
Proof. by case. Qed.
Lemma run_abs' k s : ok s -> abs (run k s) = st A k (abs s).
Proof. exact: (run_abs low_lin). Qed.
Lemma low_min s : ok s -> exists mu, minpoly G M s 0 0 = Ret (mu, run (2 * n) s) /\ is_minpoly (out_seq A lD (abs s) 0) mu.
Proof. by move=> Hs; rewrite -low_minpoly; exact: (out_min low_lin low_out low_par HM low_width). Qed.

Lemma anni_s_mode fuel s : out_observable A mD -> ok s -> (n < fuel)%N ->
  exists b s', [/\ anni_s G P M fuel s = Ret (b, s'), okc s', b -> annihilated s s' &
    ~~ b -> forall mu f, is_minpoly (out_seq A lD (abs s) 0) mu -> ~ large_factor mu f d].
Proof.
move=> OB H Hfu. rewrite /anni_s. have [mu [-> Hm]] := low_min H. rewrite [bind _ _]/= Hmexp //.
have [m0 g1 g2] := Hm. have n2 : (0 < 2 * n)%N by move: n0; clear; lia.
have sm : (size mu <= fuel)%N.
  apply: leq_trans Hfu. rewrite -(size_char_poly A). apply: dvdp_leq (char_neq0 A) _. exact: minpoly_char Hm.
have [f [b [-> Fb Fn]]] := hasFactor_spec d m0 sm. rewrite [bind _ _]/=.
have ok1 : okc (run (2 * n) s) by apply: run_okc.
case: b Fb Fn => Fb Fn; last first.
  exists false, (run (2 * n) s); split=> // _ mu' f' Hm'. rewrite (minpoly_unique Hm' Hm). exact: Fn.
have Lf := Fb isT. cbn [negb].
have mA : mu %| char_poly A := minpoly_char Hm.
have Hnb t : okc t -> g_bitSize all_ops t = n by move=> [Ht _]; exact: (mg_size MG).
have [L1 [k [E1 mL1 L10 LA1 [G1 _]]]] := ccp_spec all_lin all_out HM Hnb (leqnn n) ok1 m0.
rewrite -[calcCharacteristicPolynomial G M _ _]/(calcCharacteristicPolynomial all_ops M _ _) E1 [bind _ _]/=.
rewrite -[PeriodProofs4.run all_ops k _]/(run k (run (2 * n) s)).
have ok2 : ok (run k (run (2 * n) s)) := run_ok low_lin k (okc_ok ok1). rewrite (mg_size MG) //.
set s2 := run k (run _ s). have Es2 : s2 = run (k + 2 * n) s by rewrite /s2 /PeriodProofs4.run iterD.
have UA := mg_unit MG.
have K1 : pact A L1 (abs s) = 0.
  apply: OB => i p Hp. have pw : (N.of_nat p < g_width all_ops)%num by rewrite [g_width all_ops](mg_width MG); clear -Hp; lia.
  have := G1 mA p pw. rewrite -[PeriodProofs4.run all_ops k _]/s2 Es2 run_abs' // => /(shift_gen UA) /out_generates. exact.
have [L [EL mL LA LK]] : exists L, [/\ (if ~~ (deg L1 =? Z.of_nat n)%coqZ then getLCMPoly_s G P M L1 s2 else Ret L1) = Ret L, mu %| L,
    L %| char_poly A & pact A L (abs s) = 0].
  case: (_ =? _)%coqZ => /=; first by exists L1; split=> //; exact: LA1.
  have [L [E L0 D1 G2 _]] := lcm_s_spec low_lin low_out low_par HM (mg_one MG) low_width ok2 L10.
  exists L; split=> //; [by rewrite -low_lcm_s|exact: dvdp_trans D1|by case: (G2 (LA1 mA))|exact: pact_dvd D1 K1].
rewrite EL [bind _ _]/= /gf2x_div.
have f0 : f != 0 by case: Lf => _ sf _; rewrite -size_poly_eq0 sf.
rewrite (negPf f0) [bind _ _]/=.
have [K3 K2] := @quotient_spec _ _ _ _ _ _ _ _ n low_lin UA d Hd s (k + 2 * n) mu f L H Hm Lf mL LA LK.
rewrite -[PeriodProofs4.run low_ops _ _]/(run (k + 2 * n) s) -Es2 in K3 K2.
rewrite -[annihilate low_ops _ _]/(annihilate G s2 (L %/ f)) in K3 K2.
have [mu3 [-> _]] := low_min K3. rewrite [bind _ _]/=. exists true, (run (2 * n) (annihilate G s2 (L %/ f))). split=> //.
exact: run_okc.
Qed.
Lemma anni_d_mode fuel s : observable A Q 128 -> ok s -> (n < fuel)%N ->
  exists b s', [/\ anni_d G P M fuel s = Ret (b, s'), okc s', b -> annihilated s s' &
    ~~ b -> forall mu f, is_minpoly (out_seq A lD (abs s) 0) mu -> ~ large_factor mu f d].
Proof.
move=> OB H Hfu.
have [b [s' [E1 E2 E3 E4]]] := anni_d_spec low_lin low_out low_par HM (mg_unit MG) (mg_one MG) low_width Hd Hmexp OB H Hfu.
exists b, s'; rewrite -low_anni_d; split=> //.
(* the object left has been run *)
have R1 t mu t' : ok t -> minpoly G M t 0 0 = Ret (mu, t') -> okc t'.
  move=> Ht; have [m [-> _]] := low_min Ht => -[_ <-]; apply: run_okc => //. by move: n0; clear; lia.
move: E1; rewrite low_anni_d /anni_d.
have [mu [Em _]] := low_min H; have O1 := R1 _ _ _ H Em; rewrite Em [bind _ _]/=.
case: (hasFactorOfDegree _ _ _) => //= -[f [|]] /=; last by move=> [_ <-].
have [mu2 [Em2 _]] := low_min (okc_ok O1); have O2 := R1 _ _ _ (okc_ok O1) Em2; rewrite Em2 [bind _ _]/=.
set X := (if _ then _ else _); case: X => //= L; rewrite /gf2x_div; case: (f == 0) => //=.
set s3 := annihilate _ _ _.
have O3 : ok s3 by have [] := annihilate_spec low_lin (L %/ f) (okc_ok O2).
have [mu3 [Em3 _]] := low_min O3; rewrite Em3 /= => -[_ <-]. exact: (R1 _ _ _ O3 Em3).
Qed.

End Mode.

(** * Bits of the component *)
Section Bits.
Variables (n : nat) (A : 'M['F_2]_n).
Hypothesis UA : A \in unitmx.
Implicit Types (x y : 'rV['F_2]_n) (c : 'cV['F_2]_n).
Definition cseq x c (i : nat) : 'F_2 := (st A i x *m c) 0 0.
Lemma cs_out (D : nat -> 'cV['F_2]_n) x p : out_seq A D x p = cseq x (D p).
Proof. by []. Qed.
Lemma cs_step x c i : cseq x (A *m c) i = cseq (st A 1 x) c i.
Proof. by rewrite /cseq mulmxA -st_add addn1. Qed.
Lemma cs_gen h x c : generates h (cseq x c) <-> forall i, cseq (pact A h x) c i = 0.
Proof. exact: (out_generates A (fun=> c) h x 0). Qed.
Lemma cs_ext u v m : (forall i, u i = v i :> 'F_2) -> is_minpoly u m -> is_minpoly v m.
Proof.
move=> E [m0 g1 g2]; split=> //.
  by move=> i; rewrite -[RHS](g1 i); apply: eq_bigr => j _; rewrite E.
by move=> h gh; apply: g2 => i; rewrite -[RHS](gh i); apply: eq_bigr => j _; rewrite E.
Qed.
Lemma cs_minA x c m : is_minpoly (cseq x (A *m c)) m <-> is_minpoly (cseq x c) m.
Proof.
rewrite -(shift_min UA 1 x m (fun=> c) 0); split; apply: cs_ext => i; first by rewrite cs_step.
by rewrite cs_step.
Qed.
Lemma cs_min x c k m : is_minpoly (cseq (st A k x) c) m <-> is_minpoly (cseq x c) m.
Proof. exact: (shift_min UA k x m (fun=> c) 0). Qed.
Lemma cs_minexists x c : exists m, is_minpoly (cseq x c) m.
Proof. exact: (out_minpoly A (fun=> c) x 0). Qed.
Lemma cs_char x c m : is_minpoly (cseq x c) m -> m %| char_poly A.
Proof. exact: (@minpoly_char _ A (fun=> c) x 0). Qed.

Variables (d : nat) (f : f2x) (y : 'rV['F_2]_n).
Hypothesis Hd : (n < 2 * d)%N.
Hypothesis If : irreducible_poly f.
Hypothesis sf : size f = d.+1.
Hypothesis y0 : y != 0.
Hypothesis fy : y *m poly_mx A f = 0.
Lemma cs_span x z c : in_orbit_span A x z -> (forall i, cseq x c i = 0) -> forall i, cseq z c i = 0.
Proof.
move=> [K [a ->]] Z i. rewrite /cseq st_sum mulmx_suml summxE big1 // => j _.
by rewrite stZ -st_add -scalemxAl mxE [X in _ * X]Z mulr0.
Qed.
(** f divides the polynomial of a bit of x exactly if the bit is not constant
    zero on the component. *)
Lemma cs_factor x c0 mu0 c mu : is_minpoly (cseq x c0) mu0 -> f %| mu0 -> is_minpoly (cseq x c) mu ->
  ~ (f %| mu) <-> forall i, cseq y c i = 0.
Proof.
move=> H0 F0 Hm. have fy' : pact A f y = 0 by rewrite pact_mx.
have fA : f %| char_poly A := comp_dvd If y0 fy'.
have f0 : f != 0 by rewrite -size_poly_eq0 sf.
pose g := char_poly A %/ f. have gE : g * f = char_poly A by rewrite divpK.
have ng : ~~ (f %| g).
  apply: contra (large_simple A If sf Hd) => D; rewrite expr2 -gE. by apply: dvdp_mul.
pose z := pact A g x.
have fz : pact A f z = 0 by rewrite -pactM mulrC gE cayley.
have z0 : z != 0.
  apply: contra ng => /eqP Z; apply: dvdp_trans F0 _. case: H0 => _ _; apply. by apply/cs_gen => i; rewrite -/z Z /cseq st0 mul0mx mxE.
have zy : in_orbit_span A y z by apply/(comp_all If sf Hd y0 fy'); rewrite -pact_mx.
have yz : in_orbit_span A z y by apply/(comp_all If sf Hd z0 fz).
suff K : ~ (f %| mu) <-> generates g (cseq x c).
  by split=> [/K/cs_gen|Z]; [exact: cs_span yz|apply/K/cs_gen; exact: cs_span zy Z].
have [m0 g1 g2] := Hm; split=> [nf|gg].
  have mA := cs_char Hm; rewrite -gE in mA. have cp : coprimep mu f by rewrite coprimep_sym; apply: irred_coprime => //; apply/negP.
  by apply: gen_dvd g1; rewrite -(Gauss_dvdpl _ cp).
by move=> D; move/negP: ng; apply; apply: dvdp_trans D _; exact: g2.
Qed.
(** The polynomial of a bit of the component. *)
Lemma cs_comp c m : is_minpoly (cseq y c) m -> ((forall i, cseq y c i = 0) /\ m = 1) \/ (~ (forall i, cseq y c i = 0)) /\ m = f.
Proof.
move=> Hm; have [m0 g1 g2] := Hm. have fy' : pact A f y = 0 by rewrite pact_mx.
have mf : m %| f by apply: g2; apply/cs_gen => i; rewrite fy' /cseq st0 mul0mx mxE.
have [s1|s1] := eqVneq (size m) 1%N; [left|right].
  have E : m = 1 by apply/eqP; rewrite -f2x_size1; apply/eqP.
  by split=> // i; have := g1 i; rewrite E size_poly1 big_ord1 coef1 mul1r addn0.
have E : m = f by apply: f2x_dvd_anti => //; case: If => _ /(_ m s1 mf) /andP[].
split=> // Z; move: sf; rewrite -E => sm.
have : m %| 1 by apply: g2 => i; rewrite size_poly1 big_ord1 Z mulr0.
rewrite E dvdp1 sf => /eqP [d0]; move: Hd; rewrite d0 muln0. by rewrite ltn0.
Qed.
End Bits.
