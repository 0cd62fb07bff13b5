(** The functions is_irreducible and is_prime2 of test_period. *)
From Coq Require Import NArith ZArith List Bool Lia.
From mathcomp Require Import all_ssreflect all_algebra.
From mathcomp Require Import zify.
From Verif Require Import Base WordLemmas GenModel UtilModel PolyF2 LinSpec LinLemmas PeriodSpec PeriodModel PeriodProofs
  PeriodProofs2 PeriodProofs3 PolyAct PeriodProofs4 PeriodProofs5 PeriodProofs7 XorshiftModel XorshiftSpec XorshiftLin XorshiftPeriod
  PeriodCert PeriodCertProofs TestPerModel TestPerProofs RTinyModel RTinyProofs.
Set Implicit Arguments.
Unset Strict Implicit.
Unset Printing Implicit Defensive.
Import GRing.Theory.
Local Open Scope ring_scope.
Delimit Scope N_scope with num.
Delimit Scope Z_scope with coqZ.

Section Cert.
Variables (p : rtpar) (s : xs).
Hypothesis P : rt_ok p.
Hypothesis Hs : xs_okw s.
Variable M : seq 'F_2 -> nat -> f2x.
Hypothesis HM : minpolyseq_spec M.
Notation G := (rt_ops p).
Notation u := (out_seq (rt_A p) (rt_D p) (xs_vec s) 0).
(** A multiple of the polynomial of the sequence. *)
Lemma not_dvd f (mu : f2x) : is_minpoly u mu -> N.testbit (xs_y (pc_actN G f s)) 0 = true -> ~~ (mu %| P2 f).
Proof.
move=> [_ Hg _] B; apply/negP => /gen_dvd /(_ Hg) /out_generates /(_ 0%N).
have [ok E] := actN_ok (rt_lin P) f Hs; rewrite -[st _ 0 _]/(pact _ _ _) -E.
have w0 : (0 < 32)%num by [].
have LO := rt_out P; have := LO _ 0%N ok w0; cbn [g_generate rt_ops]; rewrite rt_genE; cbn [fst]; rewrite B => <- /eqP.
by rewrite oner_eq0.
Qed.
Lemma reducible_cert f1 f2 : pc_actN G f1 (pc_actN G f2 s) = xs_zero ->
  N.testbit (xs_y (pc_actN G f1 s)) 0 = true -> N.testbit (xs_y (pc_actN G f2 s)) 0 = true ->
  forall mu, is_minpoly u mu -> ~~ irredb mu.
Proof.
move=> Z B1 B2 mu Hm; apply/negP => /irredP I; have [_ _ Hmin] := Hm.
have [ok2 E2] := actN_ok (rt_lin P) f2 Hs; have [_ E1] := actN_ok (rt_lin P) f1 ok2.
have D : mu %| P2 f1 * P2 f2.
  by apply: Hmin; apply: out_zero; rewrite pactM -E2 -E1 Z vec0.
have n1 := not_dvd Hm B1; have n2 := not_dvd Hm B2.
by have := irred_prime I D; rewrite (negbTE n1) (negbTE n2).
Qed.
Lemma nonprime_cert f (k : positive) : pc_actN G f s = xs_zero -> pc_jump G 128 f k s = s ->
  forall mu, is_minpoly u mu -> mu %| 'X^(Pos.to_nat k) - 1.
Proof.
move=> Z J mu [_ _ Hmin]; apply: Hmin; apply: out_zero.
have Hf : xs_vec (pc_actN G f s) = 0 by rewrite Z vec0.
by have := jump_ok (rt_lin P) 128 Hs Hf k; rewrite J => E; rewrite pactB pact1 pactX -E subrr.
Qed.
End Cert.
Lemma test_nonprime (mu : f2x) : mu %| 'X^(N.to_nat ((2 ^ 128 - 1) / 3)) - 1 -> test_isPrime mu = Ret false.
Proof.
move=> D; rewrite /test_isPrime /isPrime_str test_read; cbn [bind].
rewrite /isPrime_vec; case: ifP => // _; rewrite /isIrreducible; case: irredP => // I; cbn [negb].
have s1 := irred_size I.
rewrite -[Z.to_N 128%coqZ]/128%num; move: D; move: (2 ^ 128 - 1)%num => m D; cbn [isPrime_loop].
by rewrite -[(3 =? 0)%num]/false; cbv zeta iota; rewrite modp_one // D.
Qed.

Definition s_red : xs := rt_seed rt_reducible 1234.
Definition s_non : xs := rt_seed rt_nonprime 1234.
Definition g_red : N := 0x9c4dc1851e6da7cbb6ba2166034b9647.
Definition f_non : N := 0x1329336deb793f729f175694216524775.
Definition k_non : positive := 113427455640312821154458202477256070485.
Lemma red_ok : rt_ok rt_reducible. Proof. by []. Qed.
Lemma non_ok : rt_ok rt_nonprime. Proof. by []. Qed.
Lemma red_check : [&& xs_eqb (pc_actN (rt_ops rt_reducible) 3 (pc_actN (rt_ops rt_reducible) g_red s_red)) xs_zero,
  N.testbit (xs_y (pc_actN (rt_ops rt_reducible) 3 s_red)) 0 & N.testbit (xs_y (pc_actN (rt_ops rt_reducible) g_red s_red)) 0].
Proof. by vm_compute. Qed.
Lemma non_check : xs_eqb (pc_actN (rt_ops rt_nonprime) f_non s_non) xs_zero &&
  xs_eqb (pc_jump (rt_ops rt_nonprime) 128 f_non k_non s_non) s_non.
Proof. by vm_compute. Qed.
Lemma k_nonE : Pos.to_nat k_non = N.to_nat ((2 ^ 128 - 1) / 3).
Proof.
have -> : ((2 ^ 128 - 1) / 3)%num = N.pos k_non by vm_compute.
symmetry; exact (positive_N_nat k_non).
Qed.

Section Prog.
Variable M : seq 'F_2 -> nat -> f2x.
Hypothesis HM : minpolyseq_spec M.
Lemma rt_mpE p seed mu s' : PeriodModel.minpoly (rt_ops p) M (rt_seed p seed) 0%coqZ 0%coqZ = Ret (mu, s') -> rt_minpoly M p seed = Ret mu.
Proof. by move=> E; rewrite /rt_minpoly E. Qed.
Lemma seed1234 p : rt_ok p -> xs_okw (rt_seed p 1234).
Proof. by move=> P; case: (@rt_seed_ok p 1234 P (erefl _)). Qed.
Lemma red_minpoly : exists mu, rt_minpoly M rt_reducible 1234 = Ret mu /\ ~~ irredb mu.
Proof.
have Hs := seed1234 red_ok; have [mu [s' [/rt_mpE E Hm]]] := rt_mp HM red_ok Hs.
exists mu; split; first exact: E.
case/and3P: red_check => /xs_eqbP C1 C2 C3.
exact: (reducible_cert red_ok Hs C1 C2 C3 Hm).
Qed.
Lemma non_minpoly : exists mu, rt_minpoly M rt_nonprime 1234 = Ret mu /\ mu %| 'X^(N.to_nat ((2 ^ 128 - 1) / 3)) - 1.
Proof.
have Hs := seed1234 non_ok; have [mu [s' [/rt_mpE E Hm]]] := rt_mp HM non_ok Hs.
exists mu; split; first exact: E.
case/andP: non_check => /xs_eqbP C1 /xs_eqbP C2.
rewrite -k_nonE; exact: (nonprime_cert non_ok Hs C1 C2 Hm).
Qed.
Lemma non_primitive : exists mu, [/\ rt_minpoly M rt_nonprime 1234 = Ret mu, mu %| 'X^(N.to_nat ((2 ^ 128 - 1) / 3)) - 1 & ~ primitive mu 128].
Proof.
have [mu [E D]] := non_minpoly; exists mu; split; [exact: E|exact: D|move=> Pm].
by have := test_prim Pm; rewrite (test_nonprime D).
Qed.
Lemma is_irreducible_ok : is_irreducible M 1234 = Ret true.
Proof.
rewrite /is_irreducible (irr64_ok HM (erefl _ : (1234 < 2 ^ 64)%num)); cbn [bind negb].
by have [mu [-> /negbTE H]] := red_minpoly; cbn [bind]; rewrite /isIrreducible H.
Qed.
Lemma is_prime2_ok : is_prime2 M 1234 = Ret true.
Proof.
rewrite /is_prime2; have [mu [-> Pm]] := default_prim HM (erefl _ : (1234 < 2 ^ 32)%num); cbn [bind].
rewrite (test_prim Pm); cbn [bind negb].
by have [nu [-> Dn]] := non_minpoly; cbn [bind]; rewrite (test_nonprime Dn).
Qed.
End Prog.
