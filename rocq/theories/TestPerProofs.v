(** The program test_period: Tiny32, Tiny64, and the table of is_prime2. *)
From Coq Require Import NArith ZArith List Bool String Lia.
From mathcomp Require Import all_ssreflect all_algebra.
From mathcomp Require Import zify.
From Verif Require Import Base WordLemmas GenModel UtilModel PolyF2 LinSpec LinLemmas LinInst LinOut PeriodSpec PeriodModel PeriodProofs
  PeriodProofs2 PeriodProofs3 PolyAct PeriodProofs4 PeriodProofs5 PeriodProofs7 EquiProofs5 SampleSpec SampleProofs PrimeTables PrimeTableProofs
  XorshiftModel XorshiftLin XorshiftPeriod TinyModel TinyLin TinySpec TinyProofs TinyDcProofs TinyPeriod TmtModel TmtSpec TmtProofs TmtProofs2
  T64Model T64Spec T64Lin T64Proofs TestPerModel.
Set Implicit Arguments.
Unset Strict Implicit.
Unset Printing Implicit Defensive.
Import GRing.Theory.
Local Open Scope ring_scope.
Delimit Scope Z_scope with coqZ.

(** * A power of a primitive element *)
Section Power.
Variables (g : f2x) (n r e : nat).
Hypothesis Pg : primitive g n.
Hypothesis n0 : (0 < n)%N.
Hypothesis re : (r * e)%N = (2 ^ n - 1)%N.
Notation sub p := (p \Po 'X^r).
Lemma pow_pos : (0 < 2 ^ n - 1)%N.
Proof. by rewrite subn_gt0 -{1}(expn0 2) ltn_exp2l. Qed.
Lemma sub1 k : sub ('X^k - 1 : f2x) = 'X^(r * k) - 1.
Proof. by rewrite comp_polyB comp_polyC rmorphX /= comp_polyX exprM. Qed.
Lemma g_irr : irreducible_poly g. Proof. by case: Pg. Qed.
Lemma g_order k : (g %| 'X^k - 1) = (2 ^ n - 1 %| k)%N.
Proof.
apply/idP/idP => [|/dvdnP[c ->]]; first exact: primitive_dvd.
case: Pg => _ _ H _; apply: dvdp_trans H _; rewrite mulnC exprM.
by rewrite -[X in _ %| _ - X](expr1n _ c) subrXX dvdp_mulr.
Qed.
Lemma factor_of (h : f2x) : h != 0 -> g %| sub h -> exists2 f : f2x, irreducible_poly f & g %| sub f.
Proof.
have [m] := ubnP (size h); elim: m h => // m IH h sh h0 gh.
have h1 : h != 1.
  apply/eqP=> E; move: gh; rewrite E comp_polyC dvdp1 => /eqP s1.
  by have := irred_size g_irr; rewrite s1.
have [q Iq /dvdpP[p E]] := irred_exists h0 h1.
move: gh; rewrite E comp_polyM => /(irred_prime g_irr)/orP[gp|gq]; last by exists q.
have p0 : p != 0 by apply: contraNneq h0 => Z; rewrite E Z mul0r.
have q0 : q != 0 by apply: contraNneq h0 => Z; rewrite E Z mulr0.
apply: (IH p) => //; move: sh (irred_size Iq); rewrite E (size_mul p0 q0).
by move: (size p) (size q) => a b; clear; lia.
Qed.
Lemma sub_order (f : f2x) : irreducible_poly f -> g %| sub f -> forall p : f2x, (f %| p) = (g %| sub p).
Proof.
move=> I gf p; apply/idP/idP => [/dvdpP[q ->]|gp].
  by rewrite comp_polyM; apply: dvdp_mull.
apply/negPn/negP => D; have := irred_coprime I D.
case/Bezout_eq1_coprimepP=> [[u v]] /= E.
have : g %| sub (u * f + v * p).
  by rewrite comp_polyD !comp_polyM; apply: dvdp_add; apply: dvdp_mull.
rewrite E comp_polyC dvdp1 => /eqP s1.
by have := irred_size g_irr; rewrite s1.
Qed.
Lemma power_poly : (0 < e)%N -> exists f : f2x, irreducible_poly f /\ forall k, (f %| 'X^k - 1) = (e %| k)%N.
Proof.
move=> e0; have r0 : (0 < r)%N by have := pow_pos; rewrite -re; case: (r).
have [||f I gf] := @factor_of ('X^e - 1).
- by rewrite -size_poly_gt0 size_Xn_sub_1.
- by rewrite sub1 re g_order.
exists f; split=> // k.
by rewrite (sub_order I gf) sub1 g_order -re dvdn_pmul2l.
Qed.
Lemma power_size (f : f2x) : irreducible_poly f -> (forall k, (f %| 'X^k - 1) = (e %| k)%N) ->
  (forall d, (0 < d < n)%N -> ~~ (e %| 2 ^ d - 1)%N) -> size f = n.+1.
Proof.
move=> I Hk Hd.
have fX : f != 'X.
  apply/eqP=> E; have : f %| 'X^(r * e) - 1 by rewrite Hk dvdn_mull.
  rewrite re E.
  have := pow_pos; case: (2 ^ n - 1)%N => // m _; rewrite exprS.
  by rewrite dvdp_subr ?dvdp_mulr // dvdp1 size_polyX.
have s2 := irred_size I.
have P := irred_period I fX; rewrite Hk in P.
have up : ((size f).-1 <= n)%N.
  rewrite leqNgt; apply/negP => lt.
  have := @irred_no_frob f n I; rewrite n0 lt => /(_ isT) /negP; apply.
  have -> : 'X^(2 ^ n) - 'X = 'X * ('X^(2 ^ n - 1) - 1) :> f2x.
    by rewrite mulrBr mulr1 -exprS subn1 prednK // expn_gt0.
  by apply: dvdp_mull; rewrite Hk -re dvdn_mull.
have lo : ~~ ((size f).-1 < n)%N.
  apply/negP=> lt; have := Hd (size f).-1; rewrite lt andbT P => H.
  by have : false by [apply: H; case: (size f) s2 => [|[]]].
by move: up lo s2; clear; lia.
Qed.
End Power.

(** * The wrong table *)
Definition eN : N := 5057672949897463733145855.
Lemma dvdN (a b : N) : (N.to_nat a %| N.to_nat b)%N -> (b mod a = 0)%num.
Proof.
case: (N.eq_dec a 0) => [-> |a0].
  by rewrite dvd0n => /eqP E; have -> : b = 0%num by lia.
move=> /dvdnP[c E]; have -> : b = (N.of_nat c * a)%num by lia.
by rewrite N.mod_mul.
Qed.
Lemma g128 : exists g : f2x, primitive g 128.
Proof.
exists (char_poly (xs_A (xs3_generate 5 14 1))).
have v0 : (const_mx 1 : 'rV['F_2]_128) != 0 by apply/eqP => /rowP /(_ ord0); rewrite !mxE.
exact: (full_primitive (ltn0Sn 127) (max_5_14_1 v0)).
Qed.
Lemma test_read : read_table (List.map chars test_table) =
  Ret [:: 3; 5; 17; 257; 641; 65537; 274177; 6700417; 672804213107211]%num.
Proof. by vm_compute. Qed.
Definition rN : N := 67280421310721.
Lemma reN : (rN * eN = 2 ^ N.of_nat 128 - 1)%num. Proof. by []. Qed.
Lemma e_nat : (N.to_nat rN * N.to_nat eN)%N = (2 ^ 128 - 1)%N.
Proof. by rewrite -N_pow2 -reN N2Nat.inj_mul. Qed.
Definition no_smaller : bool :=
  List.forallb (fun d => negb ((2 ^ N.of_nat d - 1) mod eN =? 0)%num) (List.seq 1 127).
Lemma no_smaller_ok : no_smaller. Proof. by vm_compute. Qed.
Lemma e_degree d : (0 < d < 128)%N -> ~~ (N.to_nat eN %| 2 ^ d - 1)%N.
Proof.
move=> Hd; apply/negP; rewrite -N_pow2 => /dvdN E.
have H := proj1 (List.forallb_forall _ _) no_smaller_ok d.
have : List.In d (List.seq 1 127) by apply/List.in_seq; move: Hd; clear; lia.
by move/H; cbv beta; rewrite E N.eqb_refl.
Qed.
Lemma e_pos : (0 < N.to_nat eN)%N. Proof. by have : (0 < eN)%num by []; lia. Qed.
Lemma e_small : (N.to_nat eN < 2 ^ 128 - 1)%N.
Proof. by rewrite -N_pow2; have : (eN < 2 ^ N.of_nat 128 - 1)%num by []; move: (2 ^ N.of_nat 128 - 1)%num eN => a b; lia. Qed.
Lemma wrong_table : exists f : f2x, test_isPrime f = Ret true /\ irreducible_poly f /\ ~ primitive f 128.
Proof.
have [g Pg] := g128.
have [f [I Hk]] := power_poly Pg (ltn0Sn 127) e_nat e_pos.
have sf := power_size (ltn0Sn 127) e_nat I Hk e_degree.
exists f; split; last split=> //.
- rewrite /test_isPrime /isPrime_str test_read; cbn [bind].
  rewrite /isPrime_vec -[128%coqZ]/(Z.of_nat 128) degZ_eq sf eqxx /isIrreducible.
  have -> : irredb f by apply/irredP.
  cbn [negb]; apply/isPrime_loop_true; first by rewrite sf.
  rewrite -[Z.to_N (Z.of_nat 128)]/128%num => q Hq; split.
    by move: Hq; cbn [List.In]; clear; lia.
  rewrite Hk; apply/negP => /dvdN.
  by move: Hq; cbn [List.In] => -[<-|[<-|[<-|[<-|[<-|[<-|[<-|[<-|[<-|[]]]]]]]]]]; vm_compute.
- case=> _ _ _ /(_ (N.to_nat eN)); rewrite e_pos e_small => /(_ isT).
  by rewrite Hk dvdnn.
Qed.

(** * Tiny32 and Tiny64 *)
Section Minpoly.
Variables (S : Type) (G : gen_ops S) (n : nat) (ok : S -> Prop) (abs : S -> 'rV['F_2]_n).
Variables (A : 'M['F_2]_n) (C D : nat -> 'cV['F_2]_n).
Hypothesis n0 : (0 < n)%N.
Hypothesis LG : linear_gen G ok abs A C.
Hypothesis LO : linear_out G ok abs D.
Hypothesis Hmax : maximal_period A.
Hypothesis w0 : (0 < g_width G)%num.
Variable M : seq 'F_2 -> nat -> f2x.
Hypothesis HM : minpolyseq_spec M.
Hypothesis Hn : forall s, g_bitSize G s = n.
(** A state whose output has its lowest bit set. *)
Variable s1 : S.
Hypothesis ok1 : ok s1.
Hypothesis bit1 : N.testbit (g_generate G s1).1 0 = true.
Lemma minpoly_full s : ok s -> abs s != 0 -> exists mu s', PeriodModel.minpoly G M s 0%coqZ 0%coqZ = Ret (mu, s') /\ primitive mu n.
Proof.
move=> Hs v0; have F := Hmax v0.
have [|mu [E Hm]] := minpoly_spec LG LO HM (stateSize := 0) Hs (p := 0%N) w0; first by rewrite /mp_size /= Hn.
exists mu, (run G (2 * mp_size G s 0) s); split; first exact: E.
have nz : exists i, out_seq A D (abs s) 0 i != 0.
  have v1 : abs s1 != 0.
    apply/eqP => Z; have := LO ok1 (p := 0%N) w0; rewrite Z mul0mx mxE bit1 => /eqP.
    by rewrite oner_eq0.
  have [i Ei] := st_onto F v1; exists i; rewrite /out_seq -Ei -(LO ok1 (p := 0%N) w0) bit1.
  by rewrite oner_eq0.
have [q Hq Pq] := full_good n0 F nz.
by rewrite (minpoly_unique Hm Hq).
Qed.
End Minpoly.

Lemma linout64 p : pm_ok p -> linear_out tiny64_ops (t64_ok p) t64_vec (full_col tiny64_ops (t64_C p)).
Proof.
move=> P; apply: (full_linear (t64_lin P)) => // s Hs; have := out64_lt Hs.
cbn [g_generate_len g_generate g_width tiny64_ops]; case: (t64_uint64 true s) => u s' Hu; cbn [fst].
apply: (@word_ext 64) => //; first exact: land_lt.
move=> i Hi; rewrite N.land_spec.
have -> : wshl 64 (wnot 64 0) (64 - Z.to_N (Z.of_N 64)) = N.ones 64 by [].
by rewrite N.ones_spec_low ?andbT.
Qed.
Lemma linout32 p : linear_out tiny32_ops (t32_ok p) t32_vec (tiny_D (p, false)).
Proof.
move=> s i Hs Hi; have := tiny_linout (t32_search Hs) Hi.
by rewrite -[g_generate tiny32_ops s]/(tmt_uint32 true s) out_search.
Qed.
Section Prog.
Variable M : seq 'F_2 -> nat -> f2x.
Hypothesis HM : minpolyseq_spec M.
Lemma min64 seed : (seed < 2 ^ 64)%num ->
  exists mu s', PeriodModel.minpoly tiny64_ops M (tiny64_new seed) 0%coqZ 0%coqZ = Ret (mu, s') /\ primitive mu 127.
Proof.
move=> /tiny64_ok; move: (tiny64_new seed) => t [W [[E1 [E2 E3]] Z]].
have H := ok64 W; have Ep : parm t = pub64 by rewrite /parm E1 E2 E3.
rewrite Ep in H.
apply: (@minpoly_full _ tiny64_ops 127 (t64_ok pub64) t64_vec (t64_A pub64) (t64_C pub64) _ (ltn0Sn 126) (t64_lin pub64_ok)
  (linout64 pub64_ok) pub64_max (erefl _) M HM _ start64 start64_ok).
- by [].
- by vm_compute.
- exact: H.
- by apply/eqP => /(vec64_0 H).
Qed.
Definition start32 : tmt := Tmt (0, 0, 0, 1)%num 0x8f7011ee 0xfc78ff1f 0x3793fdff.
Lemma min32 seed : (seed < 2 ^ 32)%num ->
  exists mu s', PeriodModel.minpoly tiny32_ops M (tiny32_new seed) 0%coqZ 0%coqZ = Ret (mu, s') /\ primitive mu 127.
Proof.
move=> /new_ok; move: (tiny32_new seed) => t [H Z].
apply: (@minpoly_full _ tiny32_ops 127 (t32_ok tiny_pub) t32_vec (tiny_A (tiny_pub, false)) (tiny_C (tiny_pub, false)) _ (ltn0Sn 126)
  (tiny32_linear tiny_pub) (linout32 (p := tiny_pub)) tiny_pub_max (erefl _) M HM _ start32).
- by [].
- by split.
- by vm_compute.
- exact: H.
- apply/eqP => V; apply: Z; have [_ /ok_iff[Q P]] := H.
  by rewrite -norm_state; apply/(tiny_isZeroE (as_search t)); apply/(tiny_isZero_vec (t32_search H)).
Qed.
Lemma prim_deg mu : primitive mu 127 -> deg mu = 127%coqZ /\ irredb mu.
Proof. by case=> I sz _ _; split; [rewrite /deg sz|apply/irredP]. Qed.
Lemma u32_ok seed : (seed < 2 ^ 32)%num -> period_u32 M seed = Ret true.
Proof. by move=> /min32[mu [s' [E /prim_deg[d _]]]]; rewrite /period_u32 E; cbn [bind]; rewrite d. Qed.
Lemma u64_ok seed : (seed < 2 ^ 64)%num -> period_u64 M seed = Ret true.
Proof. by move=> /min64[mu [s' [E /prim_deg[d _]]]]; rewrite /period_u64 E; cbn [bind]; rewrite d. Qed.
Lemma irr64_ok seed : (seed < 2 ^ 64)%num -> is_irreducible_64 M seed = Ret true.
Proof. by move=> /min64[mu [s' [E /prim_deg[_ I]]]]; rewrite /is_irreducible_64 E; cbn [bind]; rewrite /isIrreducible I. Qed.
Lemma prime64_ok seed : (seed < 2 ^ 64)%num -> is_prime_64 M seed = Ret true.
Proof.
move=> /min64[mu [s' [E /prim_deg[d I]]]]; rewrite /is_prime_64 E; cbn [bind].
by rewrite /isPrime /isIrreducible I d; vm_compute.
Qed.
End Prog.
(** The ninth entry should be 67280421310721. *)
Lemma table_wrong : exists l, read_table (List.map chars test_table) = Ret l /\
  (exists q, List.In q l /\ ~ (q | 2 ^ 128 - 1)%num) /\
  (exists q, prime (N.to_nat q) /\ (q | 2 ^ 128 - 1)%num /\ ~ List.In q l).
Proof.
exists [:: 3; 5; 17; 257; 641; 65537; 274177; 6700417; 672804213107211]%num; split; first exact: test_read.
split.
- exists 672804213107211%num; split; first by cbn [List.In]; tauto.
  by move=> /N.mod_divide D; have/D : 672804213107211%num <> 0%num by []; vm_compute.
- exists rN; split; last split.
  + have [P _ _ _] := shipped_ok (or_introl (erefl _) : List.In (N.to_nat 128, prime_factors2_128_1) shipped_tables).
    have/P[H _] : List.In rN (tab_values prime_factors2_128_1) by vm_compute; tauto.
    exact: H.
  + by apply/N.mod_divide; [|vm_compute].
  + by rewrite /rN; cbn [List.In]; clear; lia.
Qed.
