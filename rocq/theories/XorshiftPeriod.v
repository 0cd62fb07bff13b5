(** The period and the equidistribution of the published xorshift generators
    (5,14,1) and (20,11,7), and the programs xorshift-1.cpp, xorshift-2.cpp. *)
From Coq Require Import NArith ZArith List Bool.
From mathcomp Require Import all_ssreflect all_algebra.
From mathcomp Require Import zify.
From Verif Require Import Base WordLemmas WordVec GenModel UtilModel PolyF2 LinSpec LinLemmas LinInst PeriodSpec PeriodModel
  EquiModel EquiProofs5 EquiProofs6 EquiEx PeriodProofs PeriodProofs2 PeriodProofs3 PolyAct PeriodProofs4 PeriodProofs5 PeriodProofs7 LinOut
  PrimeTables PrimeTableProofs XorshiftModel XorshiftSpec XorshiftProofs XorshiftProofs2 XorshiftLin XorshiftFamily SampleModel SampleSpec
  SampleProofs PeriodCert PeriodCertProofs.
Set Implicit Arguments.
Unset Strict Implicit.
Unset Printing Implicit Defensive.
Import GRing.Theory.
Local Open Scope ring_scope.

Definition primes128 : list N := tab_values prime_factors2_128_1.
Lemma primes128_all : all_primes_of (2 ^ 128 - 1) primes128.
Proof.
have [H _ _ _] := shipped_ok (or_introl (erefl (128%N, prime_factors2_128_1))).
by move=> q Pq Dq; apply/H; rewrite Nat2N.id.
Qed.
Lemma primes128_ok : prime_divisors (2 ^ 128 - 1) primes128.
Proof. by have [H _ _ _] := shipped_ok (or_introl (erefl (128%N, prime_factors2_128_1))). Qed.

Definition xs_eqb (s t : xs) : bool :=
  ((xs_x s =? xs_x t) && (xs_y s =? xs_y t) && (xs_z s =? xs_z t) && (xs_w s =? xs_w t))%num.
Lemma xs_eqbP s t : reflect (s = t) (xs_eqb s t).
Proof.
apply: (iffP idP) => [|->]; last by rewrite /xs_eqb !N.eqb_refl.
by case: s t => [x y z w] [x' y' z' w']; rewrite /xs_eqb /= => /andP[/andP[/andP[/N.eqb_eq -> /N.eqb_eq ->] /N.eqb_eq ->] /N.eqb_eq ->].
Qed.
Definition m128 : positive := 340282366920938463463374607431768211455.
Lemma m128E : N.pos m128 = (2 ^ N.of_nat 128 - 1)%num. Proof. by []. Qed.
Definition xs_seed1 : xs := xs_seed 1 (XS 0 0 0 0).
(** The certificate: f annihilates the first state; back after 2^128-1 steps,
    but not after (2^128-1)/q steps. *)
Definition xs_cert (gen : xs -> N * xs) (f : N) : bool :=
  let G := xs_ops gen in
  xs_eqb (pc_actN G f xs_seed1) xs_zero &&
  xs_eqb (pc_jump G 128 f m128 xs_seed1) xs_seed1 &&
  List.forallb (fun q => match (N.pos m128 / q)%num with
                         | N0 => false
                         | Npos k => ~~ xs_eqb (pc_jump G 128 f k xs_seed1) xs_seed1
                         end) primes128.

Section Cert.
Variables (gen : xs -> N * xs) (g h : N -> N).
Hypothesis Lg : wlin g.
Hypothesis Lh : wlin h.
Hypothesis Hgen : gen = xs_shape g h.
Notation G := (xs_ops gen).

Lemma cert_lin : linear_gen G xs_okw xs_vec (xs_A gen) (xs_C gen).
Proof. by rewrite Hgen; exact: xs_shape_lin. Qed.
Lemma vec0 : xs_vec xs_zero = 0.
Proof. by apply/vec_zero => i _; exact: xs_bits_zero. Qed.
Lemma seed1_ok : xs_okw xs_seed1. Proof. by []. Qed.
Lemma seed1_neq0 : xs_seed1 <> xs_zero. Proof. by []. Qed.
Lemma vec_neq0 s : xs_okw s -> s <> xs_zero -> xs_vec s != 0.
Proof. by move=> Hs n0; apply/eqP; rewrite -vec0 => /(xs_vec_inj Hs xs_zero_ok). Qed.
Lemma xs_cert_ok f : xs_cert gen f -> maximal_period (xs_A gen).
Proof.
case/andP=> /andP[/xs_eqbP C1 /xs_eqbP C2] C3.
have Hf : xs_vec (pc_actN G f xs_seed1) = 0 by rewrite C1 vec0.
have F : full_period (xs_A gen) (xs_vec xs_seed1).
  have n0 := vec_neq0 seed1_ok seed1_neq0.
  apply: (period_cert cert_lin seed1_ok Hf (w := 128%num) (ltn0Sn 127) n0 primes128_all m128E); first by rewrite C2.
  move=> q Hq; have := proj1 (List.forallb_forall _ _) C3 q Hq.
  case: (N.div _ _) => [|k]; first by [].
  move=> /xs_eqbP Hk; exists k; split; first exact: erefl.
  move=> E; apply: Hk; apply: (xs_vec_inj _ seed1_ok E).
  exact: (actN_ok cert_lin _ seed1_ok).1.
have P := full_primitive (ltn0Sn 127) F.
move=> x x0; exact: (primitive_full P (cayley _ _) x0).
Qed.
(** In terms of the states themselves. *)
Lemma xs_period : maximal_period (xs_A gen) -> forall s, xs_okw s -> s <> xs_zero ->
  iter (2 ^ 128 - 1) (fun t => (gen t).2) s = s /\
  forall i, (0 < i < 2 ^ 128 - 1)%N -> iter i (fun t => (gen t).2) s <> s.
Proof.
move=> H s Hs n0; have [_ H1 H2] := H _ (vec_neq0 Hs n0).
have R i : xs_okw (iter i (fun t => (gen t).2) s) /\ xs_vec (iter i (fun t => (gen t).2) s) = st (xs_A gen) i (xs_vec s).
  elim: i => [//|i [IH1 IH2]]; rewrite iterS stS -IH2; split.
  - exact: (lin_generate_ok cert_lin IH1).
  - exact: (lin_generate_abs cert_lin IH1).
split; first by apply: xs_vec_inj => //; [exact: (R _).1|rewrite (R _).2].
by move=> i Hi E; have := H2 i Hi; rewrite -(R i).2 E eqxx.
Qed.
End Cert.

Lemma cert_5_14_1 : xs_cert (xs3_generate 5 14 1) 0x100a8e9b5caadf48ae8eff7bae3f6ca09 = true.
Proof. by vm_compute. Qed.
Lemma cert_20_11_7 : xs_cert (xs5_generate 20 11 7) 0x1000000c1c0d910998f0f311e6cf500c1 = true.
Proof. by vm_compute. Qed.
Lemma max_5_14_1 : maximal_period (xs_A (xs3_generate 5 14 1)).
Proof. exact: (xs_cert_ok (g3_lin 1) (h3_lin 5 14) (erefl _) cert_5_14_1). Qed.
Lemma max_20_11_7 : maximal_period (xs_A (xs5_generate 20 11 7)).
Proof. exact: (xs_cert_ok (g5_lin 20) (h3_lin 11 7) (erefl _) cert_20_11_7). Qed.
Lemma period_5_14_1 s : xs_okw s -> s <> xs_zero ->
  iter (2 ^ 128 - 1) (fun t => (xs3_generate 5 14 1 t).2) s = s /\
  forall i, (0 < i < 2 ^ 128 - 1)%N -> iter i (fun t => (xs3_generate 5 14 1 t).2) s <> s.
Proof. exact: (xs_period (g3_lin 1) (h3_lin 5 14) (erefl _) max_5_14_1). Qed.
Lemma period_20_11_7 s : xs_okw s -> s <> xs_zero ->
  iter (2 ^ 128 - 1) (fun t => (xs5_generate 20 11 7 t).2) s = s /\
  forall i, (0 < i < 2 ^ 128 - 1)%N -> iter i (fun t => (xs5_generate 20 11 7 t).2) s <> s.
Proof. exact: (xs_period (g5_lin 20) (h3_lin 11 7) (erefl _) max_20_11_7). Qed.

(** xorshift-1.cpp *)
Lemma read128 : read_table (List.map chars prime_factors2_128_1) = Ret primes128.
Proof. by vm_compute. Qed.
Lemma xs1_program M : minpolyseq_spec M -> xs1_main M = Ret (128%coqZ, true).
Proof.
move=> HM; rewrite /xs1_main -/xs_seed1 /xs1_generate.
have LG := xs_shape_lin (g3_lin 1) (h3_lin 5 14).
have LO := shape_out (g3_lin 1) (h3_lin 5 14).
have [|mu [E Hm]] := minpoly_spec (G := xs_ops (xs3_generate 5 14 1)) LG LO HM (stateSize := 0) seed1_ok (p := 0%N) (erefl _); first by [].
rewrite E; cbn [bind].
have F := max_5_14_1 (vec_neq0 seed1_ok seed1_neq0).
have P : primitive mu 128.
  have Hgen (p : unit) : exists g h, [/\ wlin g, wlin h & xs3_generate 5 14 1 = xs_shape g h].
    by exists (g3 1), (h3 5 14); split; [exact: g3_lin|exact: h3_lin|].
  have Hl := @low_bit unit (fun _ => xs3_generate 5 14 1) Hgen tt F.
  have [q Hq Pq] := full_good (ltn0Sn 127) F Hl.
  by rewrite (minpoly_unique Hm Hq).
rewrite /isPrime_str read128; cbn [bind].
have [_ sz _ _] := P.
have -> : deg mu = 128%coqZ by rewrite /deg sz.
have nX : (128%N, mu) <> (1%N, 'X) by case.
by have /(isPrime_vec_iff primes128_ok nX) -> := P.
Qed.

(** xorshift-2.cpp *)
Definition ks2 (v : nat) : nat := List.nth (v - 1) [:: 128; 64; 42; 24; 24]%N 4%N.
Notation A2 := (xs_A (xs3_generate 5 14 1)).
Notation C2 := (xs_C (xs3_generate 5 14 1)).
Lemma xs_equi x v : x != 0 -> (1 <= v <= 32)%N -> equidist_dim A2 C2 x v (ks2 v).
Proof.
move=> x0 Hv.
have F := max_5_14_1 (vec_neq0 seed1_ok seed1_neq0).
by have := xs2_dims Hv; rewrite -/xs_seed1 => /(start_maximal C2 v _ F x0).
Qed.
Lemma xs_classical x v : x != 0 -> (1 <= v <= 32)%N ->
  classical_equidist A2 C2 x (ks2 v) v /\ forall k, classical_equidist A2 C2 x k v -> (k <= ks2 v)%N.
Proof. by move=> x0 Hv; have [H1 [H2 _]] := dim_classical (max_5_14_1 x0) (xs_equi x0 Hv). Qed.
Lemma dim_unique n (A : 'M['F_2]_n) C x v k k' : equidist_dim A C x v k -> equidist_dim A C x v k' -> k = k'.
Proof. by move=> [H1 H2] [H3 H4]; apply/eqP; rewrite eqn_leq H2 // H4. Qed.
Lemma xs2_program pos fuel veq0 : pos_spec 32 pos -> (17000 <= N.of_nat fuel)%num -> (32 <= length veq0)%N ->
  xs2_main pos fuel veq0 = Ret (List.map (fun v => let k := Z.of_nat (ks2 v) in (k, 128 / Z.of_nat v - k)%coqZ) (List.seq 1 32), 117%coqZ).
Proof.
move=> Hpos Hf Hv; rewrite /xs2_main -/xs_seed1 /xs1_generate.
have Set_ : [/\ linear_gen (xs_ops (xs3_generate 5 14 1)) xs_okw xs_vec A2 C2,
  forall s, xs_okw s -> g_bitSize (xs_ops (xs3_generate 5 14 1)) s = 128%N, (128 <= 2 * 128 + 1)%N & pos_spec (g_width (xs_ops (xs3_generate 5 14 1))) pos].
  by split=> //; exact: xs3_lin.
have He : ((2 * 128 + 2 * 128 + 2) * (N.to_nat (g_width (xs_ops (xs3_generate 5 14 1)))).+1 <= fuel)%N.
  have -> : ((2 * 128 + 2 * 128 + 2) * (N.to_nat (g_width (xs_ops (xs3_generate 5 14 1)))).+1)%N = N.to_nat 16962 by vm_compute.
  by lia.
have HL : (N.of_nat 32 <= g_width (xs_ops (xs3_generate 5 14 1)))%num by [].
have [a' [veq' [[E V _ _ _] _]]] := @EquiEx.run_ok _ _ _ _ _ _ _ _ _ Set_ xs_seed1 0%coqZ 128 32 veq0 fuel seed1_ok (xs3_sbs 5 14 1 _) He isT HL Hv.
rewrite E; cbn [bind].
have Hk i : (i < 32)%N -> List.nth i veq' 0%coqZ = Z.of_nat (ks2 i.+1).
  move=> Hi; have [k [Ek [Dk _]]] := V i Hi.
  rewrite (List.nth_error_nth _ _ _ Ek); congr Z.of_nat.
  by apply: dim_unique Dk _; apply: xs_equi => //; exact: (vec_neq0 seed1_ok seed1_neq0).
congr (Ret (_, _)).
- rewrite -List.seq_shift List.map_map; apply: List.map_ext_in => i /List.in_seq Hi.
  rewrite Hk; last by lia.
  by have -> : (Z.of_nat i + 1)%coqZ = Z.of_nat i.+1 by lia.
- rewrite /defect_sum (List.map_ext_in _ (fun i => Z.of_nat (128 %/ i.+1) - Z.of_nat (ks2 i.+1))%coqZ) //.
  by move=> i /List.in_seq Hi; rewrite Hk //; lia.
Qed.
Lemma xs2_strict : xs2_main calc_1pos32 (N.to_nat 17000) (List.repeat 0%coqZ 32) = Undef.
Proof. by vm_compute. Qed.

Lemma xorshift128_period seed : (seed < 2 ^ 32)%num -> let s := xorshift128_init seed in
  iter (2 ^ 128 - 1) (fun t => (xs5_generate 20 11 7 t).2) s = s /\
  forall i, (0 < i < 2 ^ 128 - 1)%N -> iter i (fun t => (xs5_generate 20 11 7 t).2) s <> s.
Proof.
move=> _ s; apply: period_20_11_7; first exact: init_okw.
by move=> E; have := init_nonzero seed; rewrite -/s E.
Qed.
