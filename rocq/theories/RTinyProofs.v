(** The class RTiny32: linearity, period, and the tests that use it. *)
From Coq Require Import NArith ZArith List Bool Lia.
From mathcomp Require Import all_ssreflect all_algebra.
From mathcomp Require Import zify.
From Verif Require Import Base WordLemmas WordVec GenModel UtilModel PolyF2 LinSpec LinLemmas LinInst LinOut PeriodSpec PeriodModel PeriodProofs
  PeriodProofs2 PeriodProofs3 PolyAct PeriodProofs4 PeriodProofs5 PeriodProofs7 EquiProofs5 PrimeTables PrimeTableProofs
  SampleSpec SampleProofs XorshiftModel XorshiftSpec XorshiftProofs XorshiftLin XorshiftFamily XorshiftPeriod PeriodCert PeriodCertProofs
  TinyLin TmtModel TmtProofs T64Lin TestPerModel TestPerProofs RTinyModel.
Set Implicit Arguments.
Unset Strict Implicit.
Unset Printing Implicit Defensive.
Import GRing.Theory.
Local Open Scope ring_scope.
Delimit Scope N_scope with num.
Delimit Scope Z_scope with coqZ.

Definition rt_ok (p : rtpar) : Prop := (r_mat1 p < 2 ^ 32)%num /\ (r_mat2 p < 2 ^ 32)%num.
Section Par.
Variable p : rtpar.
Local Open Scope N_scope.
Definition rY (y : N) : N := let y := N.lxor y (wshr y (r_sh1 p)) in N.lxor y (wshl 32 y (r_sh2 p)).
Definition rX (x : N) : N := let x := N.lxor x (wshl 32 x (r_sh3 p)) in N.lxor x (wshr x (r_sh4 p)).
Definition rW (s : xs) : N := N.lxor (rX (xs_x s)) (rY (xs_y s)).
Definition rS (s : xs) : xs :=
  XS (xs_y s) (N.lxor (xs_z s) (sel (N.testbit (rW s) 0) (r_mat1 p)))
     (N.lxor (xs_w s) (sel (N.testbit (rW s) 0) (r_mat2 p))) (rW s).
Lemma rt_genE s : rt_generate p s = (xs_y s, rS s).
Proof.
case: s => x y z w; rewrite /rt_generate land1' /rS /rW /rX /rY; cbn [xs_x xs_y xs_z xs_w].
by case: (N.testbit _ 0); rewrite /sel ?N.lxor_0_r.
Qed.
Lemma rY_add a b : rY (N.lxor a b) = N.lxor (rY a) (rY b).
Proof. by rewrite /rY wshr_lin lxor_swap wshl_lin lxor_swap. Qed.
Lemma rX_add a b : rX (N.lxor a b) = N.lxor (rX a) (rX b).
Proof. by rewrite /rX wshl_lin lxor_swap wshr_lin lxor_swap. Qed.
Lemma rW_add s t : rW (xs_add s t) = N.lxor (rW s) (rW t).
Proof. by rewrite /rW /xs_add; cbn [xs_x xs_y]; rewrite rX_add rY_add lxor_swap. Qed.
Lemma rS_add s t : rS (xs_add s t) = xs_add (rS s) (rS t).
Proof.
rewrite /rS rW_add N.lxor_spec !sel_add /xs_add; cbn [xs_x xs_y xs_z xs_w].
by rewrite (lxor_swap (xs_z s)) (lxor_swap (xs_w s)).
Qed.
Lemma rY_lt y : y < 2 ^ 32 -> rY y < 2 ^ 32.
Proof. by move=> H; apply: (lxor_lt 32); [apply: (lxor_lt 32) => //; exact: shiftr_lt|exact: wshl_lt]. Qed.
Lemma rX_lt y : y < 2 ^ 32 -> rX y < 2 ^ 32.
Proof.
move=> H; have L : N.lxor y (wshl 32 y (r_sh3 p)) < 2 ^ 32 by apply: (lxor_lt 32) => //; exact: wshl_lt.
by apply: (lxor_lt 32) => //; exact: shiftr_lt.
Qed.
Lemma rS_ok s : rt_ok p -> xs_okw s -> xs_okw (rS s).
Proof.
move=> [P1 P2] [S1 [S2 [S3 S4]]]; have W : rW s < 2 ^ 32 by apply: (lxor_lt 32); [exact: rX_lt|exact: rY_lt].
by split; [|split; [|split]] => //; apply: (lxor_lt 32) => //; exact: sel_lt.
Qed.
Lemma rS0 : rS xs_zero = xs_zero.
Proof. by rewrite /rS /rW /rX /rY /xs_zero; cbn [xs_x xs_y xs_z xs_w]; rewrite /wshr /wshl !N.shiftr_0_l !N.shiftl_0_l. Qed.
Definition rt_A : 'M['F_2]_128 := trans_mat 128 xs_bits xs_mk (rt_ops p).
Definition rt_ob (s : xs) (j : nat) : bool := N.testbit (xs_y s) (31 - N.of_nat j).
Definition rt_C : nat -> 'cV['F_2]_128 := out_col 128 xs_mk rt_ob.
Lemma rt_lin : rt_ok p -> linear_gen (rt_ops p) xs_okw xs_vec rt_A rt_C.
Proof.
move=> P; apply: (@linear_gen_intro xs 128 xs_okw xs_bits xs_mk xs_add).
- exact: xs_mk_ok.
- exact: xs_bits_mk.
- exact: xs_add_ok.
- by move=> *; exact: xs_bits_add.
- by [].
- by move=> s Hs; cbn [g_generate rt_ops]; rewrite rt_genE; exact: rS_ok.
- by move=> s t i Hs Ht Hi; cbn [g_generate rt_ops]; rewrite !rt_genE; cbn [snd]; rewrite rS_add xs_bits_add.
- move=> s Hs H i Hi; rewrite (xs_bits_eq0 Hs H); cbn [g_generate rt_ops]; rewrite rt_genE; cbn [snd].
  rewrite rS0; exact: xs_bits_zero.
- by move=> s t j _ _ _; rewrite /rt_ob -N.lxor_spec.
- by move=> s Hs H j _; rewrite (xs_bits_eq0 Hs H) /rt_ob N.bits_0.
- by move=> v s _ _; cbn [g_generate_len g_generate rt_ops]; rewrite /xs_generate_len; case: (rt_generate p s).
- move=> v s [_ [H _]] _; cbn [g_generate_len g_width rt_ops]; rewrite /xs_generate_len rt_genE; cbn [fst]; exact: land_lt.
- move=> v s j Hs Hv Hj; cbn [g_generate_len g_width rt_ops]; rewrite /xs_generate_len rt_genE /rt_ob; cbn [fst].
  exact: (@top_mask_land 32 v (xs_y s) j).
- by [].
- by move=> s i _ _; exact: xs_bits_zero.
Qed.
Definition rt_D : nat -> 'cV['F_2]_128 := full_col (rt_ops p) rt_C.
Lemma rt_out : rt_ok p -> linear_out (rt_ops p) xs_okw xs_vec rt_D.
Proof.
move=> P; apply: (full_linear (rt_lin P)) => // s Hs; cbn [g_generate_len g_generate g_width rt_ops].
by apply: xs_len32; rewrite rt_genE; case: Hs => _ [].
Qed.

(** * The seeded state is never zero *)
Lemma rt_seed_ok v : rt_ok p -> v < 2 ^ 32 -> xs_okw (rt_seed p v) /\ rt_seed p v <> xs_zero.
Proof.
move=> [P1 P2] Hv; rewrite /rt_seed; cbn [List.fold_left].
rewrite turn1 turn2 turn3 turn4 turn5 turn6 turn7.
move: (r_mat1 p) (r_mat2 p) P1 P2 => b c Hb Hc.
split.
- have G i x : gv i x < 2 ^ 32 by exact: gv_lt.
  by split; [|split; [|split]]; cbn [xs_x xs_y xs_z xs_w]; repeat (apply: (lxor_lt 32) => //).
- move: (N.lxor v _) => a4; set b1 := N.lxor b _; move: b1 => b1; move: (N.lxor c _) => c2 E.
  have B := f_equal xs_y E; have C := f_equal xs_z E; have D := f_equal xs_w E.
  cbn [xs_y xs_z xs_w xs_zero] in B, C, D.
  move: D; rewrite C => /N.lxor_eq; rewrite N.lxor_0_l.
  by move: C; rewrite B => /N.lxor_eq ->; vm_compute.
Qed.
End Par.

(** * The period with the default parameters *)
Definition rt_cert (p : rtpar) (f : N) : bool :=
  let G := rt_ops p in
  xs_eqb (pc_actN G f xs_seed1) xs_zero &&
  xs_eqb (pc_jump G 128 f m128 xs_seed1) xs_seed1 &&
  List.forallb (fun q => match (N.pos m128 / q)%num with
                         | N0 => false
                         | Npos k => ~~ xs_eqb (pc_jump G 128 f k xs_seed1) xs_seed1
                         end) primes128.
Lemma rt_cert_ok p f : rt_ok p -> rt_cert p f -> maximal_period (rt_A p).
Proof.
move=> P /andP[/andP[/xs_eqbP C1 /xs_eqbP C2] C3]; have LG := rt_lin P.
have Hf : xs_vec (pc_actN (rt_ops p) f xs_seed1) = 0 by rewrite C1 vec0.
have F : full_period (rt_A p) (xs_vec xs_seed1).
  have n0 := vec_neq0 seed1_ok seed1_neq0.
  apply: (period_cert LG seed1_ok Hf (w := 128%num) (ltn0Sn 127) n0 primes128_all m128E); first by rewrite C2.
  move=> q Hq; have := proj1 (List.forallb_forall _ _) C3 q Hq.
  case: (N.div _ _) => [|k]; first by [].
  move=> /xs_eqbP Hk; exists k; split; first exact: erefl.
  move=> E; apply: Hk; apply: (xs_vec_inj _ seed1_ok E).
  exact: (actN_ok LG _ seed1_ok).1.
have Q := full_primitive (ltn0Sn 127) F.
move=> x x0; exact: (primitive_full Q (cayley _ _) x0).
Qed.
Lemma cert_default : rt_cert rt_default 0x15e5f1f9957ba26c1da19bb412da397a1 = true.
Proof. by vm_compute. Qed.
Lemma default_ok : rt_ok rt_default. Proof. by []. Qed.
Lemma default_max : maximal_period (rt_A rt_default).
Proof. exact: (rt_cert_ok default_ok cert_default). Qed.
Definition rt_step (p : rtpar) (t : xs) : xs := (rt_generate p t).2.
Lemma rt_run p s i : rt_ok p -> xs_okw s -> xs_okw (iter i (rt_step p) s) /\ xs_vec (iter i (rt_step p) s) = st (rt_A p) i (xs_vec s).
Proof.
move=> P Hs; have LG := rt_lin P; elim: i => [//|i [IH1 IH2]]; rewrite iterS stS -IH2; split.
- exact: (lin_generate_ok LG IH1).
- exact: (lin_generate_abs LG IH1).
Qed.
Lemma rt_period p s : rt_ok p -> maximal_period (rt_A p) -> xs_okw s -> s <> xs_zero -> forall m, m = (2 ^ 128 - 1)%N ->
  iter m (rt_step p) s = s /\ forall i, (0 < i < m)%N -> iter i (rt_step p) s <> s.
Proof.
move=> P H Hs n0; have [_ H1 H2] := H _ (vec_neq0 Hs n0); move: H1 H2; move: (2 ^ 128 - 1)%N => k H1 H2 m ->.
split; first by apply: (xs_vec_inj (rt_run k P Hs).1 Hs); rewrite (rt_run k P Hs).2.
by move=> i Hi E; have := H2 i Hi; rewrite -(rt_run i P Hs).2 E eqxx.
Qed.
Lemma default_period s : xs_okw s -> s <> xs_zero -> forall m, m = (2 ^ 128 - 1)%N ->
  iter m (rt_step rt_default) s = s /\ forall i, (0 < i < m)%N -> iter i (rt_step rt_default) s <> s.
Proof. exact: (rt_period default_ok default_max). Qed.

(** * The tests *)
Section Prog.
Variable M : seq 'F_2 -> nat -> f2x.
Hypothesis HM : minpolyseq_spec M.
Lemma rt_mp p s : rt_ok p -> xs_okw s -> exists mu s', PeriodModel.minpoly (rt_ops p) M s 0%coqZ 0%coqZ = Ret (mu, s') /\
  is_minpoly (out_seq (rt_A p) (rt_D p) (xs_vec s) 0) mu.
Proof.
move=> P Hs; have w0 : (0 < 32)%num by [].
have [|mu [E Hm]] := minpoly_spec (rt_lin P) (rt_out P) HM (stateSize := 0) Hs (p := 0%N) w0; first exact: leqnn.
exists mu, (run (rt_ops p) (2 * mp_size (rt_ops p) s 0) s); split; [exact: E|exact: Hm].
Qed.
Lemma default_prim seed : (seed < 2 ^ 32)%num -> exists mu, rt_minpoly M rt_default seed = Ret mu /\ primitive mu 128.
Proof.
move=> /(rt_seed_ok default_ok)[Hs n0].
have [mu [s' [E Pm]]] := @minpoly_full _ (rt_ops rt_default) 128 xs_okw xs_vec (rt_A rt_default) rt_C (rt_D rt_default)
  (ltn0Sn 127) (rt_lin default_ok) (rt_out default_ok) default_max (erefl _) M HM (fun _ => erefl _) (XS 0 1 0 0)
  (conj (erefl _) (conj (erefl _) (conj (erefl _) (erefl _)))) (erefl _) _ Hs (vec_neq0 Hs n0).
exists mu; split; [rewrite /rt_minpoly E; cbn [bind]; reflexivity|exact: Pm].
Qed.
(** The wrong table does no harm to a primitive polynomial. *)
Lemma test_prim (mu : f2x) : primitive mu 128 -> test_isPrime mu = Ret true.
Proof.
move=> Pm; have [I sz _ Hk] := Pm.
rewrite /test_isPrime /isPrime_str test_read; cbn [bind].
rewrite /isPrime_vec -[128%coqZ]/(Z.of_nat 128) degZ_eq sz eqxx /isIrreducible.
have -> : irredb mu by apply/irredP.
cbn [negb]; apply/isPrime_loop_true; first by rewrite sz.
rewrite -[Z.to_N (Z.of_nat 128)]/128%num => q Hq; split.
  by move: Hq; cbn [List.In]; clear; lia.
apply: Hk; rewrite -N_pow2.
have : (0 < (2 ^ 128 - 1) / q < 2 ^ N.of_nat 128 - 1)%num.
  by move: Hq; cbn [List.In] => -[<-|[<-|[<-|[<-|[<-|[<-|[<-|[<-|[<-|[]]]]]]]]]]; vm_compute.
by move: ((2 ^ 128 - 1) / q)%num (2 ^ N.of_nat 128 - 1)%num => a b; clear; lia.
Qed.
End Prog.
