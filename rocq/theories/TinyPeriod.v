(** The parameters mat1 = 8f7011ee, mat2 = fc78ff1f, tmat = 3793fdff of TinyMT32
    (the first two also in test/test_generator.hpp:21-22): period and defect. *)
From Coq Require Import NArith ZArith List Bool.
From mathcomp Require Import all_ssreflect all_algebra.
From mathcomp Require Import zify.
From Verif Require Import Base WordLemmas WordVec GenModel UtilModel PolyF2 LinSpec LinLemmas LinInst LinOut PeriodSpec PeriodModel
  EquiModel EquiProofs5 EquiProofs6 EquiEx PeriodProofs PeriodProofs2 PeriodProofs3 PolyAct PeriodProofs4 PeriodProofs5 PeriodProofs7 SequentialModel
  MersenneProofs SampleSpec SampleProofs PeriodCert PeriodCertProofs TemperModel TemperSpec RecTemperModel RecTemperProofs
  TinyModel TinyDcModel TinyLin TinySpec TinyProofs TinyDcProofs.
Set Implicit Arguments.
Unset Strict Implicit.
Unset Printing Implicit Defensive.
Import GRing.Theory.
Local Open Scope ring_scope.
Delimit Scope Z_scope with coqZ.

Definition m127 : positive := 170141183460469231731687303715884105727.
Lemma m127E : N.pos m127 = (2 ^ N.of_nat 127 - 1)%num. Proof. by []. Qed.
Lemma m127_nat : N.to_nat (N.pos m127) = (2 ^ 127 - 1)%N.
Proof. by rewrite m127E N_pow2. Qed.
Lemma m127_all : all_primes_of (2 ^ 127 - 1) (N.pos m127 :: nil).
Proof.
move=> q Pq Dq; left; apply: N2Nat.inj; rewrite m127_nat Nat2N.id.
have := m127_prime; move: (2 ^ 127 - 1)%N Dq => e Dq Pe.
by apply/esym/eqP; rewrite -dvdn_prime2.
Qed.

Definition q_eqb (a b : quad) : bool :=
  ((a.1.1.1 =? b.1.1.1) && (a.1.1.2 =? b.1.1.2) && (a.1.2 =? b.1.2) && (a.2 =? b.2))%num.
Lemma q_eqbP a b : reflect (a = b) (q_eqb a b).
Proof.
apply: (iffP idP) => [|->]; last by rewrite /q_eqb !N.eqb_refl.
by case: a b => [[[x y] z] w] [[[x' y'] z'] w']; rewrite /q_eqb /= => /andP[/andP[/andP[/N.eqb_eq -> /N.eqb_eq ->] /N.eqb_eq ->] /N.eqb_eq ->].
Qed.
Notation nst g := (q_norm (tm_st g)).
(** The certificate: f annihilates the state (0,0,0,1), which comes back after
    2^127-1 steps but not after one; the number 2^127-1 is prime. *)
Definition tiny_cert (p : tiny_param) (f : N) : bool :=
  let s := tiny_start p in
  [&& p_ok p, q_eqb (nst (pc_actN tiny_ops f s)) q0, q_eqb (nst (pc_jump tiny_ops 127 f m127 s)) (nst s) &
      ~~ q_eqb (nst (pc_jump tiny_ops 127 f 1 s)) (nst s)].
Lemma start_q p : q_ok (tm_st (tiny_start p)). Proof. by []. Qed.
Lemma cert_gen p f (m : positive) : all_primes_of (2 ^ 127 - 1) (N.pos m :: nil) -> N.pos m = (2 ^ N.of_nat 127 - 1)%num ->
  p_ok p -> nst (pc_actN tiny_ops f (tiny_start p)) = q0 -> nst (pc_jump tiny_ops 127 f m (tiny_start p)) = nst (tiny_start p) ->
  nst (pc_jump tiny_ops 127 f 1 (tiny_start p)) <> nst (tiny_start p) -> tiny_maximal p.
Proof.
move=> Hm1 Hm2 Hp C1 C2 C3.
have LG := tiny_lin_all (p, false).
have okS := start_ok Hp.
have okS4 := start_q p.
have okJ k : q_ok (tm_st (pc_jump tiny_ops 127 f k (tiny_start p))).
  by have [[_ _ _ H] _] := actN_ok LG (pc_pow 127 f k) okS.
have [okf _] := actN_ok LG f okS.
have Hf : tiny_vec (pc_actN tiny_ops f (tiny_start p)) = 0.
  by apply/(tiny_isZero_vec okf)/tiny_isZeroE.
have F : full_period (tiny_A (p, false)) (tiny_vec (tiny_start p)).
  apply: (period_cert LG okS Hf (w := 127%num) (ltn0Sn 126) (start_neq0 Hp) Hm1 Hm2).
  - exact: (proj2 (tiny_vec_eq (okJ m) okS4) C2).
  - move=> q [<-|[]]; exists 1%positive; split; first exact: N.div_same.
    move=> E; apply: C3; exact: (proj1 (tiny_vec_eq (okJ _) okS4) E).
have P := full_primitive (ltn0Sn 126) F.
move=> x x0; exact: (primitive_full P (cayley _ _) x0).
Qed.
Lemma tiny_cert_ok p f : tiny_cert p f -> tiny_maximal p.
Proof.
rewrite /tiny_cert => /and4P[Hp /q_eqbP C1 /q_eqbP C2 /q_eqbP C3].
exact: (cert_gen m127_all m127E Hp C1 C2 C3).
Qed.

Definition tiny_pub : tiny_param := TP 0 0x8f7011ee 0xfc78ff1f 0x3793fdff.
Lemma tiny_pub_cert : tiny_cert tiny_pub 0xd8524022ed8dff4a8dcc50c798faba43 = true.
Proof. by vm_compute. Qed.
Lemma tiny_pub_max : tiny_maximal tiny_pub.
Proof. exact: (tiny_cert_ok tiny_pub_cert). Qed.
(** They come from the number 7fffff8f with the id 0. *)
Lemma tiny_pub_from : tiny_params 0 0x7fffff8f = TP 0 0x8f7011ee 0xfc78ff1f 0.
Proof. by vm_compute. Qed.
Lemma tiny_pub_params : tiny_maximal (tiny_params 0 0x7fffff8f).
Proof. by rewrite tiny_pub_from; apply: (max_eq _ tiny_pub_max); apply: tiny_A_mat. Qed.
Definition pos32 (x : N) : res Z := Ret (calc_1pos32_wrap x).
Lemma tiny_pub_measured : tiny_defect pos32 (N.to_nat 17000) (List.repeat 0%coqZ 32) (tiny_start tiny_pub) = Ret 0%coqZ.
Proof. by vm_compute. Qed.
Lemma cost_of pos fuel veq0 g d : tiny_defect pos fuel veq0 g = Ret d -> tiny_cost pos fuel veq0 g = d.
Proof. by rewrite /tiny_cost => ->. Qed.
Lemma pos32_ok : pos_spec 32 pos32. Proof. exact: pos_spec32. Qed.
Lemma tiny_pub_defect : total_defect (tiny_A (tiny_pub, false)) (tiny_C (tiny_pub, false)) 32 0.
Proof.
have L : tiny_legal (tiny_start tiny_pub) by [].
have Hf : (17000 <= N.of_nat (N.to_nat 17000))%num by rewrite N2Nat.id.
have := total_ok pos32_ok Hf (veq0 := List.repeat 0%coqZ 32) isT L tiny_pub_max (start_neq0 (p := tiny_pub) isT).
by rewrite (cost_of tiny_pub_measured).
Qed.
(** In terms of the states themselves. *)
Lemma tiny_period p : p_ok p -> tiny_maximal p -> forall q, q_ok q -> q_norm q <> q0 ->
  q_norm (iter (2 ^ 127 - 1) (tiny_next p) q) = q_norm q /\
  forall i, (0 < i < 2 ^ 127 - 1)%N -> q_norm (iter i (tiny_next p) q) <> q_norm q.
Proof.
move=> Hp H q Hq n0; have LG := tiny_lin_all (p, false).
pose g t := TM t p false.
have okg t : q_ok t -> tiny_ok (p, false) (g t) by [].
have v0 : tiny_vec (g q) != 0 by apply/eqP => /(tiny_isZero_vec (okg q Hq)) /tiny_isZeroE.
have [_ H1 H2] := H _ v0.
move: (2 ^ 127 - 1)%N H1 H2 => e H1 H2.
have R i : q_ok (iter i (tiny_next p) q) /\ tiny_vec (g (iter i (tiny_next p) q)) = st (tiny_A (p, false)) i (tiny_vec (g q)).
  elim: i => [//|i [IH1 IH2]]; rewrite iterS stS -IH2; split.
  - by have [_ _ _] := lin_generate_ok LG (okg _ IH1).
  - exact: (lin_generate_abs LG (okg _ IH1)).
split.
  apply: (proj1 (tiny_vec_eq (g := g _) (h := g _) (R _).1 Hq)); by rewrite (R _).2.
move=> i Hi E; have := H2 i Hi; rewrite -(R i).2 (proj2 (tiny_vec_eq (g := g _) (h := g _) (R i).1 Hq) E) eqxx; by [].
Qed.
