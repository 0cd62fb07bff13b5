(** TinyMT64 of test/ is a linear generator on 127 bits, with an invertible
    transition. *)
From Coq Require Import NArith ZArith List Bool Lia.
From mathcomp Require Import all_ssreflect all_algebra.
From mathcomp Require Import zify.
From Verif Require Import Base WordLemmas WordVec GenModel LinSpec LinLemmas LinInst PeriodSpec XorshiftProofs TinyLin T64Model T64Spec.
Set Implicit Arguments.
Unset Strict Implicit.
Unset Printing Implicit Defensive.
Local Open Scope N_scope.
Delimit Scope Z_scope with coqZ.

Definition pr : Type := N * N.
Definition M63 : N := 0x7fffffffffffffff.
Definition p2_ok (q : pr) : Prop := q.1 < 2 ^ 64 /\ q.2 < 2 ^ 64.
Definition p2_add (a b : pr) : pr := (N.lxor a.1 b.1, N.lxor a.2 b.2).
Definition sh (f : N -> N) (x : N) : N := N.lxor x (f x).
Definition xL (k : N) : N -> N := sh (fun x => wshl 64 x k).
Definition xR (k : N) : N -> N := sh (fun x => wshr x k).
Definition mixX (x : N) : N := xL 11 (xL 32 (xR 32 (xL 12 x))).
Definition pX (q : pr) : N := mixX (N.lxor (N.land q.1 M63) q.2).
Definition nx (m1 m2 : N) (q : pr) : pr :=
  (N.lxor q.2 (sel (N.testbit (pX q) 0) m1), N.lxor (pX q) (sel (N.testbit (pX q) 0) (wshl 64 m2 32))).
Lemma land1' y : negb (N.land y 1 =? 0) = N.testbit y 0.
Proof.
have -> : N.land y 1 = N.b2n (N.testbit y 0).
  by rewrite -[1]/(N.ones 1) N.land_ones N.bit0_mod.
by case: (N.testbit y 0).
Qed.
Lemma t64_nextE t : t64_next t = with_status64 t (nx (s_mat1 t) (s_mat2 t) (s_status t)).
Proof.
case: t => [[a b] m1 m2 tm]; rewrite /t64_next land1' /nx /pX /mixX /xL /xR /sh; cbn [fst snd s_status s_mat1 s_mat2].
rewrite -[0x7fffffffffffffff]/M63; move: (N.lxor (N.land a M63) b) => x.
by case: (N.testbit _ 0); rewrite /sel ?N.lxor_0_r.
Qed.
Lemma xL_add k a b : xL k (N.lxor a b) = N.lxor (xL k a) (xL k b).
Proof. by rewrite /xL /sh wshl_lin lxor_swap. Qed.
Lemma xR_add k a b : xR k (N.lxor a b) = N.lxor (xR k a) (xR k b).
Proof. by rewrite /xR /sh wshr_lin lxor_swap. Qed.
Lemma mix_add a b : mixX (N.lxor a b) = N.lxor (mixX a) (mixX b).
Proof. by rewrite /mixX !(xL_add, xR_add). Qed.
Lemma pX_add a b : pX (p2_add a b) = N.lxor (pX a) (pX b).
Proof. by rewrite /pX [(p2_add a b).1]/= [(p2_add a b).2]/= land_lin lxor_swap mix_add. Qed.
Lemma nx_add m1 m2 a b : nx m1 m2 (p2_add a b) = p2_add (nx m1 m2 a) (nx m1 m2 b).
Proof. by rewrite /nx pX_add N.lxor_spec !sel_add /p2_add /= (lxor_swap a.2) (lxor_swap (pX a)). Qed.
Lemma xL_lt k x : x < 2 ^ 64 -> xL k x < 2 ^ 64.
Proof. by move=> H; apply: (lxor_lt 64) => //; exact: wshl_lt. Qed.
Lemma xR_lt k x : x < 2 ^ 64 -> xR k x < 2 ^ 64.
Proof. by move=> H; apply: (lxor_lt 64) => //; exact: shiftr_lt. Qed.
Lemma mix_lt x : x < 2 ^ 64 -> mixX x < 2 ^ 64.
Proof. by move=> H; apply: xL_lt; apply: xL_lt; apply: xR_lt; apply: xL_lt. Qed.
Lemma pX_lt q : p2_ok q -> pX q < 2 ^ 64.
Proof. by case=> H0 H1; apply: mix_lt; apply: (lxor_lt 64) => //; exact: land_lt. Qed.
Lemma sel64_lt b m : m < 2 ^ 64 -> sel b m < 2 ^ 64.
Proof. by case: b => // _; exact: pow2_pos. Qed.
Lemma lt32_64 m : m < 2 ^ 32 -> m < 2 ^ 64. Proof. by move=> H; apply: N.lt_trans H _. Qed.
Lemma nx_ok m1 m2 q : m1 < 2 ^ 32 -> p2_ok q -> p2_ok (nx m1 m2 q).
Proof.
move=> H1 Hq; have [_ Q1] := Hq; split.
- by apply: (lxor_lt 64) => //; apply: sel64_lt; exact: lt32_64.
- by apply: (lxor_lt 64); [exact: pX_lt|apply: sel64_lt; exact: wshl_lt].
Qed.

(** * Zero *)
Lemma xL0 k y : 0 < k -> y < 2 ^ 64 -> xL k y = 0 -> y = 0.
Proof.
move=> Hk Hy /N.lxor_eq E; apply: N.bits_inj_0; apply: (well_founded_ind N.lt_wf_0) => i IH.
rewrite E wshl_spec; case: (i <? 64); rewrite //=; case: N.leb_spec => // Hi; apply: IH.
by move: Hk Hi; clear; lia.
Qed.
Lemma xR0 k y : 0 < k -> xR k y = 0 -> y = 0.
Proof.
move=> Hk /N.lxor_eq; rewrite /wshr N.shiftr_div_pow2 => E.
case: (N.eq_dec y 0) => // n0; have := N.div_lt y (2 ^ k); rewrite -E => H.
have : y < y; last by move: H; clear; lia.
apply: H; first by move: n0; clear; lia.
apply: N.pow_gt_1 => //; by move: Hk; clear; lia.
Qed.
Lemma mix0 x : x < 2 ^ 64 -> mixX x = 0 -> x = 0.
Proof.
move=> H E; have H1 := xL_lt 12 H; have H2 := xR_lt 32 H1; have H3 := xL_lt 32 H2.
by apply: (@xL0 12) => //; apply: (@xR0 32) => //; apply: (@xL0 32) => //; apply: (@xL0 11).
Qed.
Definition p2_norm (q : pr) : pr := (N.land q.1 M63, q.2).
Lemma M63_bit i : N.testbit M63 i = (i <? 63).
Proof.
have -> : M63 = N.ones 63 by [].
case: N.ltb_spec => H; [exact: N.ones_spec_low|exact: N.ones_spec_high].
Qed.
Lemma nx_norm m1 m2 q : nx m1 m2 (p2_norm q) = nx m1 m2 q.
Proof.
have E : pX (p2_norm q) = pX q by rewrite /pX [(p2_norm q).1]/= [(p2_norm q).2]/= -N.land_assoc.
by rewrite /nx E.
Qed.
Lemma nx_zero m1 m2 q : p2_norm q = (0, 0) -> nx m1 m2 q = (0, 0).
Proof. by move=> E; rewrite -nx_norm E. Qed.
Lemma nx_inj0 m1 m2 q : p2_ok q -> p2_norm (nx m1 m2 q) = (0, 0) -> p2_norm q = (0, 0).
Proof.
move=> Hq; rewrite /p2_norm /nx; cbn [fst snd] => -[E1 E2].
have B : N.testbit (pX q) 0 = false.
  have : N.testbit (N.lxor (pX q) (sel (N.testbit (pX q) 0) (wshl 64 m2 32))) 0 = false by rewrite E2.
  rewrite N.lxor_spec; have -> : N.testbit (sel (N.testbit (pX q) 0) (wshl 64 m2 32)) 0 = false; last by rewrite xorb_false_r.
  by rewrite /sel; case: (N.testbit (pX q) 0) => //; rewrite wshl_spec.
rewrite B !N.lxor_0_r in E1 E2.
have [H0 H1] := Hq.
have E3 : N.lxor (N.land q.1 M63) q.2 = 0.
  by apply: mix0 => //; apply: (lxor_lt 64) => //; exact: land_lt.
move/N.lxor_eq: E3 => E3.
have E4 : q.2 = 0 by rewrite -E1 -E3 -N.land_assoc.
by rewrite E3 E4.
Qed.

(** * Bits *)
Definition p2_bits (q : pr) (i : nat) : bool :=
  if (i < 63)%N then N.testbit q.1 (N.of_nat i) else N.testbit q.2 (N.of_nat (i - 63)).
Definition p2_mk (f : nat -> bool) : pr := (mkw 63 f, mkw 64 (fun i => f (i + 63)%N)).
Lemma p2_mk_ok f : p2_ok (p2_mk f).
Proof. split; last exact: mkw_lt. apply: N.lt_trans (mkw_lt 63 f) _. by []. Qed.
Lemma p2_bits_mk f i : (i < 127)%N -> p2_bits (p2_mk f) i = f i.
Proof.
move=> Hi. rewrite /p2_bits /p2_mk. cbn [fst snd]. rewrite !mkw_bit.
case: ifP => H1. by have -> : (Nat.ltb i 63) = true by lia.
have -> : (Nat.ltb (i - 63) 64) = true by lia.
by rewrite andTb subnK //; lia.
Qed.
Lemma p2_bits_add a b i : p2_bits (p2_add a b) i = xorb (p2_bits a i) (p2_bits b i).
Proof. by rewrite /p2_bits /p2_add /= !N.lxor_spec; case: ifP. Qed.
Lemma p2_bits_norm a b : p2_ok a -> p2_ok b -> (forall i, (i < 127)%N -> p2_bits a i = p2_bits b i) -> p2_norm a = p2_norm b.
Proof.
case: a => a0 a1; case: b => b0 b1 [/= A0 A1] [/= B0 B1] H.
rewrite /p2_norm /=; congr (_, _).
- apply: N.bits_inj => i; rewrite !N.land_spec M63_bit. case: N.ltb_spec => Hi; last by rewrite !andbF.
  have := H (N.to_nat i). rewrite /p2_bits. have -> : (N.to_nat i < 63)%N by lia. rewrite /= N2Nat.id => -> //. lia.
- apply: (@word_ext 64) => // i Hi. have := H (63 + N.to_nat i)%N. rewrite /p2_bits.
  have -> : (63 + N.to_nat i < 63)%N = false by lia. by rewrite addKn /= N2Nat.id => -> //; lia.
Qed.
Lemma p2_bits_0 i : p2_bits (0, 0) i = false.
Proof. by rewrite /p2_bits !N.bits_0; case: ifP. Qed.
Lemma p2_norm0 q : p2_ok q -> (forall i, (i < 127)%N -> p2_bits q i = false) -> p2_norm q = (0, 0).
Proof.
move=> Hq H. have -> : (0, 0) = p2_norm (0, 0) by []. apply: p2_bits_norm => //.
by move=> i Hi; rewrite H // p2_bits_0.
Qed.
Lemma p2_bits_n q i : (i < 127)%N -> p2_bits (p2_norm q) i = p2_bits q i.
Proof.
move=> Hi; rewrite /p2_bits /p2_norm /=; case: ifP => // H; rewrite N.land_spec M63_bit.
have -> : (N.of_nat i <? 63) = true by lia.
by rewrite andbT.
Qed.

(** * The generator *)
Local Arguments p2_add : simpl never.
Local Arguments nx : simpl never.
Definition pm : Type := N * N * N.
Definition t64_ok (p : pm) (t : t64) : Prop :=
  [/\ (s_mat1 t, s_mat2 t, s_tmat t) = p, par64_ok t & p2_ok (s_status t)].
Definition pm_ok (p : pm) : Prop := [/\ p.1.1 < 2 ^ 32, p.1.2 < 2 ^ 32 & p.2 < 2 ^ 64].
Definition t64_bits (t : t64) (i : nat) : bool := p2_bits (s_status t) i.
Definition t64_mk (p : pm) (f : nat -> bool) : t64 := T64 (p2_mk f) p.1.1 p.1.2 p.2.
Definition t64_vec : t64 -> 'rV['F_2]_127 := vec_of 127 t64_bits.
Definition t64_A (p : pm) : 'M['F_2]_127 := trans_mat 127 t64_bits (t64_mk p) tiny64_ops.
Definition t64_ob (t : t64) (j : nat) : bool := N.testbit (t64_uint64 true t).1 (63 - N.of_nat j).
Definition t64_C (p : pm) : nat -> 'cV['F_2]_127 := out_col 127 (t64_mk p) t64_ob.

Definition tem (tm : N) (q : pr) : N :=
  let x := N.lxor (N.lxor q.1 q.2) (wshr q.1 8) in N.lxor x (sel (N.testbit x 0) tm).
Lemma temperE t : t64_temper true t = tem (s_tmat t) (s_status t).
Proof.
case: t => [[a b] m1 m2 tm]; rewrite /t64_temper /t64_x land1' /tem; cbn [fst snd s_status s_tmat].
by case: (N.testbit _ 0); rewrite /sel ?N.lxor_0_r.
Qed.
Lemma tem_add tm a b : tem tm (p2_add a b) = N.lxor (tem tm a) (tem tm b).
Proof.
rewrite /tem /p2_add; cbn [fst snd]; rewrite wshr_lin (lxor_swap a.1) (lxor_swap (N.lxor a.1 a.2)).
by rewrite N.lxor_spec sel_add (lxor_swap (N.lxor _ (wshr a.1 8))).
Qed.
Lemma tem_lt tm q : tm < 2 ^ 64 -> p2_ok q -> tem tm q < 2 ^ 64.
Proof.
move=> H [H0 H1]; rewrite /tem; apply: (lxor_lt 64); last exact: sel64_lt.
by apply: (lxor_lt 64); [exact: lxor_lt|exact: shiftr_lt].
Qed.
Lemma outE t : (t64_uint64 true t).1 = tem (s_tmat t) (nx (s_mat1 t) (s_mat2 t) (s_status t)).
Proof. by rewrite /t64_uint64 t64_nextE; cbn [fst]; rewrite temperE. Qed.
Lemma nextE2 t : (t64_uint64 true t).2 = with_status64 t (nx (s_mat1 t) (s_mat2 t) (s_status t)).
Proof. by rewrite /t64_uint64 t64_nextE. Qed.
Lemma out64_lt p t : t64_ok p t -> (t64_uint64 true t).1 < 2 ^ 64.
Proof. by case=> _ [P1 [P2 P3]] Q; rewrite outE; apply: tem_lt => //; exact: nx_ok. Qed.
Lemma p2_add_ok a b : p2_ok a -> p2_ok b -> p2_ok (p2_add a b).
Proof. by move=> [? ?] [? ?]; split; apply: (lxor_lt 64). Qed.
Lemma xor_ok p s t : t64_ok p s -> t64_ok p t -> t64_ok p (xor64 s t).
Proof. by move=> [E P Q] [_ _ Q']; split=> //; exact: (p2_add_ok Q Q'). Qed.
Lemma xor_st s t : s_status (xor64 s t) = p2_add (s_status s) (s_status t).
Proof. by []. Qed.
Lemma next_okg p s : t64_ok p s -> t64_ok p (t64_uint64 true s).2.
Proof. by rewrite nextE2; case=> E P Q; split=> //; have [P1 _] := P; exact: (nx_ok _ P1 Q). Qed.
Lemma bits_nx_add p s t i : t64_ok p s -> t64_ok p t ->
  t64_bits (t64_uint64 true (xor64 s t)).2 i = xorb (t64_bits (t64_uint64 true s).2 i) (t64_bits (t64_uint64 true t).2 i).
Proof.
move=> [E _ _] [F _ _]; rewrite !nextE2 /t64_bits; cbn [s_status with_status64].
have [-> -> _] : [/\ s_mat1 t = s_mat1 s, s_mat2 t = s_mat2 s & s_tmat t = s_tmat s] by move: F; rewrite -E => -[-> -> ->].
by rewrite xor_st -[s_mat1 (xor64 s t)]/(s_mat1 s) -[s_mat2 (xor64 s t)]/(s_mat2 s) nx_add p2_bits_add.
Qed.
Lemma t64_lin p : pm_ok p -> linear_gen tiny64_ops (t64_ok p) t64_vec (t64_A p) (t64_C p).
Proof.
move=> [P1 P2 P3].
apply: (@linear_gen_intro t64 127 (t64_ok p) t64_bits (t64_mk p) xor64).
- move=> f; split; [by case: (p) => [[? ?] ?]|by []|exact: p2_mk_ok].
- by move=> f i Hi; exact: p2_bits_mk.
- by move=> s t; exact: xor_ok.
- by move=> s t i _ _ _; exact: p2_bits_add.
- by [].
- exact: next_okg.
- by move=> s t i Hs Ht _; exact: (bits_nx_add _ Hs Ht).
- move=> s [_ _ Q] H i Hi; rewrite -[g_generate tiny64_ops s]/(t64_uint64 true s) nextE2 /t64_bits; cbn [s_status with_status64].
  by rewrite (nx_zero _ _ (p2_norm0 Q H)); exact: p2_bits_0.
- move=> s t j [E _ _] [F _ _] Hj; rewrite /t64_ob !outE.
  have [-> -> ->] : [/\ s_mat1 t = s_mat1 s, s_mat2 t = s_mat2 s & s_tmat t = s_tmat s] by move: F; rewrite -E => -[-> -> ->].
  rewrite xor_st -[s_mat1 (xor64 s t)]/(s_mat1 s) -[s_mat2 (xor64 s t)]/(s_mat2 s) -[s_tmat (xor64 s t)]/(s_tmat s).
  by rewrite nx_add tem_add N.lxor_spec.
- move=> s [_ _ Q] H j Hj; rewrite /t64_ob outE (nx_zero _ _ (p2_norm0 Q H)).
  by rewrite -[tem _ (0, 0)]/(N.lxor 0 0) N.bits_0.
- by move=> v s _ _; cbn [g_generate_len g_generate tiny64_ops]; case: (t64_uint64 true s).
- move=> v s Hs _; have := out64_lt Hs; cbn [g_generate_len g_width tiny64_ops]; case: (t64_uint64 true s) => r u Hr.
  exact: land_lt.
- move=> v s j Hs Hv Hj; have := @top_mask_land 64 v (t64_uint64 true s).1 j Hv Hj; rewrite /t64_ob.
  by cbn [g_generate_len g_width tiny64_ops]; case: (t64_uint64 true s) => r u; cbn [fst].
- by move=> s [E P _]; split.
- by move=> s i _ _; exact: p2_bits_0.
Qed.
Lemma t64_vec_eq s t : p2_ok (s_status s) -> p2_ok (s_status t) ->
  t64_vec s = t64_vec t <-> p2_norm (s_status s) = p2_norm (s_status t).
Proof.
move=> Qs Qt; split=> [/rowP E|E].
- apply: p2_bits_norm => // i Hi; have := E (Ordinal Hi); rewrite !mxE; exact: f2_inj.
- apply/rowP => i; rewrite !mxE; congr f2; rewrite /t64_bits.
  by rewrite -p2_bits_n // E p2_bits_n.
Qed.
Lemma t64_unit p : pm_ok p -> (t64_A p \in unitmx)%R.
Proof.
move=> [P1 P2 P3].
apply/(@trans_unit t64 127 (t64_ok p) t64_bits (t64_mk p) xor64 _ _ _ _ tiny64_ops).
- move=> f; split; [by case: (p) => [[? ?] ?]|by []|exact: p2_mk_ok].
- by move=> f i Hi; exact: p2_bits_mk.
- by move=> s t; exact: xor_ok.
- by move=> s t i _ _ _; exact: p2_bits_add.
- by move=> s t i Hs Ht _; exact: (bits_nx_add _ Hs Ht).
- move=> s [_ _ Q] H i Hi; rewrite -[g_generate tiny64_ops s]/(t64_uint64 true s) nextE2 /t64_bits; cbn [s_status with_status64].
  by rewrite (nx_zero _ _ (p2_norm0 Q H)); exact: p2_bits_0.
- move=> s Hs H i Hi; have [_ P Q] := Hs; have [_ _ Q'] := next_okg Hs.
  have E : p2_norm (s_status s) = (0, 0).
    by have := p2_norm0 Q' H; rewrite nextE2; cbn [s_status with_status64]; exact: nx_inj0.
  by rewrite /t64_bits -p2_bits_n // E p2_bits_0.
Qed.
