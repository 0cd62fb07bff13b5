(** TinyMT32 meets the contract of the toolbox, with n = 127: the top bit of
    the first word does not belong to the state. *)
From Coq Require Import NArith ZArith Lia Bool.
From mathcomp Require Import all_ssreflect all_algebra.
From mathcomp Require Import zify.
From Verif Require Import Base WordLemmas WordVec UtilModel UtilProofs GenModel LinSpec LinLemmas LinInst LinOut PeriodSpec
  TemperModel XorshiftProofs TinyModel.
Set Implicit Arguments.
Unset Strict Implicit.
Unset Printing Implicit Defensive.
Local Open Scope N_scope.
Delimit Scope Z_scope with coqZ.

Definition quad : Type := N * N * N * N.
Definition q_ok (q : quad) : Prop := [/\ q.1.1.1 < 2 ^ 32, q.1.1.2 < 2 ^ 32, q.1.2 < 2 ^ 32 & q.2 < 2 ^ 32].
Definition q_add (a b : quad) : quad :=
  (N.lxor a.1.1.1 b.1.1.1, N.lxor a.1.1.2 b.1.1.2, N.lxor a.1.2 b.1.2, N.lxor a.2 b.2).
Definition p_ok (p : tiny_param) : bool :=
  [&& tp_mat1 p <? 2 ^ 32, tp_mat2 p <? 2 ^ 32 & tp_tmat p <? 2 ^ 32].

(** * The transition on words *)
Definition tX (q : quad) : N :=
  let x := N.lxor (N.lxor (N.land q.1.1.1 0x7fffffff) q.1.1.2) q.1.2 in N.lxor x (wshl 32 x 1).
Definition tY (q : quad) : N := N.lxor q.2 (N.lxor (wshr q.2 1) (tX q)).
Definition tZ (q : quad) : N := N.lxor (tX q) (wshl 32 (tY q) 10).
Definition sel (b : bool) (m : N) : N := if b then m else 0.
Lemma sel_add a b m : sel (xorb a b) m = N.lxor (sel a m) (sel b m).
Proof. by case: a; case: b; rewrite /= ?N.lxor_nilpotent ?N.lxor_0_l ?N.lxor_0_r. Qed.
Lemma sel_lt b m : m < 2 ^ 32 -> sel b m < 2 ^ 32.
Proof. by case: b => // _; exact: pow2_pos. Qed.
Lemma tiny_nextE p q : tiny_next p q =
  (q.1.1.2, N.lxor q.1.2 (sel (N.testbit (tY q) 0) (tp_mat1 p)), N.lxor (tZ q) (sel (N.testbit (tY q) 0) (tp_mat2 p)), tY q).
Proof.
case: q => [[[s0 s1] s2] s3]; rewrite /tiny_next /tY /tZ /tX [_.1]/= [_.2]/=.
by case: (N.testbit _ 0); rewrite /sel ?N.lxor_0_r.
Qed.
Lemma land_lin m a b : N.land (N.lxor a b) m = N.lxor (N.land a m) (N.land b m).
Proof. by apply: N.bits_inj => i; rewrite N.lxor_spec !N.land_spec N.lxor_spec; case: (N.testbit a i); case: (N.testbit b i); case: (N.testbit m i). Qed.
Lemma tX_add a b : tX (q_add a b) = N.lxor (tX a) (tX b).
Proof.
rewrite /tX /q_add [_.1.1.1]/= [_.1.1.2]/= [_.1.2]/= land_lin.
set A := N.land a.1.1.1 _; set B := N.land b.1.1.1 _.
have -> : N.lxor (N.lxor (N.lxor A B) (N.lxor a.1.1.2 b.1.1.2)) (N.lxor a.1.2 b.1.2) =
  N.lxor (N.lxor (N.lxor A a.1.1.2) a.1.2) (N.lxor (N.lxor B b.1.1.2) b.1.2) by rewrite (lxor_swap A B) lxor_swap.
by rewrite wshl_lin lxor_swap.
Qed.
Lemma tY_add a b : tY (q_add a b) = N.lxor (tY a) (tY b).
Proof. by rewrite /tY tX_add [(q_add a b).2]/= wshr_lin (lxor_swap (wshr a.2 1)) lxor_swap. Qed.
Lemma tZ_add a b : tZ (q_add a b) = N.lxor (tZ a) (tZ b).
Proof. by rewrite /tZ tX_add tY_add wshl_lin lxor_swap. Qed.
Lemma next_add p a b : tiny_next p (q_add a b) = q_add (tiny_next p a) (tiny_next p b).
Proof.
rewrite !tiny_nextE tY_add tZ_add N.lxor_spec !sel_add /q_add /=.
by rewrite (lxor_swap a.1.2) (lxor_swap (tZ a)).
Qed.
Lemma tX_lt q : q_ok q -> tX q < 2 ^ 32.
Proof.
case=> H0 H1 H2 H3; apply: (lxor_lt 32); last exact: wshl_lt.
by apply: (lxor_lt 32) => //; apply: (lxor_lt 32) => //; exact: land_lt.
Qed.
Lemma tY_lt q : q_ok q -> tY q < 2 ^ 32.
Proof.
move=> Hq; have := tX_lt Hq; case: Hq => _ _ _ H3 HX.
by rewrite /tY; apply: (lxor_lt 32) => //; apply: (lxor_lt 32) => //; exact: shiftr_lt.
Qed.
Lemma tZ_lt q : q_ok q -> tZ q < 2 ^ 32.
Proof. by move=> Hq; rewrite /tZ; apply: (lxor_lt 32); [exact: tX_lt|exact: wshl_lt]. Qed.
Lemma next_ok p q : p_ok p -> q_ok q -> q_ok (tiny_next p q).
Proof.
case/and3P=> /N.ltb_lt P1 /N.ltb_lt P2 _ Hq; rewrite tiny_nextE; have [H0 H1 H2 H3] := Hq.
split=> //=.
- by apply: (lxor_lt 32) => //; exact: sel_lt.
- by apply: (lxor_lt 32); [exact: tZ_lt|exact: sel_lt].
- exact: tY_lt.
Qed.

(** * The output on words *)
Definition tT (q : quad) : N := N.lxor q.1.1.1 (wshr q.1.2 8).
Lemma tiny_temperE p q : tiny_temper p q = N.lxor (N.lxor q.2 (tT q)) (sel (N.testbit (tT q) 0) (tp_tmat p)).
Proof.
case: q => [[[s0 s1] s2] s3]; rewrite /tiny_temper /tT [_.1]/= [_.2]/=.
by case: (N.testbit _ 0); rewrite /sel ?N.lxor_0_r.
Qed.
Lemma tT_add a b : tT (q_add a b) = N.lxor (tT a) (tT b).
Proof. by rewrite /tT /q_add [_.1.1.1]/= [_.1.2]/= wshr_lin lxor_swap. Qed.
Lemma temper_add p a b : tiny_temper p (q_add a b) = N.lxor (tiny_temper p a) (tiny_temper p b).
Proof. by rewrite !tiny_temperE tT_add [(q_add a b).2]/= N.lxor_spec sel_add (lxor_swap a.2) lxor_swap. Qed.
Lemma temper_lt p q : p_ok p -> q_ok q -> tiny_temper p q < 2 ^ 32.
Proof.
case/and3P=> _ _ /N.ltb_lt P3 [H0 H1 H2 H3]; rewrite tiny_temperE.
apply: (lxor_lt 32); last exact: sel_lt.
by apply: (lxor_lt 32) => //; apply: (lxor_lt 32) => //; exact: shiftr_lt.
Qed.

(** * Bits *)
Definition q_bits (q : quad) (i : nat) : bool :=
  if (i < 31)%N then N.testbit q.1.1.1 (N.of_nat i)
  else if (i < 63)%N then N.testbit q.1.1.2 (N.of_nat (i - 31))
  else if (i < 95)%N then N.testbit q.1.2 (N.of_nat (i - 63))
  else N.testbit q.2 (N.of_nat (i - 95)).
Definition q_mk (f : nat -> bool) : quad :=
  (mkw 31 f, mkw 32 (fun i => f (i + 31)%N), mkw 32 (fun i => f (i + 63)%N), mkw 32 (fun i => f (i + 95)%N)).
Lemma q_mk_ok f : q_ok (q_mk f).
Proof.
split; try exact: mkw_lt. apply: N.lt_trans (mkw_lt 31 f) _. by [].
Qed.
Lemma q_bits_mk f i : (i < 127)%N -> q_bits (q_mk f) i = f i.
Proof.
move=> Hi. rewrite /q_bits /q_mk. cbn [fst snd]. rewrite !mkw_bit.
case: ifP => H1. by have -> : (Nat.ltb i 31) = true by lia.
case: ifP => H2. have -> : (Nat.ltb (i - 31) 32) = true by lia.
  by rewrite andTb subnK //; lia.
case: ifP => H3. have -> : (Nat.ltb (i - 63) 32) = true by lia.
  by rewrite andTb subnK //; lia.
have -> : (Nat.ltb (i - 95) 32) = true by lia.
by rewrite andTb subnK //; lia.
Qed.
Lemma q_bits_add a b i : q_bits (q_add a b) i = xorb (q_bits a i) (q_bits b i).
Proof. by rewrite /q_bits /q_add /= !N.lxor_spec; case: ifP => // _; case: ifP => // _; case: ifP. Qed.
(** The part of the words that counts. *)
Definition q_norm (q : quad) : quad := (N.land q.1.1.1 0x7fffffff, q.1.1.2, q.1.2, q.2).
Lemma mask_bit i : N.testbit 0x7fffffff i = (i <? 31).
Proof.
have -> : 0x7fffffff = N.ones 31 by [].
case: N.ltb_spec => H; [exact: N.ones_spec_low|exact: N.ones_spec_high].
Qed.
Lemma q_bits_norm a b : q_ok a -> q_ok b -> (forall i, (i < 127)%N -> q_bits a i = q_bits b i) -> q_norm a = q_norm b.
Proof.
case: a => [[[a0 a1] a2] a3]; case: b => [[[b0 b1] b2] b3] [/= A0 A1 A2 A3] [/= B0 B1 B2 B3] H.
rewrite /q_norm /=; congr (_, _, _, _).
- apply: N.bits_inj => i; rewrite !N.land_spec mask_bit. case: N.ltb_spec => Hi; last by rewrite !andbF.
  have := H (N.to_nat i). rewrite /q_bits. have -> : (N.to_nat i < 31)%N by lia. rewrite /= N2Nat.id => -> //. lia.
- apply: (@word_ext 32) => // i Hi. have := H (31 + N.to_nat i)%N. rewrite /q_bits.
  have -> : (31 + N.to_nat i < 31)%N = false by lia. have -> : (31 + N.to_nat i < 63)%N by lia.
  by rewrite addKn /= N2Nat.id => -> //; lia.
- apply: (@word_ext 32) => // i Hi. have := H (63 + N.to_nat i)%N. rewrite /q_bits.
  have -> : (63 + N.to_nat i < 31)%N = false by lia. have -> : (63 + N.to_nat i < 63)%N = false by lia.
  have -> : (63 + N.to_nat i < 95)%N by lia. by rewrite addKn /= N2Nat.id => -> //; lia.
- apply: (@word_ext 32) => // i Hi. have := H (95 + N.to_nat i)%N. rewrite /q_bits.
  have -> : (95 + N.to_nat i < 31)%N = false by lia. have -> : (95 + N.to_nat i < 63)%N = false by lia.
  have -> : (95 + N.to_nat i < 95)%N = false by lia. by rewrite addKn /= N2Nat.id => -> //; lia.
Qed.
Lemma tX_norm q : tX (q_norm q) = tX q.
Proof. by rewrite /tX /q_norm [_.1.1.1]/= [_.1.1.2]/= [_.1.2]/= -N.land_assoc. Qed.
Lemma next_norm p q : tiny_next p (q_norm q) = tiny_next p q.
Proof.
have EY : tY (q_norm q) = tY q by rewrite /tY tX_norm.
have EZ : tZ (q_norm q) = tZ q by rewrite /tZ tX_norm EY.
by rewrite !tiny_nextE EY EZ.
Qed.
Definition q0 : quad := (0, 0, 0, 0).
Lemma q_bits_0 i : q_bits q0 i = false.
Proof. by rewrite /q_bits !N.bits_0; case: ifP => // _; case: ifP => // _; case: ifP. Qed.
Lemma q_norm0 q : q_ok q -> (forall i, (i < 127)%N -> q_bits q i = false) -> q_norm q = q0.
Proof.
move=> Hq H. have -> : q0 = q_norm q0 by []. apply: q_bits_norm => //.
by move=> i Hi; rewrite H // q_bits_0.
Qed.
Lemma next_zero p q : q_norm q = q0 -> tiny_next p q = q0.
Proof. by move=> E; rewrite -next_norm E. Qed.
Lemma temper_zero p : tiny_temper p q0 = 0.
Proof. by []. Qed.

(** * The generator *)
Local Arguments q_add : simpl never.
Local Arguments tiny_next : simpl never.
Local Arguments tiny_temper : simpl never.
Definition tiny_th : Type := tiny_param * bool.
Definition tiny_ok (th : tiny_th) (g : tiny) : Prop :=
  [/\ tm_par g = th.1, tm_rev g = th.2, p_ok th.1 & q_ok (tm_st g)].
Definition tiny_bits (g : tiny) (i : nat) : bool := q_bits (tm_st g) i.
Definition tiny_mk (th : tiny_th) (f : nat -> bool) : tiny := TM (q_mk f) th.1 th.2.
Definition tiny_vec : tiny -> 'rV['F_2]_127 := vec_of 127 tiny_bits.
Definition tiny_A (th : tiny_th) : 'M['F_2]_127 := trans_mat 127 tiny_bits (tiny_mk th) tiny_ops.
Definition tiny_out (g : tiny) : N :=
  let r := (tiny_generate g).1 in if tm_rev g then reverse_bit32 r else r.
Definition tiny_ob (g : tiny) (j : nat) : bool := N.testbit (tiny_out g) (31 - N.of_nat j).
Definition tiny_C (th : tiny_th) : nat -> 'cV['F_2]_127 := out_col 127 (tiny_mk th) tiny_ob.

Lemma tiny_addE g h : tiny_add g h = TM (q_add (tm_st g) (tm_st h)) (tm_par g) (tm_rev g).
Proof. by case: g => [[[[? ?] ?] ?] ? ?]; case: h => [[[[? ?] ?] ?] ? ?]. Qed.
Lemma q_add_ok a b : q_ok a -> q_ok b -> q_ok (q_add a b).
Proof. by move=> [? ? ? ?] [? ? ? ?]; split; apply: (lxor_lt 32). Qed.
Lemma tiny_add_ok th s t : tiny_ok th s -> tiny_ok th t -> tiny_ok th (tiny_add s t).
Proof. by move=> [E1 E2 P Q] [_ _ _ Q']; rewrite tiny_addE; split=> //; exact: q_add_ok. Qed.
Lemma out_lt th s : tiny_ok th s -> (tiny_generate s).1 < 2 ^ 32.
Proof. by case=> E1 E2 P Q; rewrite /= ; apply: temper_lt; rewrite E1 //; apply: next_ok. Qed.
Lemma tiny_out_lt th s : tiny_ok th s -> tiny_out s < 2 ^ 32.
Proof. by move=> Hs; rewrite /tiny_out; case: (tm_rev s); [exact: reverse_bit32_lt|exact: out_lt Hs]. Qed.
Lemma tiny_obE th s j : tiny_ok th s -> (N.of_nat j < 32) ->
  tiny_ob s j = N.testbit (tiny_temper th.1 (tiny_next th.1 (tm_st s))) (if th.2 then N.of_nat j else 31 - N.of_nat j).
Proof.
move=> Hs Hj; rewrite /tiny_ob /tiny_out; have L := out_lt Hs; case: (Hs) => E1 E2 _ _; rewrite E2.
case: th.2; last by rewrite /= E1.
have Lj : (31 - N.of_nat j < 32)%num by lia.
have Ej : (31 - (31 - N.of_nat j) = N.of_nat j)%num by lia.
by rewrite (reverse_bit32_ok _ _ L Lj) Ej /= E1.
Qed.
Lemma tiny_lin th : p_ok th.1 -> linear_gen tiny_ops (tiny_ok th) tiny_vec (tiny_A th) (tiny_C th).
Proof.
move=> Pth.
apply: (@linear_gen_intro tiny 127 (tiny_ok th) tiny_bits (tiny_mk th) tiny_add).
- by move=> f; split=> //; exact: q_mk_ok.
- by move=> f i Hi; exact: q_bits_mk.
- by move=> s t; exact: tiny_add_ok.
- by move=> s t i _ _ _; rewrite tiny_addE; exact: q_bits_add.
- by [].
- by move=> s [E1 E2 P Q]; split=> //=; rewrite E1; exact: next_ok.
- move=> s t i [E1 _ _ _] [F1 _ _ _] Hi; rewrite tiny_addE /tiny_bits /= E1 F1 next_add. exact: q_bits_add.
- move=> s [E1 _ _ Q] H i Hi; rewrite /tiny_bits /= (next_zero _ (q_norm0 Q H)). exact: q_bits_0.
- move=> s t j Hs Ht Hj; rewrite !(tiny_obE (th := th)) //; last exact: tiny_add_ok.
  by rewrite tiny_addE /= next_add temper_add N.lxor_spec.
- move=> s Hs H j Hj; rewrite (tiny_obE (th := th)) //. have [_ _ _ Q] := Hs.
  by rewrite (next_zero _ (q_norm0 Q H)) temper_zero N.bits_0.
- by [].
- by move=> v s Hs _; rewrite /= -/(tiny_out s); apply: (land_lt 32); exact: tiny_out_lt Hs.
- by move=> v s j Hs Hv Hj; exact: (@top_mask_land 32 v (tiny_out s) j).
- by move=> s [E1 E2 P _]; split.
- by move=> s i _ _; exact: q_bits_0.
Qed.
Lemma tiny_lin_all th : linear_gen tiny_ops (tiny_ok th) tiny_vec (tiny_A th) (tiny_C th).
Proof.
case P : (p_ok th.1); first exact: tiny_lin.
by split=> [s|s|v s|v s|v s|v s j|s t|s t|s|s]; case; rewrite P.
Qed.
