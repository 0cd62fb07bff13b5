(** TinyMT64 of test/: period, seeding, floating point functions. *)
From Coq Require Import NArith ZArith List Bool QArith Lia Lqa.
From mathcomp Require Import all_ssreflect all_algebra.
From mathcomp Require Import zify.
From Verif Require Import Base WordLemmas WordVec GenModel LinSpec LinLemmas LinInst PeriodSpec PeriodProofs PeriodProofs2 PeriodProofs3
  PeriodProofs4 PeriodProofs5 PolyAct PeriodCert PeriodCertProofs SampleSpec SampleProofs TinyModel TinyLin TinySpec TinyPeriod TinyProofs XorshiftProofs
  T64Model T64Spec T64Lin TmtProofs2.
Set Implicit Arguments.
Unset Strict Implicit.
Unset Printing Implicit Defensive.
Local Open Scope N_scope.
Delimit Scope Z_scope with coqZ.
Delimit Scope Q_scope with coqQ.
Local Arguments Nat.iter : simpl never.

Definition parm (t : t64) : pm := (s_mat1 t, s_mat2 t, s_tmat t).
Lemma norm_state64 t : p2_norm (s_status t) = state64 t.
Proof. by rewrite /p2_norm /state64 -[M63]/(N.ones 63) N.land_ones. Qed.
Lemma ok64 t : words64_ok t -> t64_ok (parm t) t.
Proof. by move=> [[H0 H1] P]; split. Qed.
Lemma ok64_words p t : t64_ok p t -> words64_ok t.
Proof. by move=> [_ P [H0 H1]]. Qed.
Lemma pm64 t : par64_ok t -> pm_ok (parm t).
Proof. by move=> [? [? ?]]. Qed.
Lemma next_is t : t64_next t = (g_generate tiny64_ops t).2. Proof. by []. Qed.
Lemma next_par64 t : same_par (t64_next t) t.
Proof. by rewrite t64_nextE. Qed.
Lemma next_words64 t : words64_ok t -> words64_ok (t64_next t).
Proof. by move=> /ok64 H; apply: (@ok64_words (parm t)); exact: (next_okg H). Qed.

(** * Period *)
Definition max64 (p : pm) : Prop := maximal_period (t64_A p).
Lemma vec64_0 p t : t64_ok p t -> t64_vec t = 0%R <-> state64 t = (0, 0).
Proof.
move=> [_ _ Q]; rewrite -norm_state64; split=> [/vec_zero E|E].
- exact: p2_norm0.
- by apply/vec_zero => i Hi; rewrite /t64_bits -p2_bits_n // E p2_bits_0.
Qed.
Lemma iter64 p n t : pm_ok p -> t64_ok p t -> t64_ok p (Nat.iter n t64_next t) /\
  t64_vec (Nat.iter n t64_next t) = st (t64_A p) n (t64_vec t).
Proof.
move=> P H; have LG := t64_lin P; elim: n => [//|n [IH1 IH2]].
rewrite -[Nat.iter n.+1 t64_next t]/(t64_next (Nat.iter n t64_next t)) stS -IH2; split.
- exact: (lin_generate_ok LG IH1).
- exact: (lin_generate_abs LG IH1).
Qed.
Lemma period64 t : words64_ok t -> state64 t <> (0, 0) -> max64 (parm t) -> least_period64 (2 ^ 127 - 1) t.
Proof.
move=> Ht n0 M; have H := ok64 Ht; have P := pm64 (proj2 Ht).
have v0 : (t64_vec t != 0)%R by apply/eqP => /(vec64_0 H).
have [_ H1 H2] := M _ v0.
rewrite /least_period64 -[2 ^ 127 - 1]/(2 ^ N.of_nat 127 - 1).
have E : N.to_nat (2 ^ N.of_nat 127 - 1) = (2 ^ 127 - 1)%N by rewrite N_pow2.
move: (2 ^ N.of_nat 127 - 1) E => f E; rewrite E; move: (2 ^ 127 - 1)%N E H1 H2 => e E H1 H2; split.
- rewrite -!norm_state64; have [[_ _ Q] V] := iter64 e P H; have [_ _ Q0] := H.
  by apply/(t64_vec_eq Q Q0); rewrite V.
- move=> i Hi; rewrite -!norm_state64; have [[_ _ Q] V] := iter64 (N.to_nat i) P H; have [_ _ Q0] := H.
  move/(t64_vec_eq Q Q0); rewrite V; apply/eqP; apply: H2.
  by rewrite -E; move: Hi; clear; lia.
Qed.

Definition pub64 : pm := (0xfa051f40, 0xffd0fff4, 0x58d02ffeffbfffbc).
Definition start64 : t64 := T64 (0, 1) 0xfa051f40 0xffd0fff4 0x58d02ffeffbfffbc.
Definition ann64 : N := 0x945e0ad4a30ec19432dfa9d5959e5d5d.
Definition pr_eqb (a b : pr) : bool := (a.1 =? b.1) && (a.2 =? b.2).
Lemma pr_eqbP a b : reflect (a = b) (pr_eqb a b).
Proof.
apply: (iffP idP) => [|->]; last by rewrite /pr_eqb !N.eqb_refl.
by case: a b => [x y] [x' y']; rewrite /pr_eqb /= => /andP[/N.eqb_eq -> /N.eqb_eq ->].
Qed.
(** f annihilates the state (0,1), which comes back after 2^127-1 steps but not
    after one; 2^127-1 is prime. *)
Lemma cert64 : [&& pr_eqb (state64 (pc_actN tiny64_ops ann64 start64)) (0, 0),
  pr_eqb (state64 (pc_jump tiny64_ops 127 ann64 m127 start64)) (state64 start64) &
  ~~ pr_eqb (state64 (pc_jump tiny64_ops 127 ann64 1 start64)) (state64 start64)].
Proof. by vm_compute. Qed.
Lemma pub64_ok : pm_ok pub64. Proof. by []. Qed.
Lemma start64_ok : t64_ok pub64 start64. Proof. by []. Qed.
Lemma cert64_gen f (m : positive) : all_primes_of (2 ^ 127 - 1) (N.pos m :: nil) -> N.pos m = (2 ^ N.of_nat 127 - 1)%num ->
  state64 (pc_actN tiny64_ops f start64) = (0, 0) -> state64 (pc_jump tiny64_ops 127 f m start64) = state64 start64 ->
  state64 (pc_jump tiny64_ops 127 f 1 start64) <> state64 start64 -> max64 pub64.
Proof.
move=> Hm1 Hm2 C1 C2 C3.
have LG := t64_lin pub64_ok.
have okS := start64_ok.
have Q4 : p2_ok (s_status start64) by [].
have okJ k : p2_ok (s_status (pc_jump tiny64_ops 127 f k start64)).
  by have [[_ _ H] _] := actN_ok LG (pc_pow 127 f k) okS.
have [okf _] := actN_ok LG f okS.
have Hf : (t64_vec (pc_actN tiny64_ops f start64) = 0)%R by apply/(vec64_0 okf).
have n0 : (t64_vec start64 != 0)%R by apply/eqP => /(vec64_0 okS).
have F : full_period (t64_A pub64) (t64_vec start64).
  apply: (period_cert LG okS Hf (w := 127%num) (ltn0Sn 126) n0 Hm1 Hm2).
  - by apply/(t64_vec_eq (okJ m) Q4); rewrite !norm_state64.
  - move=> q [<-|[]]; exists 1%positive; split; first exact: N.div_same.
    by move=> E; apply: C3; rewrite -!norm_state64; exact: (proj1 (t64_vec_eq (okJ _) Q4) E).
have P := full_primitive (ltn0Sn 126) F.
move=> x x0; exact: (primitive_full P (cayley _ _) x0).
Qed.
Lemma pub64_max : max64 pub64.
Proof.
case/and3P: cert64 => /pr_eqbP C1 /pr_eqbP C2 /pr_eqbP C3.
exact: (cert64_gen m127_all m127E C1 C2 C3).
Qed.
Lemma published_period t : words64_ok t -> published64 t -> state64 t <> (0, 0) -> least_period64 (2 ^ 127 - 1) t.
Proof.
move=> Ht [E1 [E2 E3]] n0; apply: period64 => //; rewrite /parm E1 E2 E3; exact: pub64_max.
Qed.
Lemma next_inj64 t u : words64_ok t -> words64_ok u -> same_par t u -> state64 (t64_next t) = state64 (t64_next u) -> state64 t = state64 u.
Proof.
move=> Ht Hu [E1 [E2 E3]] E; have H := ok64 Ht; have Hu' := ok64 Hu; have P := pm64 (proj2 Ht).
have Ep : parm u = parm t by rewrite /parm E1 E2 E3.
rewrite Ep in Hu'; have LG := t64_lin P; have U := t64_unit P.
rewrite -!norm_state64; have [_ _ Q] := H; have [_ _ Q'] := Hu'.
apply/(t64_vec_eq Q Q'); apply: (can_inj (mulmxK U)).
rewrite -(lin_generate_abs LG H) -(lin_generate_abs LG Hu').
have [_ _ R] := next_okg H; have [_ _ R'] := next_okg Hu'.
by apply/(t64_vec_eq R R'); rewrite !norm_state64.
Qed.
Lemma linear64 t u : same_par t u ->
  t64_next (xor64 t u) = xor64 (t64_next t) (t64_next u) /\
  (t64_uint64 true (xor64 t u)).1 = N.lxor (t64_uint64 true t).1 (t64_uint64 true u).1.
Proof.
move=> [E1 [E2 E3]]; split.
- rewrite !t64_nextE -E1 -E2 /xor64; cbn [s_status with_status64 s_mat1 s_mat2 s_tmat]; rewrite -/(p2_add (s_status t) (s_status u)) nx_add.
  by [].
- rewrite !outE -E1 -E2 -E3 xor_st -[s_mat1 (xor64 t u)]/(s_mat1 t) -[s_mat2 (xor64 t u)]/(s_mat2 t) -[s_tmat (xor64 t u)]/(s_tmat t).
  by rewrite nx_add tem_add.
Qed.

(** * Seeding *)
Lemma certify64_cases t : (state64 t = (0, 0) /\ t64_certify t = with_status64 t (84, 77)) \/
  (state64 t <> (0, 0) /\ t64_certify t = t).
Proof.
rewrite /t64_certify -[9223372036854775807]/(N.ones 63) N.land_ones /state64.
case: N.eqb_spec => Ea; last by right; split=> // -[].
case: N.eqb_spec => Eb; last by right; split=> // -[].
by left; rewrite Ea Eb.
Qed.
Lemma certify64_ok t : words64_ok t -> words64_ok (t64_certify t) /\ state64 (t64_certify t) <> (0, 0) /\ same_par (t64_certify t) t.
Proof. by move=> H; case: (certify64_cases t) => -[E ->] //; split=> //; case: H. Qed.
Lemma mix64_lt i p : t64_mix i p < 2 ^ 64. Proof. exact: trunc_lt. Qed.
Lemma turn64_ok q i : p2_ok q -> p2_ok (t64_init_turn q i).
Proof.
case: q => a b [Ha Hb]; rewrite /t64_init_turn; case: N.eqb; split=> //=; apply: (lxor_lt 64) => //; exact: mix64_lt.
Qed.
Lemma turns64_ok l q : p2_ok q -> p2_ok (List.fold_left t64_init_turn l q).
Proof. by elim: l q => [//|i l IH] q H /=; apply: IH; exact: turn64_ok. Qed.
Lemma lxorI' (a b c : N) : N.lxor b a = N.lxor c a -> b = c.
Proof. by move=> /(f_equal (fun x => N.lxor x a)); rewrite !N.lxor_assoc N.lxor_nilpotent !N.lxor_0_r. Qed.
Lemma turn64_inj i q r : t64_init_turn q i = t64_init_turn r i -> q = r.
Proof.
case: q r => [a b] [c d]; rewrite /t64_init_turn; case: N.eqb => -[].
- by move=> E F; subst d; congr (_, _); exact: lxorI' E.
- by move=> E F; subst c; congr (_, _); exact: lxorI' F.
Qed.
Lemma turns64_inj l q r : List.fold_left t64_init_turn l q = List.fold_left t64_init_turn l r -> q = r.
Proof. by elim: l q r => [//|i l IH] q r /= /IH /turn64_inj. Qed.
Lemma loop64_ok t seed : seed < 2 ^ 64 -> par64_ok t -> words64_ok (with_status64 t (t64_init_loop t seed)).
Proof.
move=> Hs P; split=> //; have [P1 [P2 P3]] := P.
have : p2_ok (t64_init_loop t seed); last by case.
apply: turns64_ok; split; cbn [fst snd].
- by apply: (lxor_lt 64) => //; exact: wshl_lt.
- by apply: (lxor_lt 64) => //; exact: lt32_64.
Qed.
Lemma init64 t seed : seed < 2 ^ 64 -> par64_ok t ->
  words64_ok (t64_init t seed) /\ state64 (t64_init t seed) <> (0, 0) /\ same_par (t64_init t seed) t.
Proof. by move=> Hs P; have := certify64_ok (loop64_ok Hs P). Qed.
Lemma seeds64 t a b : s_status (t64_init t a) = s_status (t64_init t b) -> a = b \/ s_status (t64_init t a) = (84, 77).
Proof.
rewrite /t64_init; case: (certify64_cases (with_status64 t (t64_init_loop t a))) => -[_ ->]; first by right.
case: (certify64_cases (with_status64 t (t64_init_loop t b))) => -[_ ->]; first by right.
by move=> /turns64_inj -[/lxorI' ->]; left.
Qed.
(** ** init_by_array *)
Definition a4_ok (q : a4) : Prop := [/\ q.1.1.1 < 2 ^ 64, q.1.1.2 < 2 ^ 64, q.1.2 < 2 ^ 64 & q.2 < 2 ^ 64].
Lemma a_set_ok q i v : a4_ok q -> v < 2 ^ 64 -> a4_ok (a_set q i v).
Proof. by case: q => [[[a b] c] d] [? ? ? ?] Hv; rewrite /a_set; do 3 case: N.eqb => //. Qed.
Lemma a_get_lt q i : a4_ok q -> a_get q i < 2 ^ 64.
Proof. by case: q => [[[a b] c] d] [? ? ? ?]; rewrite /a_get; do 3 case: N.eqb => //. Qed.
Lemma key64_turn_ok q i a : a4_ok q -> a4_ok (key64_turn q i a).
Proof. by move=> Hq; rewrite /key64_turn; repeat (apply: a_set_ok; last exact: wadd_lt). Qed.
Lemma key64_turns_ok l s : a4_ok s.1 -> a4_ok (key64_turns l s).1.
Proof. rewrite /key64_turns; elim: l s => [//|a l IH] s Hs /=; apply: IH; exact: key64_turn_ok. Qed.
Lemma end64_turn_ok s : a4_ok s.1 -> a4_ok (end64_turn s).1.
Proof.
case: s => q i Hq; rewrite /end64_turn [fst _]/=; cbn [fst] in Hq.
set r := ini64_func2 _; have Hr : r < 2 ^ 64 by exact: trunc_lt.
have Hr' : wsub 64 r i < 2 ^ 64 by exact: trunc_lt.
apply: a_set_ok => //.
have Hq' : a4_ok (a_set q ((i + 1) mod 4) (N.lxor (a_get q ((i + 1) mod 4)) r)).
  by apply: a_set_ok => //; apply: (lxor_lt 64) => //; exact: a_get_lt.
by apply: a_set_ok => //; apply: (lxor_lt 64) => //; exact: a_get_lt.
Qed.
Lemma init64_array t key : par64_ok t -> (Z.of_nat (length key) < 2 ^ 31 - 1)%coqZ ->
  exists t', t64_init_by_array t key = Ret t' /\ words64_ok t' /\ state64 t' <> (0, 0) /\ same_par t' t.
Proof.
move=> P HL; rewrite /t64_init_by_array.
have -> : (2 ^ 31 <=? Z.of_nat (length key) + 1)%coqZ = false by move: HL; clear; lia.
eexists; split; first reflexivity.
set q := fst _.
have Q : a4_ok q.
  have E n s : a4_ok s.1 -> a4_ok (Nat.iter n end64_turn s).1 by move=> H; elim: n => [//|n IH]; exact: end64_turn_ok.
  apply: E; apply: key64_turns_ok; apply: key64_turns_ok.
  have [P1 [P2 P3]] := P; have P1' := lt32_64 P1; have P2' := lt32_64 P2.
  by apply: a_set_ok; last exact: wadd_lt; repeat (apply: a_set_ok; last exact: wadd_lt).
move: q Q => q Q.
have W : words64_ok (with_status64 t (N.lxor (a_get q 0) (a_get q 1), N.lxor (a_get q 2) (a_get q 3))).
  by split=> //; split; cbn [fst snd s_status with_status64]; apply: (lxor_lt 64); exact: a_get_lt.
by have [W1 [W2 W3]] := certify64_ok W.
Qed.
Lemma overflow64 t : exists key, t64_init_by_array t key = Undef.
Proof.
exists (List.repeat 0 (N.to_nat (2 ^ 31 - 1))); rewrite /t64_init_by_array.
by rewrite List.repeat_length N_nat_Z.
Qed.

(** * Floating point *)
Lemma conv64E one lin t : t64_conv one lin t = f64_bits (N.lor (wshr (t64_temper lin t) 12) one).
Proof. by rewrite /t64_conv /t64_temper; case: negb. Qed.
Lemma temper64_lt lin t : words64_ok t -> t64_temper lin t < 2 ^ 64.
Proof.
case: t => [[a b] m1 m2 tm] [[/= H0 H1] [_ [_ /= P]]].
have T1 : t64_x lin (T64 (a, b) m1 m2 tm) < 2 ^ 64.
  rewrite /t64_x; cbn [s_status]; apply: (lxor_lt 64); last exact: (shiftr_lt 64).
  by case: lin; [exact: lxor_lt|exact: wadd_lt].
by rewrite /t64_temper; case: negb => //; apply: (lxor_lt 64).
Qed.
Lemma f64_one x e : x < 2 ^ 52 -> e < 2 ^ 52 ->
  Qeq (f64_bits (N.lor x (N.shiftl 1023 52 + e))) (1 + inject_Z (Z.of_N (N.lor x e)) * (1 # 4503599627370496))%coqQ.
Proof.
move=> Hx He; rewrite /f64_bits.
have Ee : N.shiftl 1023 52 + e = N.lor (N.shiftl 1023 52) e.
  have Z : N.land (N.shiftl 1023 52) e = 0.
    apply: N.bits_inj_0 => i; rewrite N.land_spec.
    case: (N.lt_ge_cases i 52) => Hi; first by rewrite N.shiftl_spec_low.
    have -> : N.testbit e i = false; last by rewrite andbF.
    by rewrite -(N.mod_small _ _ He) N.mod_pow2_bits_high.
  by rewrite -N.lxor_lor // N.add_nocarry_lxor.
have -> : N.lor x (N.shiftl 1023 52 + e) mod 2 ^ 52 = N.lor x e.
  rewrite Ee -!N.land_ones !N.land_lor_distr_l.
  rewrite !N.land_ones (N.mod_small x) // (N.mod_small e) //.
have -> : wshr (N.lor x (N.shiftl 1023 52 + e)) 52 = 1023.
  rewrite Ee /wshr !N.shiftr_lor !N.shiftr_div_pow2 (N.div_small x) // (N.div_small e) //.
rewrite -[(Z.of_N 1023 - 1075)%coqZ]/(-52)%coqZ inject_Z_plus.
have -> : Qpower (2 # 1) (-52) = (1 # 4503599627370496)%coqQ by [].
by field.
Qed.
Lemma wshr12 u : u < 2 ^ 64 -> wshr u 12 = u / 2 ^ 12 /\ wshr u 12 < 2 ^ 52.
Proof.
move=> Hu; rewrite /wshr N.shiftr_div_pow2; split=> //.
by apply: N.div_lt_upper_bound.
Qed.
Lemma doubles64 lin t : words64_ok t ->
  let u := (t64_uint64 lin t).1 in let t1 := t64_next t in
  [/\ u < 2 ^ 64,
      Qeq (t64_double lin t).1 (inject_Z (Z.of_N (u / 2 ^ 11)) * (1 # 9007199254740992))%coqQ /\ (t64_double lin t).2 = t1,
      Qeq (t64_double12 lin t).1 (1 + inject_Z (Z.of_N (u / 2 ^ 12)) * (1 # 4503599627370496))%coqQ /\ (t64_double12 lin t).2 = t1,
      Qeq (t64_double01 lin t).1 (inject_Z (Z.of_N (u / 2 ^ 12)) * (1 # 4503599627370496))%coqQ /\ (t64_double01 lin t).2 = t1 &
      (Qeq (t64_doubleOC lin t).1 (1 - inject_Z (Z.of_N (u / 2 ^ 12)) * (1 # 4503599627370496))%coqQ /\ (t64_doubleOC lin t).2 = t1) /\
      (Qeq (t64_doubleOO lin t).1 (inject_Z (Z.of_N (2 * (u / 2 ^ 13) + 1)) * (1 # 4503599627370496))%coqQ /\ (t64_doubleOO lin t).2 = t1)].
Proof.
move=> Ht u t1; have Hu : u < 2 ^ 64 by exact: temper64_lt (next_words64 Ht).
have [E9 L9] := wshr12 Hu.
have H0 := f64_one (e := 0) L9 erefl; rewrite lor0 E9 in H0.
have H1 := f64_one (e := 1) L9 erefl; rewrite lor1 {2}E9 N.div_div // -[2 ^ 12 * 2]/(2 ^ 13) in H1.
have K0 : t64_conv 0x3ff0000000000000 lin t1 = f64_bits (N.lor (u / 2 ^ 12) (N.shiftl 1023 52 + 0)) by rewrite conv64E -E9.
have K1 : t64_conv 0x3ff0000000000001 lin t1 = f64_bits (N.lor (wshr u 12) (N.shiftl 1023 52 + 1)) by rewrite conv64E.
rewrite -K0 in H0; rewrite -K1 in H1.
split=> //.
- split; last by []. rewrite /t64_double; cbn [fst]; rewrite -/t1 -[t64_temper lin t1]/u /wshr N.shiftr_div_pow2.
  exact: Qeq_refl.
- split; last by []. rewrite /t64_double01; cbn [fst]; rewrite -/t1.
  apply: (Qeq_trans _ _ _ (Qplus_comp _ _ H0 _ _ (Qeq_refl (Qopp 1)))); ring.
split; (split; last by []).
- rewrite /t64_doubleOC; cbn [fst]; rewrite -/t1.
  apply: (Qeq_trans _ _ _ (Qplus_comp _ _ (Qeq_refl (2 # 1)) _ _ (Qopp_comp _ _ H0))); ring.
- rewrite /t64_doubleOO; cbn [fst]; rewrite -/t1.
  apply: (Qeq_trans _ _ _ (Qplus_comp _ _ H1 _ _ (Qeq_refl (Qopp 1)))); ring.
Qed.
Lemma ranges64 lin t : words64_ok t ->
  (Qle 0 (t64_double lin t).1 /\ Qlt (t64_double lin t).1 1) /\
  (Qle 1 (t64_double12 lin t).1 /\ Qlt (t64_double12 lin t).1 (2 # 1)) /\
  (Qle 0 (t64_double01 lin t).1 /\ Qlt (t64_double01 lin t).1 1) /\
  (Qlt 0 (t64_doubleOC lin t).1 /\ Qle (t64_doubleOC lin t).1 1) /\
  (Qlt 0 (t64_doubleOO lin t).1 /\ Qlt (t64_doubleOO lin t).1 1).
Proof.
move=> Ht; have [Hu [F1 _] [F2 _] [F3 _] [[F4 _] [F5 _]]] := doubles64 lin Ht.
move: (t64_uint64 lin t).1 Hu F1 F2 F3 F4 F5 => u Hu F1 F2 F3 F4 F5.
have B11 : (0 <= Z.of_N (u / 2 ^ 11) < 9007199254740992)%coqZ.
  by have : u / 2 ^ 11 < 9007199254740992 by [apply: N.div_lt_upper_bound]; clear; lia.
have B12 : (0 <= Z.of_N (u / 2 ^ 12) < 4503599627370496)%coqZ.
  by have : u / 2 ^ 12 < 4503599627370496 by [apply: N.div_lt_upper_bound]; clear; lia.
have B13 : (0 < Z.of_N (2 * (u / 2 ^ 13) + 1) < 4503599627370496)%coqZ.
  by have : u / 2 ^ 13 < 2251799813685248 by [apply: N.div_lt_upper_bound]; clear; lia.
have A := frac_lt B11; have D := frac_lt B12.
have E : Qlt 0 (inject_Z (Z.of_N (2 * (u / 2 ^ 13) + 1)) * (1 # 4503599627370496))%coqQ /\
  Qlt (inject_Z (Z.of_N (2 * (u / 2 ^ 13) + 1)) * (1 # 4503599627370496))%coqQ 1.
  by move: B13; clear; rewrite /Qlt /Qmult /inject_Z /=; lia.
move: (t64_double lin t).1 (t64_double12 lin t).1 (t64_double01 lin t).1 (t64_doubleOC lin t).1 (t64_doubleOO lin t).1
  F1 F2 F3 F4 F5.
move: (inject_Z (Z.of_N (u / 2 ^ 11)) * _)%coqQ (inject_Z (Z.of_N (u / 2 ^ 12)) * _)%coqQ
  (inject_Z (Z.of_N (2 * (u / 2 ^ 13) + 1)) * _)%coqQ A D E.
clear=> a b c A D E f1 f2 f3 f4 f5 F1 F2 F3 F4 F5.
by repeat split; lra.
Qed.

(** * The class Tiny64 *)
Lemma tiny64_ok seed : seed < 2 ^ 64 -> words64_ok (tiny64_new seed) /\ published64 (tiny64_new seed) /\
  state64 (tiny64_new seed) <> (0, 0).
Proof.
move=> Hs; have [|W [Z [E1 [E2 E3]]]] := @init64 (T64 (0, 0) 0xfa051f40 0xffd0fff4 0x58d02ffeffbfffbc) seed Hs; first by [].
by split=> //; split=> //; split.
Qed.
Lemma tiny64_period seed : seed < 2 ^ 64 -> least_period64 (2 ^ 127 - 1) (tiny64_new seed).
Proof. move=> /tiny64_ok; move: (tiny64_new seed) => t [W [P Z]]; exact: published_period. Qed.
