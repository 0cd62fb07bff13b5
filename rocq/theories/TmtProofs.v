(** TinyMT32 of test/: the bridge to the search class, seeding, floats. *)
From Coq Require Import NArith ZArith List Bool QArith Lia.
From mathcomp Require Import all_ssreflect all_algebra.
From mathcomp Require Import zify.
From Verif Require Import Base WordLemmas WordVec GenModel UtilModel LinSpec LinLemmas PeriodSpec EquiModel EquiProofs5 TemperModel TemperSpec
  RecTemperModel RecTemperProofs SampleSpec XorshiftProofs2 TinyModel TinyLin TinySpec TinyProofs TinyDcProofs TinyPeriod PeriodProofs3 TmtModel TmtSpec.
Set Implicit Arguments.
Unset Strict Implicit.
Unset Printing Implicit Defensive.
Local Open Scope N_scope.
Delimit Scope Z_scope with coqZ.

(** * Bridge *)
Definition par (t : tmt) : tiny_param := TP 0 (t_mat1 t) (t_mat2 t) (t_tmat t).
Lemma land1 y : negb (N.land y 1 =? 0) = N.testbit y 0.
Proof.
have -> : N.land y 1 = N.b2n (N.testbit y 0).
  by rewrite -[1]/(N.ones 1) N.land_ones N.bit0_mod.
by case: (N.testbit y 0).
Qed.
Lemma next_status t : t_status (tmt_next t) = tiny_next (par t) (t_status t).
Proof.
case: t => [[[[a b] c] d] m1 m2 tm]; rewrite /tmt_next /tiny_next land1.
cbn [t_status st_get st_set N.eqb Pos.eqb t_mat1 t_mat2 t_tmat par tp_mat1 tp_mat2].
by case: (N.testbit _ 0).
Qed.
Lemma next_par t : par (tmt_next t) = par t.
Proof. by rewrite /tmt_next; case: negb. Qed.
Lemma next_tmt t : tmt_next t = with_status t (tiny_next (par t) (t_status t)).
Proof. rewrite -next_status /tmt_next; by case: negb. Qed.
Lemma temper_lin t : tmt_temper true t = tiny_temper (par t) (t_status t).
Proof. case: t => [[[[a b] c] d] m1 m2 tm]; rewrite /tmt_temper /tiny_temper land1 /tmt_t1 //=. Qed.
Lemma next_search t : as_search (tmt_next t) = (tiny_generate (as_search t)).2.
Proof. by rewrite next_tmt. Qed.
Lemma out_search t : (tmt_uint32 true t).1 = (tiny_generate (as_search t)).1.
Proof. by rewrite /= temper_lin next_par next_status. Qed.
Lemma words_bridge n t : let s := Nat.iter n tmt_next t in
  as_search s = Nat.iter n (fun g => (tiny_generate g).2) (as_search t) /\
  (tmt_uint32 true s).1 = (tiny_generate (as_search s)).1.
Proof.
split; last exact: out_search.
elim: n => [//|n IH]; rewrite -[Nat.iter n.+1 tmt_next t]/(tmt_next (Nat.iter n tmt_next t)) next_search IH.
by [].
Qed.
Lemma ok_iff t : words_ok t <-> q_ok (t_status t) /\ p_ok (par t).
Proof.
case: t => [[[[a b] c] d] m1 m2 tm]; rewrite /words_ok /q_ok /p_ok /=; split.
- move=> [[? [? [? ?]]] [/N.ltb_lt H1 [/N.ltb_lt H2 /N.ltb_lt H3]]]; split; first by [].
  by apply/and3P.
- by move=> [[? ? ? ?] /and3P[/N.ltb_lt ? /N.ltb_lt ? /N.ltb_lt ?]].
Qed.
Lemma norm_state t : q_norm (t_status t) = state127 t.
Proof.
case: t => [[[[a b] c] d] m1 m2 tm]; rewrite /q_norm /state127 /=.
by rewrite -[2147483647]/(N.ones 31) N.land_ones.
Qed.
Lemma next_words t : words_ok t -> words_ok (tmt_next t).
Proof. by move=> /ok_iff[Q P]; apply/ok_iff; rewrite next_status next_par; split=> //; exact: next_ok. Qed.
Lemma iter_words n t : words_ok t -> words_ok (Nat.iter n tmt_next t).
Proof. by move=> H; elim: n => [//|n IH]; exact: next_words. Qed.
Lemma iter_par n t : par (Nat.iter n tmt_next t) = par t.
Proof. by elim: n => [//|n IH]; rewrite -IH; exact: next_par. Qed.
Lemma iter_status n t : t_status (Nat.iter n tmt_next t) = iter n (tiny_next (par t)) (t_status t).
Proof.
elim: n => [//|n IH]; rewrite -[Nat.iter n.+1 tmt_next t]/(tmt_next (Nat.iter n tmt_next t)).
by rewrite next_status iter_par IH iterS.
Qed.

Local Arguments Nat.iter : simpl never.
Local Strategy expand [tmt_init tmt_pre_loop].
Local Strategy 1000 [tmt_next Nat.iter state127].
(** * The transition loses nothing *)
Lemma next_inj p a b : p_ok p -> q_ok a -> q_ok b ->
  q_norm (tiny_next p a) = q_norm (tiny_next p b) -> q_norm a = q_norm b.
Proof.
move=> P Qa Qb E; have LG := tiny_lin_all (p, false).
have oa : tiny_ok (p, false) (TM a p false) by [].
have ob : tiny_ok (p, false) (TM b p false) by [].
apply: (proj1 (tiny_vec_eq (g := TM a p false) (h := TM b p false) Qa Qb)).
have U := tiny_unit (th := (p, false)) P.
apply: (can_inj (mulmxK U)).
rewrite -(lin_generate_abs LG oa) -(lin_generate_abs LG ob).
by apply/tiny_vec_eq => //=; exact: next_ok.
Qed.
Lemma tmt_next_inj t u : words_ok t -> words_ok u -> par t = par u ->
  state127 (tmt_next t) = state127 (tmt_next u) -> state127 t = state127 u.
Proof.
move=> /ok_iff[Qt Pt] /ok_iff[Qu Pu] E; rewrite -!norm_state !next_status -E.
exact: next_inj.
Qed.
Lemma iter_inj n t u : words_ok t -> words_ok u -> par t = par u ->
  state127 (Nat.iter n tmt_next t) = state127 (Nat.iter n tmt_next u) -> state127 t = state127 u.
Proof.
move=> Ht Hu E; elim: n => [//|n IH] H; apply: IH; apply: tmt_next_inj H; try exact: iter_words.
by rewrite !iter_par.
Qed.
Lemma zero_next t : state127 t = (0, 0, 0, 0) -> state127 (tmt_next t) = (0, 0, 0, 0).
Proof. by rewrite -!norm_state next_status => /next_zero ->. Qed.
Definition zero_of (t : tmt) : tmt := with_status t (0, 0, 0, 0).
Lemma iter_zero n t : state127 (Nat.iter n tmt_next (zero_of t)) = (0, 0, 0, 0).
Proof. elim: n => [//|n IH]; exact: (zero_next IH). Qed.
Lemma zero_words t : words_ok t -> words_ok (zero_of t).
Proof. by move=> /ok_iff[_ P]; apply/ok_iff; split. Qed.
Lemma iter_live n t : words_ok t -> state127 t <> (0, 0, 0, 0) -> state127 (Nat.iter n tmt_next t) <> (0, 0, 0, 0).
Proof.
move=> Ht H E; apply: H; rewrite -[(0, 0, 0, 0)]/(state127 (zero_of t)).
by apply: (@iter_inj n) => //; [exact: zero_words|rewrite E iter_zero].
Qed.

(** * Certification and seeding *)
Lemma certify_cases t : (state127 t = (0, 0, 0, 0) /\ tmt_certify t = with_status t (84, 73, 78, 89)) \/
  (state127 t <> (0, 0, 0, 0) /\ tmt_certify t = t).
Proof.
have L a : N.land a 0x7fffffff = a mod 2 ^ 31 by rewrite -[2147483647]/(N.ones 31) N.land_ones.
case: t => [[[[a b] c] d] m1 m2 tm]; rewrite /tmt_certify /state127; cbn [t_status st_get N.eqb Pos.eqb]; rewrite L.
case: N.eqb_spec => Ea; last by right; split=> // -[].
case: N.eqb_spec => Eb; last by right; split=> // -[].
case: N.eqb_spec => Ec; last by right; split=> // -[].
case: N.eqb_spec => Ed; last by right; split=> // -[].
by left; rewrite Ea Eb Ec Ed.
Qed.
Lemma certify_words t : words_ok t -> words_ok (tmt_certify t) /\ state127 (tmt_certify t) <> (0, 0, 0, 0).
Proof.
move=> H; case: (certify_cases t) => -[E ->] //; split=> //.
by move/ok_iff: H => [_ P]; apply/ok_iff; split.
Qed.
Lemma certify_par t : par (tmt_certify t) = par t.
Proof. by case: (certify_cases t) => -[_ ->]. Qed.
Lemma pre_live t : words_ok t -> words_ok (tmt_pre_loop (tmt_certify t)) /\
  state127 (tmt_pre_loop (tmt_certify t)) <> (0, 0, 0, 0) /\ par (tmt_pre_loop (tmt_certify t)) = par t.
Proof.
move=> H; have [H1 H2] := certify_words H; rewrite /tmt_pre_loop iter_par certify_par.
split; first exact (iter_words 8 H1).
split; [exact (iter_live (n := 8) H1 H2)|reflexivity].
Qed.

Definition gv (i p : N) : N := wadd 32 i (wmul 32 1812433253 (N.lxor p (wshr p 30))).
Lemma gvE i p : gv i p = nextv i p.
Proof. by rewrite /gv /nextv /wadd N.add_comm. Qed.
Lemma gv_lt i p : gv i p < 2 ^ 32. Proof. rewrite gvE; exact: nextv_lt. Qed.
Lemma gv_inj i a b : a < 2 ^ 32 -> b < 2 ^ 32 -> gv i a = gv i b -> a = b.
Proof. rewrite !gvE; exact: nextv_inj. Qed.
Lemma turn1 a b c d : tmt_init_turn (a, b, c, d) 1 = (a, N.lxor b (gv 1 a), c, d).
Proof. reflexivity. Qed.
Lemma turn2 a b c d : tmt_init_turn (a, b, c, d) 2 = (a, b, N.lxor c (gv 2 b), d).
Proof. reflexivity. Qed.
Lemma turn3 a b c d : tmt_init_turn (a, b, c, d) 3 = (a, b, c, N.lxor d (gv 3 c)).
Proof. reflexivity. Qed.
Lemma turn4 a b c d : tmt_init_turn (a, b, c, d) 4 = (N.lxor a (gv 4 d), b, c, d).
Proof. reflexivity. Qed.
Lemma turn5 a b c d : tmt_init_turn (a, b, c, d) 5 = (a, N.lxor b (gv 5 a), c, d).
Proof. reflexivity. Qed.
Lemma turn6 a b c d : tmt_init_turn (a, b, c, d) 6 = (a, b, N.lxor c (gv 6 b), d).
Proof. reflexivity. Qed.
Lemma turn7 a b c d : tmt_init_turn (a, b, c, d) 7 = (a, b, c, N.lxor d (gv 7 c)).
Proof. reflexivity. Qed.
Lemma loopE t seed : tmt_init_loop t seed =
  let v1 := N.lxor (t_mat1 t) (gv 1 seed) in let v2 := N.lxor (t_mat2 t) (gv 2 v1) in let v3 := N.lxor (t_tmat t) (gv 3 v2) in
  let w0 := N.lxor seed (gv 4 v3) in let w1 := N.lxor v1 (gv 5 w0) in let w2 := N.lxor v2 (gv 6 w1) in
  let w3 := N.lxor v3 (gv 7 w2) in (w0, w1, w2, w3).
Proof.
rewrite /tmt_init_loop; cbn [List.fold_left]; cbv zeta.
rewrite turn1 turn2 turn3 turn4 turn5 turn6 turn7; reflexivity.
Qed.
Local Opaque gv.
Lemma lxorI (a b c : N) : N.lxor a b = N.lxor a c -> b = c.
Proof. by move=> /(f_equal (N.lxor a)); rewrite -!N.lxor_assoc N.lxor_nilpotent !N.lxor_0_l. Qed.
Lemma lxorIr (a b c : N) : N.lxor b a = N.lxor c a -> b = c.
Proof. by rewrite !(N.lxor_comm _ a); exact: lxorI. Qed.
Lemma loop_words t seed : seed < 2 ^ 32 -> p_ok (par t) -> words_ok (with_status t (tmt_init_loop t seed)).
Proof.
move=> Hs P; apply/ok_iff; split=> //; case/and3P: P => /N.ltb_lt P1 /N.ltb_lt P2 /N.ltb_lt P3.
have G i p : gv i p < 2 ^ 32 by exact: gv_lt.
rewrite /= loopE /=; split=> /=; repeat apply: (lxor_lt 32) => //.
Qed.
Lemma init_spec t seed : seed < 2 ^ 32 -> p_ok (par t) ->
  words_ok (tmt_init t seed) /\ state127 (tmt_init t seed) <> (0, 0, 0, 0) /\ par (tmt_init t seed) = par t.
Proof. by move=> Hs P; have := pre_live (loop_words Hs P). Qed.
(** Different seeds: the last three words and the lower 31 bits of the first
    one determine the seed. *)
Lemma loop_inj t a b : a < 2 ^ 32 -> b < 2 ^ 32 -> p_ok (par t) ->
  state127 (with_status t (tmt_init_loop t a)) = state127 (with_status t (tmt_init_loop t b)) -> a = b.
Proof.
move=> Ha Hb /and3P[/N.ltb_lt P1 /N.ltb_lt P2 /N.ltb_lt P3].
have G i p : gv i p < 2 ^ 32 by exact: gv_lt.
rewrite !loopE /state127 /=.
set v1 := N.lxor (t_mat1 t) (gv 1 a); set v2 := N.lxor (t_mat2 t) (gv 2 v1); set v3 := N.lxor (t_tmat t) (gv 3 v2).
set w0 := N.lxor a (gv 4 v3); set w1 := N.lxor v1 (gv 5 w0); set w2 := N.lxor v2 (gv 6 w1).
set u1 := N.lxor (t_mat1 t) (gv 1 b); set u2 := N.lxor (t_mat2 t) (gv 2 u1); set u3 := N.lxor (t_tmat t) (gv 3 u2).
set z0 := N.lxor b (gv 4 u3); set z1 := N.lxor u1 (gv 5 z0); set z2 := N.lxor u2 (gv 6 z1).
case=> _ E1 E2 _.
have V1 : v1 < 2 ^ 32 by apply: (lxor_lt 32). have U1 : u1 < 2 ^ 32 by apply: (lxor_lt 32).
have F2 : v2 = u2 by move: E2; rewrite /w2 /z2 E1; exact: lxorIr.
have F1 : v1 = u1 by move: F2; rewrite /v2 /u2 => /lxorI; exact: gv_inj.
by move: F1; rewrite /v1 /u1 => /lxorI; exact: gv_inj.
Qed.
(** The state before the certification can only be zero for one tmat. *)
Local Transparent gv.
Lemma loop_zero t a : state127 (with_status t (tmt_init_loop t a)) = (0, 0, 0, 0) -> t_tmat t = 2284664934.
Proof.
rewrite !loopE /state127 /=.
set v1 := N.lxor (t_mat1 t) (gv 1 a); set v2 := N.lxor (t_mat2 t) (gv 2 v1); set v3 := N.lxor (t_tmat t) (gv 3 v2).
set w0 := N.lxor a (gv 4 v3); set w1 := N.lxor v1 (gv 5 w0); set w2 := N.lxor v2 (gv 6 w1).
case=> _ E1 E2 E3; move: (E3); rewrite E2 => /N.lxor_eq E3'; move: (E2); rewrite /w2 E1 => /N.lxor_eq E2'.
move: E3'; rewrite /v3 E2' => /(f_equal (fun x => N.lxor x (gv 3 (gv 6 0)))).
by rewrite N.lxor_assoc N.lxor_nilpotent N.lxor_0_r => ->; vm_compute.
Qed.
Lemma seeds_distinct t a b : a < 2 ^ 32 -> b < 2 ^ 32 -> p_ok (par t) -> t_tmat t <> 2284664934 ->
  state127 (tmt_init t a) = state127 (tmt_init t b) -> a = b.
Proof.
move=> Ha Hb P Ht E; apply: (@loop_inj t) => //.
have Wa := loop_words Ha P; have Wb := loop_words Hb P.
have Ep : par (tmt_certify (with_status t (tmt_init_loop t a))) = par (tmt_certify (with_status t (tmt_init_loop t b))).
  by rewrite !certify_par.
move: E; rewrite /tmt_init /tmt_pre_loop => E.
have := iter_inj (certify_words Wa).1 (certify_words Wb).1 Ep E; clear E.
case: (certify_cases (with_status t (tmt_init_loop t a))) => -[Z ->]; first by case: Ht; exact: loop_zero Z.
by case: (certify_cases (with_status t (tmt_init_loop t b))) => -[Z' ->] //; case: Ht; exact: loop_zero Z'.
Qed.

(** * init_by_array *)
Lemma st_set_ok q i v : q_ok q -> v < 2 ^ 32 -> q_ok (st_set q i v).
Proof. by case: q => [[[a b] c] d] [? ? ? ?] Hv; rewrite /st_set; do 3 case: N.eqb => //. Qed.
Lemma st_get_lt q i : q_ok q -> st_get q i < 2 ^ 32.
Proof. by case: q => [[[a b] c] d] [? ? ? ?]; rewrite /st_get; do 3 case: N.eqb => //. Qed.
Lemma key_turn_ok q i a : q_ok q -> q_ok (key_turn q i a).
Proof. by move=> Hq; rewrite /key_turn; repeat (apply: st_set_ok; last exact: wadd_lt). Qed.
Lemma key_turns_ok l s : q_ok s.1 -> q_ok (key_turns l s).1.
Proof.
rewrite /key_turns; elim: l s => [//|a l IH] s Hs /=; apply: IH; exact: key_turn_ok.
Qed.
Lemma wsub_lt' a b : wsub 32 a b < 2 ^ 32. Proof. exact: trunc_lt. Qed.
Lemma ini_func2_lt x : ini_func2 x < 2 ^ 32. Proof. exact: trunc_lt. Qed.
Lemma end_turn_ok s : q_ok s.1 -> q_ok (end_turn s).1.
Proof.
case: s => q i Hq; rewrite /end_turn [fst _]/=; cbn [fst] in Hq.
apply: st_set_ok; last exact: wsub_lt'.
have Hq' : q_ok (st_set q ((i + 1) mod 4) (N.lxor (st_get q ((i + 1) mod 4))
   (ini_func2 (wadd 32 (wadd 32 (st_get q (i mod 4)) (st_get q ((i + 1) mod 4))) (st_get q ((i + 3) mod 4)))))).
  by apply: st_set_ok => //; apply: (lxor_lt 32); [exact: st_get_lt|exact: ini_func2_lt].
by apply: st_set_ok => //; apply: (lxor_lt 32); [exact: st_get_lt|exact: wsub_lt'].
Qed.
Lemma init_array_spec t key : p_ok (par t) -> (Z.of_nat (length key) < 2 ^ 31 - 1)%coqZ ->
  exists t', tmt_init_by_array t key = Ret t' /\ words_ok t' /\ state127 t' <> (0, 0, 0, 0) /\ par t' = par t.
Proof.
move=> P HL; rewrite /tmt_init_by_array.
have -> : (2 ^ 31 <=? Z.of_nat (length key) + 1)%coqZ = false by move: HL; clear; lia.
eexists; split; first reflexivity.
apply: pre_live; apply/ok_iff; split=> //; cbn [with_status t_status].
have E n s : q_ok s.1 -> q_ok (Nat.iter n end_turn s).1 by move=> H; elim: n => [//|n IH]; exact: end_turn_ok.
apply: E; apply: key_turns_ok; apply: key_turns_ok.
case/and3P: P => /N.ltb_lt P1 /N.ltb_lt P2 /N.ltb_lt P3.
by apply: st_set_ok; last exact: wadd_lt; repeat (apply: st_set_ok; last exact: wadd_lt).
Qed.
Lemma init_array_overflow t key : (Z.of_nat (length key) = 2 ^ 31 - 1)%coqZ -> tmt_init_by_array t key = Undef.
Proof. by move=> HL; rewrite /tmt_init_by_array HL. Qed.

(** * Period *)
Lemma period_of t : words_ok t -> state127 t <> (0, 0, 0, 0) -> tiny_maximal (par t) -> least_period (2 ^ 127 - 1) t.
Proof.
move=> /ok_iff[Q P] n0 M; rewrite -norm_state in n0; move: (tiny_period P M Q n0).
rewrite /least_period -[N.to_nat (2 ^ 127 - 1)]/(N.to_nat (2 ^ N.of_nat 127 - 1)) -[2 ^ 127 - 1]/(2 ^ N.of_nat 127 - 1).
have E : N.to_nat (2 ^ N.of_nat 127 - 1) = (2 ^ 127 - 1)%N by rewrite N_pow2.
move: (2 ^ N.of_nat 127 - 1) E => f E; rewrite E; move: (2 ^ 127 - 1)%N E => e E [H1 H2]; split.
- by rewrite -!norm_state iter_status.
- move=> i Hi; rewrite -!norm_state iter_status; apply: H2.
  by rewrite -E; move: Hi; clear; lia.
Qed.
