(** The programs calc_period and calc_equidist for RMT. *)
From Coq Require Import NArith ZArith Lia List Bool.
From mathcomp Require Import all_ssreflect all_algebra.
From mathcomp Require Import zify.
From Verif Require Import Base WordLemmas WordVec UtilModel UtilSpec GenModel PolyF2 PolyAct LinSpec LinLemmas LinInst PeriodSpec PeriodModel
  EquiModel EquiEx PeriodProofs2 PeriodProofs3 PeriodProofs4 PeriodProofs6 PeriodProofs7 ParitySpec ParityProofs SearchLin RecTemperSpec
  ArrayModel ArrayWin ArrayLin ArrayOut RmtModel RmtLin RmtProofs RmtParity RmtDcProofs RmtCalcModel RmtCalcSpec RmtCalcRead.
Set Implicit Arguments.
Unset Strict Implicit.
Unset Printing Implicit Defensive.
Import GRing.Theory.
Local Open Scope ring_scope.
Delimit Scope Z_scope with coqZ.

(** * Sequences *)
Lemma generates_ext h u v : (forall i, u i = v i) -> generates h u -> generates h v.
Proof. by move=> E H i; rewrite -[RHS](H i); apply: eq_bigr => j _; rewrite E. Qed.
Lemma minpoly_ext mu u v : (forall i, u i = v i) -> is_minpoly u mu -> is_minpoly v mu.
Proof.
move=> E [H1 H2 H3]; split=> //; first exact: generates_ext H2.
by move=> h H; apply: H3; apply: generates_ext H => i; rewrite E.
Qed.
Lemma minpoly_unique u p q : is_minpoly u p -> is_minpoly u q -> p = q.
Proof. by move=> [_ g1 m1] [_ g2 m2]; apply: f2x_eqp; rewrite /eqp m1 // m2. Qed.
Lemma irred_Xn (f : f2x) d m : irreducible_poly f -> size f = d.+1 -> (1 < d)%N -> coprimep f 'X^m.
Proof.
move=> If sf d1; apply: irred_coprime => //; apply/negP; elim: m => [|m IH].
  by rewrite expr0 => /dvd_size; rewrite size_poly1 sf oner_neq0 => /(_ isT); move: d1; clear; lia.
rewrite exprS Gauss_dvdpr //; apply: irred_coprime => //; apply/negP => /dvd_size.
by rewrite polyX_eq0 size_polyX sf => /(_ isT); move: d1; clear; lia.
Qed.
Lemma seq_period u mu f d i0 k : is_minpoly u mu -> large_factor mu f d -> prime (2 ^ d - 1) ->
  (forall i, (i0 <= i)%N -> u (i + k)%N = u i) -> (2 ^ d - 1 %| k)%N.
Proof.
move=> [_ _ Hm] [If sf [g Eg _]] pr Hu.
have Pf := mersenne_primitive If sf pr.
have G : generates ('X^i0 * ('X^k - 1)) u.
  move=> i; rewrite -/(sact _ u i) sactM sactX sactB sactX sact1 Hu ?leq_addl //; exact: subrr.
have D : f %| 'X^i0 * ('X^k - 1) by apply: dvdp_trans (Hm _ G); rewrite Eg dvdp_mulr.
have d1 : (1 < d)%N by move: pr; case: (d) => [|[|d']].
by apply: (primitive_dvd Pf); move: D; rewrite Gauss_dvdpr // (irred_Xn _ If sf).
Qed.

(** The numbers from a component of dimension d. *)
Lemma comp_le n (A : 'M['F_2]_n) C (f : f2x) d v k : irreducible_poly f -> size f = d.+1 -> (n < 2 * d)%N -> comp_equidist A C f v k -> (k * v <= d)%N.
Proof.
move=> If sf n2 H; have [v0|v0] := leqP v 0; first by move: v0; rewrite leqn0 => /eqP ->; rewrite muln0.
pose W : 'M['F_2]_(n, k * v) := \matrix_(a, b) (poly_mx A 'X^(b %/ v) *m C (b %% v)%N) a 0.
have HW x (b : 'I_(k * v)) : (x *m W) 0 b = obit C (st A (b %/ v) x) (b %% v).
  rewrite /obit -pactX pact_mx -mulmxA [RHS]mxE [LHS]mxE; apply: eq_bigr => a _; by rewrite !mxE.
have S : (1%:M <= kermx (poly_mx A f) *m W)%MS.
  apply/row_subP => b; have [x [Hx Hy]] := H (fun i j => (i * v + j == b)%N%:R).
  have -> : row b 1%:M = x *m W.
    apply/rowP => c; rewrite HW Hy ?ltn_pmod // ?ltn_divLR // -divn_eq !mxE eq_sym; congr (_%:R).
  have /submxP [z ->] : (x <= kermx (poly_mx A f))%MS by apply/sub_kermxP.
  by rewrite -mulmxA submxMl.
have := mxrankS S; rewrite mxrank1 => /leq_trans; apply; apply: leq_trans (mxrankM_maxl _ _) _.
exact: comp_rank.
Qed.

(** * The state that the numbers do not show *)
Section Gen.
Variable p : rmtp.
Hypothesis Hp : rmtp_ok p.
Notation size := (r_size p).
Notation n := (size * 64)%N.
Notation A := (rmt_A p).
Notation D := (rmt_D p).
Lemma Q_tail x : (forall i j, (N.of_nat j < 64)%num -> obit (@rmt_Q p) (st A i x) j = 0) -> st A (size - 1) x = 0.
Proof.
move=> H; have [s0 _ _] := Hp; have [s Hs Es] := rmt_sur Hp x.
have PW k : rmt_getParity (iter k (ar_step size (rF p)) s) = 0%num.
  have Hk := ag_iter_ok (rmt_ag Hp) k Hs.
  apply: (@msb_inj0 64); first by have [_ [_ [_ L]]] := Hk; exact: L.
  move=> j Hj; rewrite (rmt_Q_ok Hp) // -(H k j Hj); congr obit.
  by rewrite -Es; exact: (ag_iter_vec (rmt_ag Hp)).
rewrite -Es -(ag_iter_vec (rmt_ag Hp)) //.
have Hm := ag_iter_ok (rmt_ag Hp) (size - 1) Hs.
apply/(ag_vec_zero (rmt_ag Hp) Hm).
suff W k : (k < size)%N -> ar_win size (iter (size - 1) (ar_step size (rF p)) s) k = 0%num.
  by split=> [|k /andP[_ Hk]]; rewrite W // ?N.shiftr_0_l.
move=> Hk; have Hk' := ag_iter_ok (rmt_ag Hp) k Hs.
have -> : (size - 1 = (size - 1 - k) + k)%N by move: Hk; clear; lia.
rewrite iterD (ag_iter_win (rmt_ag Hp)) //. have -> : (k + (size - 1 - k) < size)%N by move: Hk; clear; lia.
have -> : (k + (size - 1 - k) = size - 1)%N by move: Hk; clear; lia.
by rewrite -[RHS](PW k) (rmt_win_last Hp).
Qed.
Lemma hidden x : (forall j, (N.of_nat j < 64)%num -> forall i, out_seq A D x j i = 0) -> st A size x = 0.
Proof.
move=> H; have [s Hs Es] := rmt_sur Hp x; have [s0 _ _] := Hp.
suff : st A (size - 1 + 1) x = 0 by have -> : (size - 1 + 1 = size)%N by move: s0; clear; lia.
rewrite st_add; apply: Q_tail => i j Hj.
pose s1 := iter i (fun s => (rmt_generate s).2) s.
have ok1 : rmt_ok p s1 by apply: (PeriodProofs4.run_ok (rmt_lin Hp)).
have E1 : rmt_vec p s1 = st A i x by rewrite -Es; apply: (PeriodProofs4.run_abs (rmt_lin Hp)).
have O : (rmt_generate s1).1 = 0%num.
  apply: (@word_ext 64); [|by []|].
    by rewrite (rmt_generateE Hp ok1); apply: (rtemper_lt p); apply: (wf_lt (rF_wf Hp)); apply: (@ar_small rmtp p 64).
  move=> k Hk; have := @rmt_linout p Hp s1 (N.to_nat k) ok1; rewrite N2Nat.id => /(_ Hk).
  rewrite E1; have := H (N.to_nat k); rewrite N2Nat.id => /(_ Hk i); rewrite /out_seq => ->.
  by rewrite N.bits_0; case: (N.testbit _ _).
have R : rF p (rmt_win p s1) = 0%num.
  move: O; rewrite (rmt_generateE Hp ok1); cbn [fst]; rewrite /rT.
  have lt : (rF p (rmt_win p s1) < 2 ^ 64)%num by apply: (wf_lt (rF_wf Hp)); apply: (@ar_small rmtp p 64).
  have [_ [J _]] := rtemper_bij p; move=> E; apply: (J _ _ lt); first by [].
  by rewrite E; have := rtemper_add p 0 0; rewrite !N.lxor_nilpotent.
have ok2 : rmt_ok p (rmt_generate s1).2 by exact: (lin_generate_ok (rmt_lin Hp) ok1).
have P0 : rmt_getParity (rmt_generate s1).2 = 0%num.
  rewrite (rmt_win_last Hp ok2) (rmt_generateE Hp ok1); cbn [snd].
  rewrite /rmt_win (ag_step_win (rmt_ag Hp) ok1); last by move: s0; clear; lia.
  by rewrite eqxx.
have := rmt_Q_ok Hp ok2 Hj; rewrite P0 /msb N.bits_0 => Q0.
have V : rmt_vec p (rmt_generate s1).2 = st A i (st A 1 x).
  rewrite (lin_generate_abs (rmt_lin Hp) ok1) E1 /st -iterD addn1; exact: erefl.
by rewrite -V -Q0.
Qed.

(** * The bits *)
Notation s0 := (rmt_seed 1234 (p, RR 0 nil)).
Lemma ok0 : rmt_ok p s0.
Proof. exact: (rmt_seed_ok _ Hp). Qed.
Lemma lowE i : out_seq A D (rmt_vec p s0) 0 i = (rc_low p i)%:R.
Proof.
rewrite /out_seq -(PeriodProofs4.run_abs (rmt_lin Hp) i ok0) /rc_low.
have okr := PeriodProofs4.run_ok (rmt_lin Hp) i ok0.
by rewrite -(@rmt_linout p Hp _ 0%N okr).
Qed.
Variable M : seq 'F_2 -> nat -> f2x.
Hypothesis HM : minpolyseq_spec M.
Lemma size_ok s : rmt_ok p s -> mp_size rmt_ops s 0 = n.
Proof. by move=> [E _]; rewrite /mp_size /= E. Qed.
Lemma min_ok s : rmt_ok p s -> exists mu, minpoly rmt_ops M s 0 0 = Ret (mu, run rmt_ops (2 * n) s) /\
  is_minpoly (out_seq A D (rmt_vec p s) 0) mu.
Proof.
move=> oks; have L : (n <= mp_size rmt_ops s 0)%N by rewrite size_ok.
have := minpoly_spec (rmt_lin Hp) (rmt_linout Hp) HM (p := 0%N) (stateSize := 0%coqZ) oks _ L.
by rewrite size_ok //; apply.
Qed.
Lemma min_size u mu : is_minpoly u mu -> (exists x, forall i, u i = out_seq A D x 0 i) -> (seq.size mu <= n.+1)%N.
Proof.
move=> [mu0 _ Hm] [x Hx]; have : mu %| char_poly A by apply: Hm; apply: (generates_ext (u := out_seq A D x 0)) => // ; exact: out_char.
by move/(dvd_size (char_neq0 A)); rewrite size_char_poly.
Qed.
End Gen.

(** * The programs *)
Lemma legal_ok p : rc_legal p -> rmtp_ok p.
Proof. by move=> [_ E H1 _ [H2 _ H3 H4]]; split; [rewrite E addn1|exact: H1|split]. Qed.
Lemma object_ok p : rc_legal p -> exists s, rc_object (RCA (Z.of_nat (r_mexp p)) (Z.of_nat (r_pos p)) (r_mata p) (r_par p) (r_maskb p) (r_maskc p)) = Ret (p, s).
Proof.
case: p => mexp size rev pos mata par mb mc [_ E _ E' _]; cbn [r_mexp r_size r_rev r_pos r_mata r_par r_maskb r_maskc] in *; subst size rev.
rewrite /rc_object; cbn [ra_mexp ra_pos ra_mata ra_parity ra_mskb ra_mskc].
have -> : (Z.of_nat mexp <? 0)%coqZ || (Z.of_nat pos <? 0)%coqZ = false by lia.
by rewrite !Nat2Z.id; eexists; reflexivity.
Qed.
Lemma clean_effect p s : rc_legal p -> rmt_getParamString_effect (p, s) = (rc_clean p, s).
Proof. by move=> [_ _ _ _ [_ _ H1 H2]]; rewrite /rmt_getParamString_effect /rc_clean !cleanE. Qed.
Lemma clean_legal p : rc_legal p -> rc_legal (rc_clean p).
Proof.
move=> [H1 H2 H3 H4 [H5 H6 H7 H8]]; split=> //; split=> //; cbn [rc_clean r_maskb r_maskc]; rewrite -cleanE //; exact: wshl_lt.
Qed.
Lemma iter_par p s k : (iter k (fun s => (rmt_generate s).2) (p, s)).1 = p.
Proof. by elim: k => [//|k IH]; rewrite iterS; case: (iter k _ _) IH => q' s' /= ->. Qed.
Lemma clean_low p i : rc_legal p -> rc_low (rc_clean p) i = rc_low p i.
Proof.
move=> [_ _ _ _ [_ _ H1 H2]]; rewrite /rc_low.
have G s : (rmt_generate s).1 = rmt_temper s.1 (N.lxor (N.lxor (N.lxor (rr_at (r_size s.1) (rr_arr s.2) (Nat.modulo (rr_idx s.2 + 1) (r_size s.1) + r_pos s.1))
    (wshl 64 (rr_at (r_size s.1) (rr_arr s.2) (Nat.modulo (rr_idx s.2 + 1) (r_size s.1) + r_pos s.1)) 17))
    (wshr (rr_at (r_size s.1) (rr_arr s.2) (Nat.modulo (rr_idx s.2 + 1) (r_size s.1))) 1))
    (if N.testbit (rr_at (r_size s.1) (rr_arr s.2) (Nat.modulo (rr_idx s.2 + 1) (r_size s.1))) 0 then r_mata s.1 else 0%num)) by case: s.
pose s := (rmt_seed 1234 (p, RR 0 nil)).2.
have E2 := @move_par p (rc_clean p) s erefl erefl erefl i; have E1 := iter_par p s i; have E3 := iter_par (rc_clean p) s i.
rewrite -[rmt_seed 1234 (p, RR 0 nil)]/(p, s) -[rmt_seed 1234 (rc_clean p, RR 0 nil)]/(rc_clean p, s).
rewrite !G E1 E2 E3; cbn [r_size r_pos r_mata rc_clean].
by rewrite (@clean_temper p (rc_clean p)) // /rc_clean; cbn [r_maskb r_maskc]; rewrite cleanE.
Qed.
Lemma divZ m j : (Z.of_nat m / Z.of_nat j.+1)%coqZ = Z.of_nat (m %/ j.+1)%N.
Proof.
have := divn_eq m j.+1; have := ltn_pmod m (ltn0Sn j); move: (m %/ j.+1)%N (m %% j.+1)%N => a b Hb Em.
by symmetry; apply: (Z.div_unique _ _ _ (Z.of_nat b)); [left; move: Hb; clear; lia|rewrite Em; clear; lia].
Qed.
Section Thm.
Variables (M : seq 'F_2 -> nat -> f2x) (Pos : N -> res Z) (ffuel efuel : nat) (veq0 : list Z).
Hypothesis HM : minpolyseq_spec M.
Variable p : rmtp.
Hypothesis Hl : rc_legal p.
Notation d := (r_mexp p).
Notation n := (r_size p * 64)%N.
Hypothesis Hff : (n < ffuel)%N.
Variable t : list N.
Hypothesis Ht : rc_tail t.
Lemma factor_found q : rmtp_ok q -> (forall i, rc_low q i = rc_low p i) -> r_size q = r_size p ->
  exists mu, [/\ minpoly rmt_ops M (rmt_seed 1234 (q, RR 0 nil)) 0 0 = Ret (mu, run rmt_ops (2 * n) (rmt_seed 1234 (q, RR 0 nil))),
    is_minpoly (fun i => (rc_low p i)%:R) mu,
    is_minpoly (out_seq (rmt_A q) (rmt_D q) (rmt_vec q (rmt_seed 1234 (q, RR 0 nil))) 0) mu &
    exists irr b, [/\ hasFactorOfDegree ffuel mu (Z.of_nat d) = Ret (irr, b), b -> large_factor mu irr d /\ rc_factor p irr &
      ~~ b -> forall f, ~ rc_factor p f]].
Proof.
move=> Hq El Es; have [mu [E1 E2]] := min_ok Hq HM (ok0 Hq).
have E3 : is_minpoly (fun i => (rc_low p i)%:R) mu by apply: minpoly_ext E2 => i; rewrite lowE // El.
have sz : (seq.size mu <= ffuel)%N.
  have H : (seq.size mu <= (r_size q * 64).+1)%N by apply: (min_size (p := q) E2); eexists.
  by rewrite Es in H; exact: leq_trans H Hff.
have mu0 : mu != 0 by case: E2.
have [irr [b [H1 H2 H3]]] := hasFactor_spec d mu0 sz.
exists mu; split=> //; first by rewrite E1 Es.
exists irr, b; split=> //; first by move=> /H2 L; split=> //; exists mu.
by move=> /H3 H f [mu' Hmu' Hf]; apply: (H f); rewrite (minpoly_unique E3 Hmu').
Qed.
Lemma period_thm : exists r, calc_period M ffuel (rmt_text p ++ t) = Ret r /\
  [/\ rp_text r = rmt_text (rc_clean p), rp_found r = true <-> exists f, rc_factor p f &
    rp_found r -> rp_deg r = Z.of_nat d /\ (prime (2 ^ d - 1) -> forall k, rc_repeats p k -> (2 ^ d - 1 %| k)%N)].
Proof.
rewrite /calc_period (parse_text Hl Ht); cbn [bind]; have [s Eo] := object_ok Hl; rewrite Eo; cbn [bind].
rewrite /rmt_getParamString (clean_effect _ Hl); cbn [fst].
have -> : rmt_seed 1234 (rc_clean p, s) = rmt_seed 1234 (rc_clean p, RR 0 nil) by [].
have [mu [E1 E2 _ [irr [b [E3 E4 E5]]]]] := factor_found (legal_ok (clean_legal Hl)) (fun i => clean_low i Hl) erefl.
rewrite E1; cbn [bind]; cbn [ra_mexp]; rewrite E3; cbn [bind]; eexists; split; first by reflexivity.
cbn [rp_text rp_deg rp_found]; split=> //.
- split=> [/E4 [_ H]|]; first by exists irr.
  by case: (b) E5 => // /(_ isT) H [f /H].
- move=> /E4 [L _]; split; first by case: L => _ sf _; rewrite /deg sf; clear; lia.
  by move=> pr k [i0 Hk]; apply: (seq_period (i0 := i0) E2 L pr) => i Hi; rewrite Hk.
Qed.

Notation A := (rmt_A p).
Notation C := (rmt_C p).
Hypothesis Hveq : (64 <= length veq0)%N.
Hypothesis HPos : pos_spec 64 Pos.
Hypothesis dbig : (64 < d)%N.
Hypothesis Hef : ((4 * n + 2) * 65 <= efuel)%N.
Lemma nn : (n < 2 * d)%N.
Proof.
case: Hl => _ -> _ _ _; move: dbig; clear; have := Nat.div_mod d 64; have := Nat.mod_upper_bound d 64.
generalize (Nat.modulo d 64) (Nat.div d 64); lia.
Qed.
Lemma equidist_thm : exists r, calc_equidist M Pos ffuel efuel veq0 (rmt_text p ++ t) = Ret r /\
  match r with
  | None => forall f, ~ rc_factor p f
  | Some r => exists f, [/\ rc_factor p f, f %| char_poly A, re_text r = rmt_text (rc_clean p) &
      exists dims, [/\ forall v, (1 <= v <= 64)%N -> comp_dim A C f v (dims v) /\ (dims v * v <= d)%N,
        re_k r = List.map (fun v => Z.of_nat (dims v)) (List.seq 1 64),
        re_d r = List.map (fun v => Z.of_nat (d %/ v)%N - Z.of_nat (dims v))%coqZ (List.seq 1 64) &
        re_delta r = defects d 64 dims]]
  end.
Proof.
rewrite /calc_equidist (parse_text Hl Ht); cbn [bind]; have [s Eo] := object_ok Hl; rewrite Eo; cbn [bind].
have -> : rmt_seed 1234 (p, s) = rmt_seed 1234 (p, RR 0 nil) by [].
have Hp := legal_ok Hl; set s1 := rmt_seed 1234 (p, RR 0 nil).
have ok1 : rmt_ok p s1 by exact: ok0.
have [mu [E1 E2 Emu [irr [b [E3 E4 E5]]]]] := factor_found Hp (fun i => erefl) erefl.
rewrite -/s1 in E1 Emu; rewrite E1; cbn [bind ra_mexp]; rewrite E3; cbn [bind].
case: b E4 E5 {E3} => [/(_ isT) [L F] _|_ /(_ isT) H]; last by eexists; split.
have [If sf [g Eg _]] := L; have f0 : irr != 0 by rewrite -size_poly_gt0 sf.
have fmu : irr %| mu by rewrite Eg dvdp_mulr.
have [mu0 _ Hmin] := Emu.
have muc : mu %| char_poly A by apply: Hmin; exact: out_char.
set s2 := run rmt_ops (2 * n) s1; have ok2 : rmt_ok p s2 by exact: (PeriodProofs4.run_ok (rmt_lin Hp)).
have Hnb s' : rmt_ok p s' -> g_bitSize rmt_ops s' = n by move=> [E _]; rewrite /= E.
have [L' [k [K1 K2 K3 /(_ muc) K4 [/(_ muc) K5 _]]]] := ccp_spec (rmt_lin Hp) (rmt_linout Hp) HM Hnb (leqnn _) ok2 mu0.
rewrite K1; cbn [negb bind]; rewrite div_ret //; cbn [bind].
have fL : irr %| L' by exact: dvdp_trans K2.
have q0 : (L' %/ irr == 0) = false by apply: contraNF K3 => /eqP E; rewrite -(divpK fL) E mul0r.
rewrite q0; set s3 := run rmt_ops k s2 in K5 *.
have ok3 : rmt_ok p s3 by exact: (PeriodProofs4.run_ok (rmt_lin Hp)).
have [ok4 E6] := annihilate_spec (rmt_lin Hp) (L' %/ irr) ok3; set s4 := annihilate _ _ _ in ok4 E6 *.
have [mu4 [E7 _]] := min_ok Hp HM ok4; rewrite E7; cbn [bind].
set s5 := run rmt_ops (2 * n) s4; have ok5 : rmt_ok p s5 by exact: (PeriodProofs4.run_ok (rmt_lin Hp)).
have E8 : rmt_vec p s5 = st A (2 * n) (pact A (L' %/ irr) (rmt_vec p s3)).
  by rewrite -E6; exact: (PeriodProofs4.run_abs (rmt_lin Hp)).
have fx : pact A irr (rmt_vec p s5) = 0.
  rewrite E8 pact_st -pactM [irr * _]mulrC divpK //.
  have -> : (2 * n = (2 * n - r_size p) + r_size p)%N by clear; lia.
  rewrite st_add (hidden Hp) ?st0 // => j Hj i.
  by have /out_generates := K5 j Hj; apply.
have x0 : rmt_vec p s5 != 0.
  apply/eqP => Z; have E9 : rmt_vec p s3 = st A (k + 2 * n) (rmt_vec p s1).
    by rewrite st_add -(PeriodProofs4.run_abs (rmt_lin Hp) (2 * n) ok1); exact: (PeriodProofs4.run_abs (rmt_lin Hp)).
  have D1 : mu %| 'X^(2 * n) * ((L' %/ irr) * 'X^(k + 2 * n)).
    by apply: Hmin; apply: out_zero; rewrite !pactM !pactX -E9 -E8.
  have D2 : irr %| L' %/ irr.
    have d1 : (1 < d)%N by move: dbig; clear; lia.
    have := dvdp_trans fmu D1; rewrite Gauss_dvdpr ?(irred_Xn _ If sf) // Gauss_dvdpl ?(irred_Xn _ If sf) //.
  have := large_simple A If sf nn; apply/negP/negPn; apply: dvdp_trans K4.
  by rewrite -(divpK fL) expr2 dvdp_mul2r.
have F2 : ((2 * n + 2 * n + 2) * (N.to_nat (g_width rmt_ops)).+1 <= efuel)%N.
  by apply: leq_trans Hef; cbn [g_width rmt_ops]; clear; generalize (r_size p) => m; lia.
rewrite pact_mx in fx.
have [a' [veq' [E10 Hd]]] := comp_dims (rmt_lin Hp) Hnb (leqnn _) HPos ok5 If sf nn x0 fx F2 (isT : 1 <= 64)%N (N.le_refl 64) Hveq.
rewrite E10; cbn [bind]; rewrite /rmt_getParamString.
have -> : s5 = (p, s5.2) by case: ok5; case: (s5) => a c /= ->.
rewrite (clean_effect _ Hl); cbn [fst]; eexists; split; first by reflexivity.
exists irr; cbn [re_text re_k re_d re_delta]; split=> //; first exact: dvdp_trans muc.
exists (fun v => Z.to_nat (List.nth (v - 1) veq' 0%coqZ)).
have N1 v : (1 <= v <= 64)%N -> Z.of_nat (Z.to_nat (List.nth (v - 1) veq' 0%coqZ)) = List.nth (v - 1) veq' 0%coqZ.
  by move=> /Hd [k' [-> _]]; rewrite Nat2Z.id.
split.
- move=> v Hv; have [k' [-> Hk]] := Hd v Hv; rewrite Nat2Z.id; split=> //.
  by case: Hk => Hk _; apply: comp_le Hk => //; exact: nn.
- rewrite /rc_ks -List.seq_shift List.map_map; apply: List.map_ext_in => j /List.in_seq Hj.
  by rewrite N1 ?subSS ?subn0 //; lia.
- rewrite /rc_rows -List.seq_shift List.map_map; apply: List.map_ext_in => j /List.in_seq Hj.
  rewrite N1 ?subSS ?subn0; last by move: Hj; clear; lia.
  congr Z.sub; rewrite addn1.
  exact: divZ.
- rewrite /defect_sum /defects; congr List.fold_right; rewrite -List.seq_shift List.map_map; apply: List.map_ext_in => j /List.in_seq Hj.
  by rewrite N1 ?subSS ?subn0 //; lia.
Qed.
End Thm.
