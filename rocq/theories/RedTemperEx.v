(** AlgorithmReducibleRecursionAndTempering on the rotation of three bits. *)
From Coq Require Import NArith ZArith List Lia.
From mathcomp Require Import all_ssreflect all_algebra.
From mathcomp Require Import zify.
From Verif Require Import Base GenModel PolyF2 LinSpec LinLemmas LinInst EquiModel EquiEx PeriodSpec PeriodModel PolyAct
  PeriodProofs PeriodProofs2 PeriodProofs4 PeriodProofs5 PeriodProofs6 PeriodProofs7 PeriodEx ParityModel ParitySpec ParityProofs ParityEx TemperModel
  RecTemperModel RecTemperSpec RecTemperProofs RedTemperModel RedTemperSpec RedTemperProofs.
Set Implicit Arguments.
Unset Strict Implicit.
Unset Printing Implicit Defensive.
Import GRing.Theory.
Local Open Scope ring_scope.
Delimit Scope Z_scope with coqZ.

(** The rotation has no tempering parameters. *)
Definition toy_temper : temper_ops toy := {| t_set := fun _ _ _ g => g; t_up := id; t_setRev := id; t_resetRev := id; t_clone := id |}.
Definition toy_st (s : toy) : res (Z * toy) := Ret (0%coqZ, s).
Definition toy_legal (s : toy) : Prop := (s.2 < 8)%num.
Notation toy_rrt := (rrt_search toy_ops toy_temper toy_par mps brute toy_setUp 1 toy_pos 5 56 (List.repeat 0%coqZ 3) 1 toy_st toy_st true).

Lemma toy_factor56 : hasFactorOfDegree 56 rot_poly 2 = Ret (quad_poly, true).
Proof.
have s5 : (size rot_poly <= 56)%N by rewrite size_rot.
have [f [b [E Ht Hf]]] := hasFactor_spec 2 rot0 s5; rewrite E.
case: b Ht Hf {E} => [Ht _|_ /(_ isT quad_poly)/(_ rot_large) []//].
have [If sf [g gE _]] := Ht isT; congr (Ret (_, _)).
have Df : f %| quad_poly * ('X + 1) by rewrite -rot_factor gE dvdp_mulr.
have /orP[D1|D1] := irred_prime If Df.
  by apply: size_eq_dvd D1 _; rewrite sf size_quad.
have x0 : ('X + 1 : f2x) != 0 by rewrite -size_poly_gt0 sizeX1.
by have := dvd_size x0 D1; rewrite sizeX1 sf.
Qed.
Definition toy_found := Build_rr_state (false, 1%num) 1%num rot_poly quad_poly 1%coqZ.
Lemma toy_find : rrt_find toy_ops toy_par mps toy_setUp 1 56 1 3 toy_start_red = Ret toy_found.
Proof.
cbn [rrt_find]; rewrite /rr_start (_ : Z.to_nat (1000 * 3) = (Z.to_nat 2999).+1) //.
have d1 : (deg rot_poly <? 2)%coqZ = false by rewrite (degZ_lt _ 2) size_rot.
have d2 : (deg quad_poly =? 2)%coqZ by rewrite (degZ_eq _ 2) size_quad.
by rewrite (@rr_step _ _ toy_ops mps toy_setUp 1 56 _ 2 toy_start_red (false, 0%num) 1%num _ _ _ (erefl _) (toy_minpoly false) d1 toy_factor56 d2).
Qed.
Lemma toy_parity56 : searchParity toy_ops toy_par toy_pos brute (Some 5%num) 56 (false, 1%num) quad_poly = Ret (3%num, (false, 3%num)).
Proof.
rewrite /searchParity; set E := Build_internal_state _ _ _.
have -> : search_loop toy_ops toy_par toy_pos 56 3 quad_poly 3 (3 - 2) (List.repeat E 3) E 0 =
  Ret [:: E; E; Build_internal_state true 7%num (false, 7%num)].
  rewrite /search_loop [(0 < 3)%N]/= /calc_basis.
  rewrite [calc_basis_loop _ _ _ _ _ _ _]/= toy_ann.
  by vm_compute.
by vm_compute.
Qed.
Lemma toy_setp th s v : toy_ok th s -> (v < 2 ^ g_width toy_ops)%num ->
  exists2 th', toy_ok th' (p_setParityValue toy_par v s) & tA th' = tA th.
Proof. by move=> [E _] Hv; exists th. Qed.
Lemma toy_keeps : keeps toy_ok (fun _ => tabs) (fun th => tA th) toy_st.
Proof. by move=> s d s' [_ <-] th oks; exists th. Qed.
Lemma toy_same s : same_state toy_ok (fun _ => tabs) (fun th => tA th) s s.
Proof. by move=> th oks; exists th. Qed.

Lemma toy_out_obs : out_observable (tA false) (tD false) 3.
Proof.
move=> x H; have oks := toy_of_ok x; rewrite -(toy_ofK x) in H *.
suff -> : toy_of x = (false, 0%num) by apply/rowP => i; rewrite !mxE /toy_bits N.bits_0.
move: oks H; case: (toy_of x) => a y [/= -> Hy] H; congr (_, _).
have Z p : (N.of_nat p < 3)%num -> N.testbit y (N.of_nat p) = false.
  move=> Hp; have := H p Hp 0%N; rewrite /out_seq /=.
  have := @toy_out false (false, y) p (conj (erefl _) Hy) Hp.
  by move=> <-; case: (N.testbit y _) => // /eqP.
by move: (Z 0%N (erefl _)) (Z 1%N (erefl _)) (Z 2%N (erefl _)); move: Hy {Z H}; clear => Hy; cases8 Hy.
Qed.

Lemma toy_returns verbose no_lsb : exists r, [/\ toy_rrt verbose no_lsb (false, 0%num) 0%num = Ret (true, r),
  rrt_parity r = 3%num & rrt_poly r = quad_poly].
Proof.
have q0 : quad_poly != 0 by rewrite -size_poly_gt0 size_quad.
have T1 (s : toy) : exists d s', toy_st s = Ret (d, s') by exists 0%coqZ, s.
apply: (rrt_total (T := toy_temper) toy_family mps_spec brute_spec toy_pos_spec (fuel := 56) (veq0 := List.repeat 0%coqZ 3) (P := toy_par)
  (isT : ((4 * 3 + 2) * 4 <= 56)%N) (isT : (3 <= 3)%N) toy_setp true verbose no_lsb toy_keeps toy_keeps toy_same toy_same T1 T1 (o1 := toy_found) (th := false)) => //.
exact: toy_find.
exact: toy_parity56.
Qed.
Lemma toy_char1 : char_poly (tA true) = lfsr_poly.
Proof. by apply/esym/ccp_full; [apply: minpoly_char (toy_low true) | rewrite size_lfsr]. Qed.
Lemma toy_A_inj : tA true <> tA false.
Proof.
move=> E; have : lfsr_poly = rot_poly by rewrite -toy_char1 -toy_char E.
by move=> Q; have [_ H] := lfsr_irred; have := H quad_poly; rewrite size_quad Q rot_factor dvdp_mulr // => /(_ isT isT)/f2x_eqp
  /(congr1 (fun p : f2x => size p)); rewrite -rot_factor size_quad size_rot.
Qed.
Lemma toy_abs0 (x : N) : (x < 8)%num -> tabs (false, x) = 0 -> x = 0%num.
Proof.
move=> Hx /rowP E; have H (i : nat) (Hi : (i < 3)%N) : N.testbit x (N.of_nat i) = false.
  by have := E (Ordinal Hi); rewrite !mxE /toy_bits /=; case: N.testbit.
have := H 0%N isT; have := H 1%N isT; have := H 2%N isT.
by move: Hx {H E} => Hx; cases8 Hx.
Qed.
Lemma toy_alive : alive (tA false) quad_poly (tabs (false, 3%num)).
Proof.
rewrite /alive toy_char rot_factor mulrC mulpK; last by rewrite -size_poly_gt0 size_quad.
rewrite -pact_mx; have ok3 : toy_ok false (false, 3%num) by [].
have [_ <-] := annihilate_spec (toy_lin false) ('X + 1) ok3.
have -> : annihilate toy_ops (false, 3%num) ('X + 1) = (false, 6%num).
  rewrite /annihilate (_ : Z.to_nat (deg ('X + 1 : f2x) + 1) = 2%N); last by rewrite /deg sizeX1.
  have c0 : (('X + 1 : f2x)`_0 == 0) = false by rewrite coefD coefX coef1.
  have c1 : (('X + 1 : f2x)`_1 == 0) = false by rewrite coefD coefX coef1.
  by rewrite /= c0 c1.
by apply/eqP => /(@toy_abs0 6 (erefl _)).
Qed.
Lemma toy_equi x : x \in [:: 3%num; 5%num; 6%num] -> rrt_equidist toy_ops toy_pos 56 (List.repeat 0%coqZ 3) (false, x) = Ret 2%coqZ.
Proof. by rewrite !inE => /orP[/eqP ->|/orP[/eqP ->|/eqP ->]]; vm_compute. Qed.

(** The search returns the defect 2; relative to the Mersenne exponent it is 0. *)
Lemma toy_delta verbose no_lsb r : toy_rrt verbose no_lsb (false, 0%num) 0%num = Ret (true, r) ->
  rrt_parity r = 3%num -> rrt_poly r = quad_poly ->
  rrt_delta r = 2%coqZ /\ exists2 dims, (forall v, (1 <= v <= 3)%N -> comp_dim (tA false) (tC false) quad_poly v (dims v)) & defects 2 3 dims = 0%coqZ.
Proof.
move=> E Ep Eq; have Ed := rrt_delta_eq E.
have Hset (s : toy) (b : N) : toy_legal s -> exists r', toy_setUp s b = Ret r' \/ toy_setUp s b = Throw by move=> _; eexists; left.
have Hm (s : toy) : toy_legal s -> p_getMexp toy_par s = Z.of_nat 2 by [].
have [_ [k [r0 [b0 [s [th [mu [th1 [th' [[_ _ oks Hmu [HL _]] [[_ [ok1 A1] [ok' A'] _] [_ H]]]]]]]]]]]] :=
  rrt_thm (T := toy_temper) toy_family mps_spec brute_spec toy_pos_spec (fuel := 56) (veq0 := List.repeat 0%coqZ 3) (P := toy_par)
  (isT : ((4 * 3 + 2) * 4 <= 56)%N) (isT : (3 <= 3)%N) (isT : (1 < 2)%N) (isT : (3 < 2 * 2)%N) Hset Hm toy_setp
  (erefl _ : toy_legal (false, 0%num)) toy_keeps toy_keeps toy_same toy_same E.
have sE : g_seed toy_ops 1 s = toy_one th by rewrite /toy_one -oks.1.
have thE : th = false.
  case: th oks Hmu HL {A1 A' H} sE => // oks Hmu HL sE; rewrite sE in Hmu.
  have muE := minpoly_unique (toy_low true) Hmu; rewrite Eq -muE in HL.
  have [_ _ [g gE _]] := HL; have D : quad_poly %| lfsr_poly by rewrite gE dvdp_mulr.
  case: (irred_dvd lfsr_irred D) => /(congr1 (fun p : f2x => size p)); rewrite size_quad ?size_poly1 ?size_lfsr //.
rewrite thE in A1 A' H sE.
have th1E : th1 = false by case: th1 A1 {ok1 H} => // /toy_A_inj.
have thE' : th' = false by case: th' A' {ok' H} => // /toy_A_inj.
rewrite th1E thE' Ep Eq sE in H ok'.
have [x0 xf [dims [Hd HD]]] := H toy_out_obs toy_alive.
have D2 : rrt_delta r = 2%coqZ.
  move: Ed x0 xf ok'; case: (rrt_rand r) => a x Ed x0 xf [/= aE Hx]; rewrite {}aE in Ed x0 xf.
  have okx : toy_ok false (false, x) by [].
  have [_ Ea] := annihilate_spec (toy_lin false) quad_poly okx.
  rewrite toy_ann pact_mx xf in Ea.
  have Hn : tabs (false, 7%num) <> 0 by move/(@toy_abs0 7 (erefl _)).
  have Ei : x \in [:: 3%num; 5%num; 6%num].
    move: x0 Ea; cases8 Hx => // x0 Ea; try (by case: Hn; exact: Ea).
    by case/eqP: x0; apply/rowP => i; rewrite !mxE /toy_bits N.bits_0.
  by move: Ed; rewrite (toy_equi Ei) => -[].
split=> //; exists dims => //; move: HD; rewrite D2 (excess_defects 3 2).
have -> : excess 3 2 3 = 2%coqZ by [].
move: (defects 2 3 dims) => z; clear; lia.
Qed.
