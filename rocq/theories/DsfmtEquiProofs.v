(** calc_dSFMT_equidistribution on dSFMT objects. *)
From Coq Require Import NArith ZArith Lia Bool List.
From mathcomp Require Import all_ssreflect all_algebra.
From mathcomp Require Import zify.
From Verif Require Import Base WordLemmas WordVec UtilModel GenModel EquiModel LinSpec LinLemmas LinInst PeriodSpec PeriodProofs4 EquiProofs3
  ArrayModel ArrayWin ArrayLin ViewLin W128Model W128Spec W128Proofs W128Cert SfmtModel SfmtLin SfmtProofs
  SimdModel SimdPack SimdSpec SimdSeq SimdEqui SimdBits SimdProofs SimdThm
  DsfmtModel DsfmtLin DsfmtProofs DsfmtPar DsfmtSeq DsfmtEquiModel DsfmtEquiSpec DsfmtEqui.
Set Implicit Arguments.
Unset Strict Implicit.
Unset Printing Implicit Defensive.
Import GRing.Theory.
Local Open Scope nat_scope.
Delimit Scope Z_scope with coqZ.
Delimit Scope N_scope with num.

(** * The words *)
Lemma ds_words_unique c s W : dsc_ok c -> dsfmt_ok c s -> dsfmt_words s W -> forall k, W k = ds_W c s k.
Proof.
move=> Hc Hs [E1 [U [U0 UR]]]. have [Ec _ _ _ _] := Hs. rewrite /= Ec in E1 UR.
have s2 := dc_size Hc. have Pl := ds_pos_lt Hc.
have K n : (forall k, k < n + e_size c -> W k = ds_W c s k) /\ U n = ds_U c s n.
  elim: n => [|n [IH1 IH2]].
    split=> [k Hk|]; last by rewrite U0.
    rewrite E1; last lia. by have := ds_it_win Hc 0 Hs Hk; rewrite add0n => <-.
  have [R1 R2] := UR n. rewrite -/(ds_pos c) in R1.
  have UN : U n.+1 = ds_U c s n.+1.
    rewrite ds_U_rec // -IH2 -!IH1; [|lia|lia]. by move: R1; rewrite Nat.add_1_r.
  split=> // k Hk. case: (ltnP k (n + e_size c)) => Hk2; first exact: IH1.
  have -> : k = n + e_size c by lia. rewrite R2 ds_W_rec // IH1; last lia. by rewrite Nat.add_1_r UN.
move=> k. have [+ _] := K k. apply. lia.
Qed.
Lemma ds_words_exist c s : dsc_ok c -> dsfmt_ok c s -> exists W, dsfmt_words s W.
Proof.
move=> Hc Hs. exists (ds_W c s). have [Ec _ _ _ _] := Hs. rewrite /dsfmt_words /= Ec. have s2 := dc_size Hc. split.
- move=> k Hk. have Hk' : k < e_size c by lia. by have := ds_it_win Hc 0 Hs Hk'; rewrite add0n => <-.
- exists (ds_U c s). split=> // k. rewrite Nat.add_1_r -/(ds_pos c). split; [exact: ds_U_rec|exact: ds_W_rec].
Qed.

(** * The modes *)
Definition ds_cfg (sm wm : Z) (c : dsc) : dsc := DSC (e_par c) (e_size c) sm wm (e_prefix c) (e_fixed c) (e_fixedSL1 c).
Notation ds_mode sm wm s := (ds_setWeight wm (ds_setStart sm s)).
Lemma ds_cfg_ok sm wm c : dsc_ok c -> dsc_ok (ds_cfg sm wm c).
Proof. by case=> *; split. Qed.
Lemma ds_mode_ok sm wm c s : dsfmt_ok c s -> dsfmt_ok (ds_cfg sm wm c) (ds_mode sm wm s).
Proof. case: s => [[c' r] [l q]] [/= -> H1 H2 H3 H4]. by split. Qed.
Lemma ds_words_mode sm wm s W : dsfmt_words s W -> dsfmt_words (ds_mode sm wm s) W.
Proof. by case: s => [[c r] [l q]]. Qed.

(** * The sequence is periodic and recurrent *)
Lemma ds_W_periodic c s : dsc_ok c -> dsfmt_ok c s -> exists N, 0 < N /\ forall k, ds_W c s (k + N) = ds_W c s k.
Proof.
move=> Hc Hs. pose c2 := ds_cfg 0%coqZ 2%coqZ c. pose s2 := ds_mode 0%coqZ 2%coqZ s.
have Hc2 : dsc_ok c2 := ds_cfg_ok _ _ Hc. have Hs2 : dsfmt_ok c2 s2 := ds_mode_ok _ _ Hs.
have [W HW] := ds_words_exist Hc Hs. have UW := ds_words_unique Hc Hs HW. have UW2 := ds_words_unique Hc2 Hs2 (ds_words_mode _ _ HW).
have UA : dsfmt_A c2 \in unitmx by apply: dsfmt_unit.
pose f (x : 'rV['F_2]_(dn c2)) := (x *m dsfmt_A c2)%R.
have If : injective f by move=> x y E; rewrite -[x](mulmxK UA) -[y](mulmxK UA) -!/(f _) E.
pose x0 := dsfmt_vec c2 s2. exists (fingraph.order f x0). split; first exact: order_gt0.
have P k : iter (k + fingraph.order f x0) f x0 = iter k f x0 by rewrite iterD iter_order.
have V k : dsfmt_vec c2 (ds_it c2 s2 k) = iter k f x0.
  by rewrite ds_it_vec.
move=> k. rewrite -!UW !UW2. have := P k. rewrite -!V => /(dsfmt_state Hc2 (ds_it_ok Hc2 _ Hs2) (ds_it_ok Hc2 _ Hs2)) [E _ _].
rewrite /ds_W. apply: E. have := dc_size Hc2. clear; lia.
Qed.
Lemma ds_words_recurrent c s W : dsc_ok c -> dsfmt_ok c s -> dsfmt_words s W -> recurrent W (e_size c * 104 + 128).
Proof.
move=> Hc Hs HW. have s2 := dc_size Hc.
pose c4 := ds_cfg 0%coqZ 2%coqZ c. pose s4 := ds_mode 0%coqZ 2%coqZ s.
have Hc4 : dsc_ok c4 := ds_cfg_ok _ _ Hc. have Hs4 : dsfmt_ok c4 s4 := ds_mode_ok _ _ Hs.
have UW := ds_words_unique Hc4 Hs4 (ds_words_mode _ _ HW).
have En : e_size c * 104 + 128 = dn c4 by rewrite /dn /dm /= addn0.
pose A := dsfmt_A c4.
pose x k : 'rV['F_2]_(dn c4) := dsfmt_vec c4 (ds_it c4 s4 k).
have XA k j : x (k + j) = st A j (x k).
  by rewrite /x !ds_it_vec // /st addnC iterD.
have XB i : exists y : 'cV['F_2]_(dn c4), forall k, f2 (N.testbit (W k) i) = ((x k *m y) 0 0)%R.
  pose f (a : nat -> N) := a 0.
  have Vf : vfun (e_size c4).+2 ds_small f by split=> [a b _ _|a b E] //; rewrite /f; apply: E; lia.
  exists (vl_col (dn c4) (ds_view c4) (ds_mk c4) f (N.to_nat i)) => k'.
  have := vl_colE (ds_vg Hc4) (N.to_nat i) Vf (ds_it_ok Hc4 k' Hs4). rewrite /obit => ->.
  rewrite UW /f view_arr; last by have := dc_size Hc4; clear; lia. by rewrite N2Nat.id.
pose a j : bool := ((char_poly A)`_j != 0)%R.
rewrite En. exists a => k i. have [y Y] := XB i.
apply: f2_inj. rewrite Y f2_xsum XA (cayley A (x k)) mulmx_suml summxE. apply: eq_bigr => j _. rewrite -scalemxAl mxE -XA -Y.
by rewrite /f2 -/(a j); case: (a j); case: N.testbit; rewrite ?mulr1 ?mulr0 ?mul0r.
Qed.

(** * The moved words *)
Notation W12 W := (fun k => up12 (W k)).
Lemma seqbit12 W q b : b < 52 -> seqbit false 64 2 (W12 W) q b = seqbit52 W q b.
Proof.
move=> Hb. rewrite /seqbit /seqbit52. have M : Nat.modulo q 2 < 2 by apply/ltP; exact: Nat.mod_upper_bound.
have -> : Nat.add (Nat.mul 64 (Nat.modulo q 2)) (Nat.sub (Nat.sub 64 1) b) = 64 * Nat.modulo q 2 + (63 - b) by lia.
rewrite up12_bit //; last lia. have -> : 12 <= 63 - b by lia. rewrite andTb. congr N.testbit. lia.
Qed.
Lemma equid12 W phi v k : v <= 52 -> equid false 64 2 (W12 W) phi v k <-> equid52 W phi v k.
Proof.
move=> Hv. split=> E y; have [K [a H]] := E y; exists K, a => i b Hi Hb; rewrite -(H i b Hi Hb);
  apply: xsum_ext => j _; congr andb; rewrite seqbit12 //; lia.
Qed.
Lemma recurrent12 W d : recurrent W d -> recurrent (W12 W) d.
Proof.
move=> [a H]. exists a => k i. case: (N.ltb_spec i 128) => Hi.
- have -> : i = N.of_nat (64 * Nat.div (N.to_nat i) 64 + Nat.modulo (N.to_nat i) 64) by lia.
  have H1 : Nat.div (N.to_nat i) 64 < 2 by lia. have H2 : Nat.modulo (N.to_nat i) 64 < 64 by lia.
  move: (Nat.div _ _) (Nat.modulo _ _) H1 H2 => h b H1 H2.
  rewrite (up12_bit _ H1 H2) H. case E: (12 <= b).
  + rewrite andTb. apply: xsum_ext => j _. congr andb. by rewrite (up12_bit _ H1 H2) E.
  + rewrite andFb (@xsum_ext _ _ (fun=> false)) ?xsum_0 // => j _. by rewrite (up12_bit _ H1 H2) E andbF.
- have Z q : N.testbit (up12 (W q)) i = false by apply: (bits_above 128); [exact: up12_lt|].
  rewrite Z (@xsum_ext _ _ (fun=> false)) ?xsum_0 // => j _. by rewrite Z andbF.
Qed.
Lemma run12 j s : run (G12 ds_ops) j s = run ds_ops j s.
Proof. by rewrite /run; apply: eq_iter => t. Qed.
Definition D12 (n : nat) (D : nat -> 'cV['F_2]_n) (i : nat) : 'cV['F_2]_n := if 12 <= Nat.modulo i 64 then D (i - 12) else 0%R.
Lemma linout12 (n : nat) (ok : dsfmt -> Prop) (abs : dsfmt -> 'rV['F_2]_n) (D : nat -> 'cV['F_2]_n) :
  linear_out ds_ops ok abs D -> linear_out (G12 ds_ops) ok abs (D12 D).
Proof.
move=> LO s i Hs. cbn [g_width G12 ds_ops g_generate fst] => Hi.
have Ei : i = 64 * Nat.div i 64 + Nat.modulo i 64 by lia.
have H1 : Nat.div i 64 < 2 by lia. have H2 : Nat.modulo i 64 < 64 by lia. rewrite /D12 {1}Ei (up12_bit _ H1 H2) -Ei.
case: (12 <= _); last by rewrite mulmx0 mxE. rewrite andTb. apply: LO => //. cbn [g_width ds_ops]. lia.
Qed.
Lemma lin12 c : dsc_ok c -> linear_gen (G12 ds_ops) (dsfmt_ok c) (dsfmt_vec c) (dsfmt_A c) (dsfmt_C c).
Proof. by move=> Hc; have [*] := dsfmt_lin Hc; split. Qed.

(** * The space of the outputs after one call *)
Lemma ds_rank c s : dsc_ok c -> dsfmt_ok c s ->
  \rank (krylov (dsfmt_A c) (dsfmt_vec c (g_generate ds_ops s).2)) <= e_size c * 104 + 128.
Proof.
move=> Hc Hs. rewrite (lin_generate_abs (dsfmt_lin Hc) Hs). set A := dsfmt_A c. set x := dsfmt_vec c s.
have E i : (st A i (x *m A) = st A i x *m A)%R by elim: i => //= i ->.
have -> : (krylov A (x *m A) = krylov A x *m A)%R by apply/row_matrixP => i; rewrite row_mul !rowK E.
have s2 := dc_size Hc.
have D0 (i : 'I_(dn c)) : e_size c * 104 + 128 <= i -> row i A = 0%R.
  move=> Hi. rewrite rowE. set y := delta_mx _ _. have [t Ht Et] := vl_sur (ds_vg Hc) y. rewrite -Et -(vl_gen_vec (ds_vg Hc) Ht).
  have Z k : k <= e_size c -> ds_view c t k = 0%num.
    move=> Hk. apply: N.bits_inj => b. rewrite N.bits_0. case B: (N.testbit _ b) => //. exfalso.
    have Hk' : k < (e_size c).+2 by lia. have [j Hj Ej] := ds_cov Ht Hk' B.
    have := congr1 (fun v : 'rV_(dn c) => v ord0 (Ordinal Hj)) Et. rewrite /vl_vec /vec_of !mxE /vl_bits /= Ej /= B.
    have -> : (Ordinal Hj == i) = false.
      apply/eqP => /(congr1 val) /= E2. move: Ej. rewrite /ds_posn E2. have -> : i < e_size c * 104 = false by lia.
      have -> : i < e_size c * 104 + 128 = false by lia. by case=> E3 _; lia.
    by move/(@f2_inj true false).
  apply/(vl_vec_zero (ds_vg Hc)); first exact: (lin_generate_ok (dsfmt_lin Hc) Ht).
  move=> k Hk. rewrite (ds_gen2 Hc Ht) (ds_nexts_view Hc Ht Hk).
  have ZL : vL c (ds_view c t) = 0%num by rewrite /vL !Z //; have := ds_pos_lt Hc; lia.
  have ZN : vN c (ds_view c t) = 0%num by rewrite /vN ZL Z.
  have ZR : vR c (ds_view c t) = 0%num by rewrite /vR ZN Z; [case: (e_start c)|lia].
  rewrite /vF ZL ZN ZR. case: ifP => K; first by rewrite Z //; lia. do 2 (case: ifP => //). by case: (wt2 _).
apply: (leq_trans (mxrankM_maxr _ _)).
have LD : e_size c * 104 + 128 <= dn c by rewrite /dn leq_addr.
have : (A <= \matrix_(i < e_size c * 104 + 128) row (widen_ord LD i) A)%MS%R.
  apply/row_subP => i. case: (leqP (e_size c * 104 + 128) i) => Hi; first by rewrite D0 // sub0mx.
  set M := (\matrix_(_ < _) _)%R. have -> : row i A = row (Ordinal Hi) M; last exact: row_sub.
  rewrite [RHS]rowK. by have -> : widen_ord LD (Ordinal Hi) = i by exact: val_inj.
move/mxrankS => H. exact: (leq_trans H (rank_leq_row _)).
Qed.

(** * One mode *)
Section Calc.
Variables (c : dsc) (s : dsfmt) (W : nat -> N) (pos : N -> res Z) (fuel mexp bit_len : nat).
Hypothesis Hc : dsc_ok c.
Hypothesis Hs : dsfmt_ok c s.
Hypothesis HW : dsfmt_words s W.
Hypothesis Hr : recurrent W mexp.
Hypothesis Hp : pos_spec 128 pos.
Hypothesis Hf : (e_size c * 416 + 618) * 129 <= fuel.
Hypothesis Hl : bit_len <= 52.
Notation size := (e_size c).
Notation equid := (equid false 64 2 (W12 W)).
Notation G := (G12 ds_ops).
Notation st_of sm wm := (weight12 ds_setWeight wm (start12 ds_setStart sm s)).

Lemma ds_out_bit sm wm ph wl t l b : ds_phase sm = ph -> ds_words2 wm = wl -> l < 2 -> b < 64 ->
  N.testbit (g_generate G (PeriodProofs4.run G t.+1 (ds_mode sm wm s))).1 (N.of_nat (64 * l + b)) =
  N.testbit (W12 W (Nat.div (blockno 2 size ph wl t l) 2)) (N.of_nat (64 * Nat.modulo (blockno 2 size ph wl t l) 2 + b)).
Proof.
move=> Eph Ewl Hl2 Hb. have Hc' := ds_cfg_ok sm wm Hc. have Hs' := ds_mode_ok sm wm Hs. have HW' := ds_words_mode sm wm HW.
have s2 := dc_size Hc. rewrite run12. cbn [g_generate G12 fst].
have := ds_blocks Hc' Hs' (or_intror (ltn0Sn t)) Hl2. cbn [e_size e_start e_weight ds_cfg]. rewrite Eph Ewl.
have -> : 2 * (t.+1 + size - 1) + ph + l - (if l < wl then 0 else 2) = blockno 2 size ph wl t l.
  rewrite /blockno. have -> : t.+1 + size - 1 = t + size by lia. by [].
set B := blockno _ _ _ _ _ _. rewrite /ds_Y => E.
have M : Nat.modulo B 2 < 2 by apply/ltP; exact: Nat.mod_upper_bound.
rewrite (up12_bit _ Hl2 Hb) (up12_bit _ M Hb) (ds_words_unique Hc' Hs' HW'). case E12: (12 <= b) => //. rewrite !andTb.
have HB x h k : h < 2 -> k < 64 -> N.testbit x (N.of_nat (64 * h + k)) = N.testbit (half h x) (N.of_nat k).
  move=> Hh Hk. case: h Hh => [|[|//]] _; cbn [half].
  - rewrite lo64_bit. have -> : (N.of_nat k <? 64)%num by move: Hk; clear; lia. by rewrite andTb.
  - rewrite hi64_bit. congr N.testbit. clear; lia.
have -> : 64 * l + b - 12 = 64 * l + (b - 12) by move: E12; clear; lia. have -> : 64 * Nat.modulo B 2 + b - 12 = 64 * Nat.modulo B 2 + (b - 12) by move: E12; clear; lia.
have Hb' : b - 12 < 64 by move: Hb; clear; lia.
by rewrite (HB _ _ _ Hl2 Hb') (HB _ _ _ M Hb') E.
Qed.

Lemma ds_mode_dim sm wm ph wl v : wm_good i64 2 sm wm ph wl -> 1 <= v <= bit_len ->
  exists b e, [/\ se_new G i64 false (g_generate G (st_of sm wm)).2 v = Ret b,
    se_get_equidist G pos i64 false fuel (Z.of_nat (g_bitSize G s)) v b = Ret (Z.of_nat e),
    equid (2 * size + ph + wl - 2) v (2 * e) & forall e', equid (2 * size + ph + wl - 2) v (2 * e') -> e' <= e].
Proof.
move=> [Hm Ez] Hv. have [F1 F2] := md_facts' Hm. have Hi : good_info i64 64 2 by right.
case: Hm => -[//_ [Eph Ewl]]. move: Ez. rewrite /wz. cbn [si_bitMode Z.eqb Pos.eqb] => Ez.
have Hv' : 1 <= v <= 64 by move: Hv Hl; clear; lia.
rewrite /weight12 /start12 Ez.
have Esm : ds_phase (Z.quot sm 2) = ph.
  have : sm = 0%coqZ /\ ph = 2 \/ sm = 2%coqZ /\ ph = 1.
    move: Eph. clear. rewrite /sm_phase. case: sm => [|[[q|q|]|[q|q|]|]|q] E; try (by exfalso; move: E; clear; lia).
    - left. split=> //. move: E; clear; lia.
    - right. split=> //. move: E; clear; lia.
  by case=> -[-> ->].
have Ewm : ds_words2 (Z.of_nat wl) = wl by move: F1; clear; case: wl => [|[|[|?]]].
set sm' := Z.quot sm 2 in Esm *. set wm' := Z.of_nat wl in Ewm *.
have Hc' := ds_cfg_ok sm' wm' Hc. have Hs' := ds_mode_ok sm' wm' Hs.
have s2 := dc_size Hc. set c' := ds_cfg sm' wm' c in Hc' Hs'. set t := ds_mode sm' wm' s in Hs' *.
have Lg := lin12 Hc'. have LO := linout12 (vl_linout (ds_vg Hc')). have Hwk := lin_generate_ok Lg Hs'.
have Hlt u : dsfmt_ok c' u -> ((g_generate G u).1 < 2 ^ 128)%num by move=> _; exact: up12_lt.
have Hnb u : dsfmt_ok c' u -> g_bitSize G u = size * 104 + 128 by case=> [E _ _ _ _]; cbn [g_bitSize G12 ds_ops]; rewrite E.
have Dn : dn c' <= size * 104 + 128 + 52 by rewrite /dn /dm; case: (wt2 _); rewrite /=; clear; lia.
have Hn : dn c' <= 2 * (size * 104 + 128) + 1 by move: Dn s2; clear; lia.
have Hk : \rank (krylov (dsfmt_A c') (dsfmt_vec c' (g_generate G t).2)) <= size * 104 + 128 by exact: (ds_rank Hc' Hs').
have Hfu : (2 * dn c' + 2 * (size * 104 + 128) + 2) * 129 <= fuel.
  apply: leq_trans Hf. rewrite leq_mul2r. apply/orP. right. move: Dn; clear; lia.
have [b [e [E1 E2 [D1 D2]]]] := simd_dim (G := G) Lg LO (erefl _) Hlt false Hi Hv' Hwk Hnb Hn Hp Hk Hfu.
have OB u l b0 := @ds_out_bit sm' wm' ph wl u l b0 Esm Ewm.
have ME e0 := mode_equid_abs (W := W12 W) (s := t) false Lg LO (erefl _) Hi Hs' F1 F2 s2 OB Hv' e0.
exists b, e. split=> //.
- have -> : g_bitSize G s = size * 104 + 128 by have [E _ _ _ _] := Hs; cbn [g_bitSize G12 ds_ops]; rewrite E.
  exact: E2.
- exact/ME.
- by move=> e' /ME /D2.
Qed.

Lemma ds_calc_ok veq : (Z.of_nat mexp < 2 ^ 31)%coqZ -> bit_len <= length veq ->
  exists veq' sum, [/\ calc_DSFMT ds_ops pos i52 ds_setStart ds_setWeight fuel (Z.of_nat mexp) s bit_len veq = Ret (veq', sum),
    sum = defect_sum mexp bit_len veq', length veq' = length veq, forall u, bit_len <= u -> at0 veq' u = at0 veq u &
    forall v, 1 <= v <= bit_len -> exists r : nat, [/\ at0 veq' (v - 1) = Z.of_nat r,
      forall phi, equid52 W phi v r, exists phi, equid52 W phi v (2 * ((r + 1) %/ 2)) & forall k, (forall phi, equid52 W phi v k) -> 2 * (k %/ 2) <= r]].
Proof.
move=> Hmx Hv. have Hi : good_info i64 64 2 by right. have s2 := dc_size Hc.
have P : exists N, 0 < N /\ forall k, W12 W (k + N) = W12 W k.
  have [N [N0 E]] := ds_W_periodic Hc Hs. exists N. split=> // k. by rewrite !(ds_words_unique Hc Hs HW) E.
have [veq' [sum [E1 E2 E3 E4 E5]]] := @calc_abs _ G (start12 ds_setStart) (weight12 ds_setWeight) i64 64 2 false size s (W12 W) pos fuel mexp bit_len Hi s2 (recurrent12 Hr) ds_mode_dim Hmx veq P Hv.
exists veq', sum. split=> //; first by rewrite calc12 //; exact: E1.
move=> v Hv2. have v52 : v <= 52 by move: Hv2 Hl; clear; lia. have [r [R1 R2 [phi R3] R4]] := E5 v Hv2. exists r. split=> //.
- by move=> phi'; apply/equid12.
- exists phi. exact/equid12.
- move=> k Hk. apply: R4 => phi'. exact/equid12.
Qed.
End Calc.
