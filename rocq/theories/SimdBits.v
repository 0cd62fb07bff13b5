(** The vectors which calc_SIMD_equidistribution measures for an sfmt object in
    the start mode sm and the weight mode wm, as windows of the one sequence of
    short words. *)
From Coq Require Import NArith ZArith Lia Bool List.
From mathcomp Require Import all_ssreflect all_algebra.
From mathcomp Require Import zify.
From Verif Require Import Base WordLemmas WordVec UtilModel GenModel LinSpec LinLemmas LinInst LinOut PeriodSpec PeriodProofs4
  ArrayModel ArrayWin ArrayLin DelayLin W128Model W128Spec W128Proofs W128Cert SfmtModel SfmtLin SfmtProofs SimdModel SimdPack SimdSpec SimdSeq SimdEqui.
Set Implicit Arguments.
Unset Strict Implicit.
Unset Printing Implicit Defensive.
Import GRing.Theory.
Local Open Scope nat_scope.
Delimit Scope Z_scope with coqZ.
Delimit Scope N_scope with num.

(** * The words are determined *)
Lemma words_unique c s W : sfc_ok c -> sfmt_ok c s -> sfmt_words s W -> forall k, W k = sf_W c s k.
Proof.
move=> Hc Hs [E1 E2]. have Ec : s.1.1 = c by have [[]] := Hs. rewrite /= Ec in E1 E2.
have s2 := sc_size Hc. have Pl := sf_pos_lt Hc.
elim/ltn_ind => k IH. case: (ltnP k (c_size c)) => Hk.
  rewrite E1; last lia. by rewrite sf_W_win.
have -> : k = Nat.add (k - c_size c) (c_size c) by lia.
rewrite E2 (sf_W_rec Hc) //. rewrite !IH //; rewrite -?/(sf_pos c); lia.
Qed.
(** Mode changes keep the words. *)
Lemma words_mode sm wm s W : sfmt_words s W -> sfmt_words (sf_setWeight wm (sf_setStart sm s)) W.
Proof. by case: s => [[c r] q]. Qed.
Definition sf_cfg (sm wm : Z) (c : sfc) : sfc := SFC (c_par c) (c_size c) sm wm (c_rev c).
Lemma cfg_ok sm wm c : sfc_ok c -> sfc_ok (sf_cfg sm wm c).
Proof. by case=> *; split. Qed.
Lemma mode_ok sm wm c s : sfmt_ok c s -> sfmt_ok (sf_cfg sm wm c) (sf_setWeight wm (sf_setStart sm s)).
Proof. case: s => [[c' r] q] [[/= -> H] _]. split; [by split|exact: pow2_pos]. Qed.

(** * The sequence is periodic *)
Lemma words_periodic c s W : sfc_ok c -> 3 <= c_size c -> 0 < sf_pos c -> sfmt_ok c s -> sfmt_words s W ->
  exists N, 0 < N /\ forall k, W (k + N) = W k.
Proof.
move=> Hc s3 p0 Hs HW.
pose c4 := sf_cfg 0%coqZ 4%coqZ c. pose s4 := sf_setWeight 4%coqZ (sf_setStart 0%coqZ s).
have Hc4 : sfc_ok c4 := cfg_ok _ _ Hc. have Hs4 : sfmt_ok c4 s4 := mode_ok _ _ Hs.
have UW := words_unique Hc4 Hs4 (words_mode _ _ HW).
have UA : sfmt_A c4 \in unitmx by apply: sfmt_unit.
pose f (x : 'rV['F_2]_(c_size c4 * 128 + wm_bits (c_weight c4))) := (x *m sfmt_A c4)%R.
have If : injective f by move=> x y E; rewrite -[x](mulmxK UA) -[y](mulmxK UA) -!/(f _) E.
pose x0 := sfmt_vec c4 s4. exists (fingraph.order f x0). split; first exact: order_gt0.
have P k : iter (k + fingraph.order f x0) f x0 = iter k f x0 by rewrite iterD iter_order.
have V k : sfmt_vec c4 (iter k (dl_next (c_size c4) (sF c4) (sR c4)) s4) = iter k f x0.
  elim: k => [//|k IH]. rewrite !iterS -IH. have [Hk _] := iter_next Hc4 k Hs4. exact: (dl_gen_vec (sfmt_dg Hc4) Hk).
move=> k. rewrite !UW. have := P k. rewrite -!V. have [H1 E1] := iter_next Hc4 (k + fingraph.order f x0) Hs4. have [H2 E2] := iter_next Hc4 k Hs4.
move/(sfmt_state Hc4 H1 H2) => [E _]. have := E 0. rewrite /sf_win E1 E2 /sf_W /ar_win /win. rewrite Nat.add_0_r addn0. apply. by rewrite /=; lia.
Qed.

(** * The space of the outputs after one call has at most the dimension size * 128 *)
Lemma delay_rank (P : Type) (th : P) (w size m n : nat) F R T G :
  delay_gen th w size m n F R T G -> forall s, dl_ok th w size s ->
  \rank (krylov (@dl_A P th w size m n G) (@dl_vec P w size m n (dl_next size F R s))) <= n.
Proof.
move=> H s Hs. rewrite (dl_gen_vec H) //. set A := dl_A _ _ _ _ _ _. set x := dl_vec _ _ _ _ _.
have E i : (st A i (x *m A) = st A i x *m A)%R by elim: i => //= i ->.
have -> : (krylov A (x *m A) = krylov A x *m A)%R by apply/row_matrixP => i; rewrite row_mul !rowK E.
have D0 : (dsubmx A = 0)%R.
  apply/row_matrixP => i. rewrite row0. 
  rewrite row_dsubmx rowE.
  set y := delta_mx _ _. have [t Ht Et] := dl_sur H y. rewrite -Et -(dl_gen_vec H) //.
  have [w0 s0 Hm En _ _ _ _ _ _ _ _] := H.
  have Z : agree size 0 (ar_win size t.1) (fun=> 0%num).
    apply/(ag_vec_zero (base_ag H) Ht.1)/vec_zero => j Hj.
    have Hj' : j < n + m by lia. have := congr1 (fun v : 'rV_(n + m) => v ord0 (Ordinal Hj')) Et. rewrite !mxE /dl_bits /= Hj.
    have -> : (Ordinal Hj' == rshift n i) = false by apply/eqP => /(congr1 val) /=; lia.
    exact: (@f2_inj _ false).
  have Z0 : forall k, k < size -> ar_win size t.1 k = 0%num.
    by have [A1 A2] := Z; case=> [|k] Hk; [move: A1; rewrite !N.shiftr_0_r|exact: A2].
  apply/(dl_vec_zero H (dl_next_ok H Ht)); split=> [k Hk|l _]; cbn [dl_next fst snd].
  - have La := ag_lin (base_ag H). have := lin_generate_abs La Ht.1. have /(ag_vec_zero (base_ag H) Ht.1) -> := Z. rewrite mul0mx.
    move/(ag_vec_zero (base_ag H) (ag_step_ok (base_ag H) Ht.1)) => [A1 A2]. case: k Hk => [|k] Hk; last exact: A2.
    by move: A1; rewrite !N.shiftr_0_r.
  - by rewrite (wf_z (dg_R H) Ht Z) N.bits_0.
apply: (leq_trans (mxrankM_maxr _ _)). rewrite -[A]vsubmxK D0.
have -> : (col_mx (usubmx A) 0 = col_mx 1%:M 0 *m usubmx A :> 'M_(n + m, n + m))%R by rewrite mul_col_mx mul1mx mul0mx.
exact: (leq_trans (mxrankM_maxr _ _) (rank_leq_row _)).
Qed.

(** * What is measured: windows of the sequence of short words *)
Section ModeAbs.
Variables (S : Type) (G : gen_ops S) (n : nat) (ok : S -> Prop) (abs : S -> 'rV['F_2]_n) (A : 'M['F_2]_n) (C D : nat -> 'cV['F_2]_n).
Variables (info : simd_info) (ew L : nat) (lsb : bool) (size : nat) (s : S) (W : nat -> N) (ph wl : nat).
Hypothesis Lg : linear_gen G ok abs A C.
Hypothesis LO : linear_out G ok abs D.
Hypothesis Gw : g_width G = 128%num.
Hypothesis Hi : good_info info ew L.
Hypothesis Hs : ok s.
Hypothesis F1 : 1 <= wl <= L.
Hypothesis F2 : 1 <= ph <= L.
Hypothesis s2 : 2 <= size.
Definition blockno (t l : nat) : nat := L * (t + size) + ph + l - (if l < wl then 0 else L).
Hypothesis out_bit : forall t l b, l < L -> b < ew ->
  N.testbit (g_generate G (PeriodProofs4.run G t.+1 s)).1 (N.of_nat (ew * l + b)) =
  N.testbit (W (Nat.div (blockno t l) L)) (N.of_nat (ew * Nat.modulo (blockno t l) L + b)).
Variable v : nat.
Hypothesis Hv : 1 <= v <= ew.
Notation work := (g_generate G s).2.
Notation phi := (L * size + ph + wl - L).
Lemma mode_equid_abs e : equidistributed A (Cv D ew L lsb v) (abs work) (v * L) e <-> equid lsb ew L W phi v (L * e).
Proof.
have L1 : 1 <= L by lia.
pose Q t j := blockno t (Nat.div j v).
pose B t j := (j < L * v) && seqbit lsb ew L W (Q t j) (Nat.modulo j v).
have HB t j : f2 (B t j) = obit (Cv D ew L lsb v) (st A t (abs work)) j.
  rewrite /B /obit /Cv. case: ifP => Hj; last by rewrite mulmx0 mxE.
  rewrite -(run_abs Lg); last exact: (lin_generate_ok Lg). rewrite -runSr /seqbit.
  have Hs' := run_ok Lg t.+1 Hs. have Hj1 : Nat.div j v < L by have := Nat.div_lt_upper_bound j v L; lia.
  have Hj2 : Nat.modulo j v < v by have := Nat.mod_upper_bound j v; lia.
  have E := LO Hs'. rewrite -E; last first.
    rewrite /bit_pos. rewrite Gw. have : ew * Nat.div j v + ew <= 128 by case: Hi => -[_ [-> EL]]; rewrite EL in Hj1; lia.
    move: Hj2 Hv; clear; case: lsb; lia.
  rewrite /f2 /bit_pos. congr ((nat_of_bool _)%:R)%R. rewrite andTb.
  rewrite out_bit //. move: Hj2 Hv; clear; case: lsb; lia.
rewrite (equid_vec HB).
have EQ t l i : l < L -> blockno (t + i) l = phi + (L * t + (if l < wl then l + L - wl else l - wl)) + L * i.
  move=> Hl. rewrite /blockno !mulnDr. case: ifP => Hlw; nia.
split=> E y.
- have [K [a H]] := E (fun t j => y (L * t + (if Nat.div j v < wl then Nat.div j v + L - wl else Nat.div j v - wl)) (Nat.modulo j v)).
  exists K, a => i b Hi1 Hb1.
  pose t := Nat.div i L. pose r := Nat.modulo i L. pose l := if wl + r < L then wl + r else wl + r - L. pose j := l * v + b.
  have Er : i = L * t + r by rewrite /t /r; have := Nat.div_mod i L; lia.
  have Hr : r < L by have := Nat.mod_upper_bound i L; rewrite /r; lia.
  have Ht : t < e by have := Nat.div_lt_upper_bound i L e; rewrite /t; lia.
  have Hl : l < L by rewrite /l; case: ifP; lia.
  have Jl : Nat.div j v = l by rewrite /j; symmetry; apply: (Nat.div_unique _ _ _ b); lia.
  have Jb : Nat.modulo j v = b by rewrite /j; symmetry; apply: (Nat.mod_unique _ _ l b); lia.
  have Hj : j < v * L by rewrite /j; nia.
  have El : (if l < wl then l + L - wl else l - wl) = r by rewrite /l; case: (ltnP (wl + r) L) => ?; case: ifP; lia.
  have := H t j Ht Hj. rewrite Jl Jb El -Er => <-. apply: xsum_ext => i' _. congr (_ && _).
  rewrite /B /Q Jl Jb EQ // El. have -> : j < L * v by lia. rewrite andTb. congr seqbit. lia.
- have [K [a H]] := E (fun i b => y (Nat.div i L) ((if wl + Nat.modulo i L < L then wl + Nat.modulo i L else wl + Nat.modulo i L - L) * v + b)).
  exists K, a => t j Ht Hj.
  have Hj1 : Nat.div j v < L by have := Nat.div_lt_upper_bound j v L; lia.
  have Hj2 : Nat.modulo j v < v by have := Nat.mod_upper_bound j v; lia.
  set l := Nat.div j v in Hj1. set b := Nat.modulo j v in Hj2. pose r := if l < wl then l + L - wl else l - wl. pose i := L * t + r.
  have Hr : r < L by rewrite /r; case: ifP; lia.
  have I1 : Nat.div i L = t by rewrite /i; symmetry; apply: (Nat.div_unique _ _ _ r); lia.
  have I2 : Nat.modulo i L = r by rewrite /i; symmetry; apply: (Nat.mod_unique _ _ t r); lia.
  have Hi1 : i < L * e by rewrite /i; nia.
  have Er : (if wl + r < L then wl + r else wl + r - L) = l by rewrite /r; case: (ltnP l wl) => ?; case: ifP; lia.
  have Ej : l * v + b = j by rewrite /l /b; have := Nat.div_mod j v; lia.
  have Hi1' : (i < L * e)%coq_nat by lia. have Hj2' : (b < v)%coq_nat by lia.
  have := H i b Hi1' Hj2'. rewrite I1 I2 Er Ej => <-. apply: xsum_ext => i' _. congr (_ && _).
  rewrite /B /Q -/l EQ //. have -> : j < L * v by lia. rewrite andTb. congr seqbit; rewrite /i /r; lia.
Qed.
End ModeAbs.

(** * The bits of an output *)
(** inc 32-bit words are one short word; the modes which calc_SIMD uses. *)
Definition md_ok (L : nat) (sm wm : Z) (ph wl : nat) : Prop :=
  (L = 4 /\ ph = sm_phase sm /\ wl = wm_words wm) \/ (L = 2 /\ 2 * ph = sm_phase sm /\ 2 * wl = wm_words wm).
Section Modes.
Variables (info : simd_info) (ew L : nat) (lsb : bool) (c : sfc) (s : sfmt) (W : nat -> N) (ph wl : nat).
Hypothesis Hi : good_info info ew L.
Hypothesis Hc : sfc_ok c.
Hypothesis Hs : sfmt_ok c s.
Hypothesis HW : sfmt_words s W.
Hypothesis Hm : md_ok L (c_start c) (c_weight c) ph wl.
Notation size := (c_size c).

Lemma md_facts : 1 <= wl <= L /\ 1 <= ph <= L.
Proof.
have A : 1 <= sm_phase (c_start c) <= 4 by rewrite /sm_phase; case: (c_start c) => [|[[?|?|]|[?|?|]|]|?].
have B : 1 <= wm_words (c_weight c) <= 4 by rewrite /wm_words; case: (c_weight c) => [|[[[?|?|]|[?|?|]|]|[[?|?|]|[[?|?|]|[?|?|]|]|]|]|?].
case: Hm => -[E0 [E1 E2]]; move: A B E0; rewrite -E1 -E2; clear; lia.
Qed.
Notation blockno := (blockno L size ph wl).
Lemma out_bit t l b : l < L -> b < ew ->
  N.testbit (g_generate sf_ops (PeriodProofs4.run sf_ops t.+1 s)).1 (N.of_nat (ew * l + b)) =
  N.testbit (W (Nat.div (blockno t l) L)) (N.of_nat (ew * Nat.modulo (blockno t l) L + b)).
Proof.
move=> Hl Hb. have s2 := sc_size Hc. have [F1 F2] := md_facts.
have D : exists k i, [/\ k < 4, i < 32, ew * l + b = 32 * k + i,
    Nat.modulo (Nat.add (Nat.add (Nat.mul 4 (t + size)) (sm_phase (c_start c))) k - (if k < wm_words (c_weight c) then 0 else 4)) 4 * 32 + i =
      ew * Nat.modulo (blockno t l) L + b &
    Nat.div (Nat.add (Nat.add (Nat.mul 4 (t + size)) (sm_phase (c_start c))) k - (if k < wm_words (c_weight c) then 0 else 4)) 4 = Nat.div (blockno t l) L].
  rewrite /blockno. case: Hi => -[_ [Ee EL]]; rewrite Ee in Hb *; rewrite EL in Hl F1 F2 *; case: Hm => -[E0 [E1 E2]]; try (move: E0 EL; clear; lia).
  - exists l, b. rewrite -E1 -E2. move: Hl Hb F1 F2; clear; split; try (case: ifP => _); lia.
  - exists (2 * l + Nat.div b 32), (Nat.modulo b 32). rewrite -E1 -E2.
    have -> : (2 * l + Nat.div b 32 < 2 * wl) = (l < wl) by lia.
    have Q1 : Nat.div b 32 < 2 by lia. have Q2 : b = 32 * Nat.div b 32 + Nat.modulo b 32 by lia. have Q3 : Nat.modulo b 32 < 32 by lia.
    move: (Nat.div b 32) (Nat.modulo b 32) Q1 Q2 Q3 => q r Q1 Q2 Q3.
    have X2 x : Nat.modulo (2 * x + q) 4 = 2 * Nat.modulo x 2 + q by lia. have X3 x : Nat.div (2 * x + q) 4 = Nat.div x 2 by lia.
    set X := (_ * (t + size) + ph + l - _).
    have -> : (Nat.add (Nat.add (Nat.mul 4 (t + size)) (2 * ph)) (2 * l + q)%N - (if l < wl then 0 else 4)) = 2 * X + q.
      by rewrite /X; move: Hl F1 F2 s2; clear; case: (l < wl); lia.
    rewrite X2 X3. split=> //; move: Hl Q1 Q2 Q3; clear; lia.
have [k [i [Hk Hi2 E1 E2 E3]]] := D.
have := sf_blocks Hc Hs (or_intror (ltn0Sn t)) Hk.
have LO : ((g_generate sf_ops (PeriodProofs4.run sf_ops t.+1 s)).1 < 2 ^ 128)%num.
  have Hs' := run_ok (sfmt_lin Hc) t.+1 Hs. rewrite (dg_step (sfmt_dg Hc)) //. exact: (dl_out_lt (sfmt_dg Hc) Hs').
have [WO VO] := w_of_ok LO. move/(congr1 (fun x => N.testbit x (N.of_nat i))).
rewrite w32_bit //; last lia. have -> : (N.of_nat i <? 32)%num by lia. rewrite VO.
have -> : (32 * N.of_nat k + N.of_nat i)%num = N.of_nat (ew * l + b) by rewrite E1; lia.
move=> ->. rewrite /sf_Y.
have -> : (4 * (t.+1 + size - 1) + sm_phase (c_start c) + k - (if k < wm_words (c_weight c) then 0 else 4)) =
  (Nat.add (Nat.add (Nat.mul 4 (t + size)) (sm_phase (c_start c))) k - (if k < wm_words (c_weight c) then 0 else 4)) by lia.
rewrite E3. have LW := @sf_W_lt _ Hc s (Nat.div (blockno t l) L) Hs. have [W1 V1] := w_of_ok LW.
rewrite w32_bit //; last lia. have -> : (N.of_nat i <? 32)%num by lia. rewrite V1 (words_unique Hc Hs HW). congr N.testbit. rewrite -E2. lia.
Qed.

(** What is measured. *)
Variable v : nat.
Hypothesis Hv : 1 <= v <= ew.
Notation D := (@dl_D sfc c 128 size (wm_bits (c_weight c)) (size * 128) (sR c)).
Notation work := (g_generate sf_ops s).2.
Notation phi := (L * size + ph + wl - L).
Lemma mode_equid e : equidistributed (sfmt_A c) (Cv D ew L lsb v) (sfmt_vec c work) (v * L) e <-> equid lsb ew L W phi v (L * e).
Proof.
have [F1 F2] := md_facts.
exact: (mode_equid_abs lsb (sfmt_lin Hc) (sfmt_linout Hc) (erefl _) Hi Hs F1 F2 (sc_size Hc) out_bit Hv).
Qed.
End Modes.
