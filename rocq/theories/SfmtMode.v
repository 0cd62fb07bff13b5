(** Class sfmt in any start mode and weight mode as a mode_gen: the array is the
    state, the word kept from the call before is beside it. *)
From Coq Require Import NArith ZArith List Bool Lia.
From mathcomp Require Import all_ssreflect all_algebra.
From mathcomp Require Import zify.
From Verif Require Import Base WordLemmas WordVec UtilModel GenModel PolyF2 LinSpec LinLemmas LinInst LinOut PeriodModel PeriodSpec PolyAct
  PeriodProofs4 ArrayModel ArrayWin ArrayLin ArrayOut DelayLin W128Model W128Spec W128Proofs ParityModel ParitySpec
  SfmtModel SfmtLin SfmtProofs SfmtParity SearchLin AnniModel AnniProofs ModeAnni.
Set Implicit Arguments.
Unset Strict Implicit.
Unset Printing Implicit Defensive.
Import GRing.Theory.
Local Open Scope ring_scope.
Delimit Scope Z_scope with coqZ.

Section SfmtMode.
Variable c : sfc.
Hypothesis Hc : sfc_ok c.
Hypothesis s3 : (3 <= c_size c)%N.
Hypothesis p0 : (0 < sf_pos c)%N.
Notation size := (c_size c).
Notation n := (c_size c * 128)%N.
Notation m := (wm_bits (c_weight c)).
Notation sm := (N.to_nat (sm_bits (c_start c))).
Let dg := sfmt_dg Hc.
Let ag := base_ag dg.
Notation bops := (@base_ops sfc 128 size n (sF c) (sR c)).

Definition sm_vec (s : sfmt) : 'rV['F_2]_n := @ar_vec sfc 128 size 0 n s.1.
Definition sm_A : 'M['F_2]_n := ar_A c 128 size 0 n bops.
(** Bit b of word k, of the newest word. *)
Definition sm_word (k b : nat) : 'cV['F_2]_n := \col_(i < n) ((i == (k * 128 + b)%N :> nat) : bool)%:R.
Definition sm_new (b : nat) : 'cV['F_2]_n := sm_word (size - 1) b.
(** Bit p of the word made by the start mode. *)
Definition sm_R (p : nat) : 'cV['F_2]_n :=
  if (p + sm < 128)%N then sm_new (p + sm) else sm_A *m sm_new (p + sm - 128).
Definition sm_pb (s : sfmt) (p : nat) : 'F_2 := (N.testbit s.2 (N.of_nat p))%:R.
Definition sm_lo (p : nat) : bool := (p + m < 128)%N.
Definition sm_e (i : nat) : 'rV['F_2]_n := \row_j (j == sf_idx c i :> nat)%:R.
Definition sm_Q (j : nat) : 'cV['F_2]_n := sm_new (127 - j).

Lemma sm_wordE s k b : (k < size)%N -> (b < 128)%N -> (sm_vec s *m sm_word k b) 0 0 = (N.testbit (sf_win c s k) (N.of_nat b))%:R.
Proof.
move=> Hk Hb. have Hi : (k * 128 + b < n)%N by move: Hk Hb; clear; lia.
rewrite mxE (bigD1 (Ordinal Hi)) //= !mxE eqxx mulr1 big1 ?addr0.
  rewrite /f2; congr ((nat_of_bool _)%:R); rewrite /ar_bits addn0.
  have [-> ->] : Nat.div (k * 128 + b) 128 = k /\ Nat.modulo (k * 128 + b) 128 = b.
    by split; [symmetry; apply: (Nat.div_unique _ _ _ b)|symmetry; apply: (Nat.mod_unique _ _ k)]; move: Hb; clear; lia.
  by [].
move=> i Hi'. rewrite [sm_word k b _ _]mxE (_ : (_ == _ :> nat) = false) ?mulr0 //. by apply/negbTE; apply: contra Hi' => /eqP E; apply/eqP/val_inj.
Qed.
Lemma sm_newE s b : (b < 128)%N -> (sm_vec s *m sm_new b) 0 0 = (N.testbit (sf_win c s (size - 1)) (N.of_nat b))%:R.
Proof. by apply: sm_wordE; lia. Qed.
Lemma sm_stepE s : sfmt_ok c s -> g_generate sf_ops s = (dl_out 128 size m (sR c) s, dl_next size (sF c) (sR c) s).
Proof. exact: (dg_step dg). Qed.
Lemma sm_vec_next s : sfmt_ok c s -> sm_vec (dl_next size (sF c) (sR c) s) = sm_vec s *m sm_A.
Proof. by move=> Hs; exact: (lin_generate_abs (ag_lin ag) Hs.1). Qed.
Lemma sm_next_new s : sfmt_ok c s -> sf_win c (dl_next size (sF c) (sR c) s) (size - 1) = sF c (sf_win c s).
Proof.
move=> Hs. have s2 := sc_size Hc. have := ag_step_win ag Hs.1 (k := size - 1).
rewrite (_ : (size - 1 < size)%N = true); last by lia. move=> /(_ isT) E.
by apply: (etrans E); rewrite eqxx.
Qed.
Lemma sm_RE s p : sfmt_ok c s -> (p < 128)%N -> (sm_vec s *m sm_R p) 0 0 = (N.testbit (sR c (sf_win c s)) (N.of_nat p))%:R.
Proof.
move=> Hs Hp. have s2 := sc_size Hc. have small := dl_small Hs.
have L1 : (sf_win c s (size - 1) < 2 ^ 128)%num by apply: small; lia.
have L2 : (sF c (sf_win c s) < 2 ^ 128)%num by apply: (wf_lt (dg_F dg)).
have SB : (sm_bits (c_start c) <= 128)%num by rewrite /sm_bits; case: (c_start c) => [|[[?|?|]|[?|?|]|]|?].
rewrite /sR startw_bit // /sm_R. move: SB; set b := sm_bits _ => SB.
case: (ltnP (p + N.to_nat b) 128) => L.
- have -> : (N.of_nat p <? 128 - b)%num by lia.
  rewrite sm_newE //. by rewrite (_ : N.of_nat (p + N.to_nat b)%N = (N.of_nat p + b)%num) //; lia.
- have -> : (N.of_nat p <? 128 - b)%num = false by lia. have -> : (N.of_nat p <? 128)%num by lia.
  rewrite mulmxA -sm_vec_next // sm_newE; last by lia. rewrite sm_next_new //.
  by rewrite (_ : N.of_nat (p + N.to_nat b - 128)%N = (N.of_nat p - (128 - b))%num) //; lia.
Qed.

(** * The instance *)
Lemma sm_unit : sm_A \in unitmx.
Proof.
have s1 : (1 < size)%N by lia. apply/(ag_unit ag s1) => a Ha E1 Ek.
rewrite N.shiftr_0_r in E1.
have K k : (0 < k < size)%N -> a k = 0%num by move=> Hk; case: (eqVneq k 1%N) => [->//|k1]; apply: Ek; lia.
have Pl := sf_pos_lt Hc.
rewrite /sF (K (sf_pos c)) ?(K (size - 2)%N) ?(K (size - 1)%N); [|lia|lia|lia]. rewrite /frec.
have Z1 k : sh32r k 0 = 0%num by have := sh32r_add k 0 0; rewrite !N.lxor_nilpotent.
have Z2 k : sh32l k 0 = 0%num by have := sh32l_add k 0 0; rewrite !N.lxor_nilpotent.
rewrite Z1 Z2 N.land_0_l /wshr N.shiftr_0_l !N.lxor_0_r => /shl_inj0 E.
have a0 : a 0%N = 0%num by apply: E; [have := so_sl2 (sc_par Hc); lia|apply: (Ha 0%N); lia].
by split=> [|k Hk]; [rewrite a0|exact: K].
Qed.
Lemma wm_le : (m <= 96)%N.
Proof. by rewrite /wm_bits; case: (c_weight c) => [|[[[?|?|]|[?|?|]|]|[[?|?|]|[[?|?|]|[?|?|]|]|]|]|?]. Qed.
Lemma f2_xor (a b : bool) : (xorb a b)%:R = a%:R + b%:R :> 'F_2.
Proof. by case: a; case: b => //=; apply/eqP. Qed.
Lemma sm_full : row_full (\matrix_(i < n) sm_e i).
Proof.
rewrite -sub1mx. apply/row_subP => j. have Hj := ltn_ord j. have s2 := sc_size Hc.
pose i := (Nat.add (Nat.mul (Nat.modulo (0 + 1 + Nat.div j 128) size) 128) (Nat.modulo j 128)).
have Hi : (i < n)%N.
  rewrite /i. have := Nat.mod_upper_bound (0 + 1 + Nat.div j 128) size. have := Nat.mod_upper_bound j 128. lia.
have E := sf_idx_bit Hc Hi Hj. rewrite eqxx in E.
rewrite (_ : row j 1%:M = row (Ordinal Hi) (\matrix_(i < n) sm_e i)); first exact: row_sub.
apply/rowP => k. rewrite !mxE. congr ((nat_of_bool _)%:R). cbn [nat_of_ord].
have /eqP <- : nat_of_ord j == sf_idx c i by rewrite -E. exact: eq_sym.
Qed.
Theorem sm_mode : mode_gen sf_ops sf_par_ops (sfmt_ok c) sm_vec sm_A sm_R sm_pb sm_lo sm_e sm_Q.
Proof.
have s2 := sc_size Hc. split.
- by [].
- by move=> s Hs; rewrite sm_stepE //; exact: (dl_next_ok dg).
- by move=> s Hs; rewrite sm_stepE //; exact: sm_vec_next.
- move=> s p Hs Hp. rewrite sm_stepE // [in LHS]/= /dl_out mixw_bit sm_RE // /sm_lo /sm_pb. have Hm := wm_le.
  by case: ltnP => L; [have -> : (N.of_nat p <? N.of_nat (128 - m))%num by lia|have -> : (N.of_nat p <? N.of_nat (128 - m))%num = false by lia].
- by move=> s p Hs Hp; rewrite sm_stepE // sm_RE.
- by move=> s t Hs Ht; rewrite (dg_add dg) //; exact: (dl_addS_ok dg).
- by move=> s t Hs Ht; rewrite (dg_add dg) //; exact: (lin_add_abs (ag_lin ag) Hs.1 Ht.1).
- by move=> s t p Hs Ht Hp; rewrite (dg_add dg) // /sm_pb /= N.lxor_spec f2_xor.
- by move=> s Hs; have [] := dg_zero dg Hs.
- move=> s Hs. have [H1 [H2 _]] := dg_zero dg Hs. apply/(ag_vec_zero ag H1.1).
  by split=> [|k /andP[_ Hk]]; rewrite H2 //; lia.
- by move=> s p Hs Hp; have [_ [_ E]] := dg_zero dg Hs; rewrite /sm_pb E N.bits_0.
- by have := wm_le; rewrite /sm_lo; lia.
- by move=> [[c' s] q] [[E _] _]; rewrite /= in E *; rewrite E.
- move=> s i Hs Hi. have [g' [E H V]] := sf_setOneBit_vec Hc Hs Hi. exists g'; split=> //; split=> //.
  apply/rowP => j. have := congr1 (fun x : 'rV_(n + m) => x 0 (lshift m j)) V.
  by rewrite !mxE /dl_bits /= ltn_ord => ->.
- exact: sm_full.
- move=> s Hs. have -> : p_getParityValue sf_par_ops s = sf_win c s (size - 1) by exact: (sf_win_last Hc s3 p0 Hs). by apply: (dl_small Hs); lia.
- move=> s j Hs Hj. have -> : p_getParityValue sf_par_ops s = sf_win c s (size - 1) by exact: (sf_win_last Hc s3 p0 Hs).
  rewrite /obit sm_newE; last by lia.
  by rewrite /msb (_ : N.of_nat (127 - j) = (128 - 1 - N.of_nat j)%num) //; lia.
- exact: sm_unit.
Qed.

(** * The words of the sequence *)
Notation cs := (cseq sm_A).
Lemma sm_iter s i : sfmt_ok c s -> sm_vec (iter i (dl_next size (sF c) (sR c)) s) = st sm_A i (sm_vec s).
Proof.
move=> Hs; elim: i => [//|i IH]. have [H _] := iter_next Hc i Hs.
by rewrite iterS sm_vec_next // IH /st iterS.
Qed.
Lemma sm_bitW s k b i : sfmt_ok c s -> (k < size)%N -> (b < 128)%N ->
  cs (sm_vec s) (sm_word k b) i = (N.testbit (sf_W c s (i + k)) (N.of_nat b))%:R.
Proof.
move=> Hs Hk Hb. rewrite /cseq -sm_iter // sm_wordE //.
have [_ E] := iter_next Hc i Hs. rewrite -(sf_win_W Hc) // -E. by [].
Qed.
Lemma sm_sur x : exists2 s, sfmt_ok c s & sm_vec s = x.
Proof.
have z0 : (0 < size)%N by move: s3; clear; lia. have nE : n = (size * 128 - 0)%N by rewrite subn0.
exists (unvec (@ar_mk sfc c 128 size 0) x, 0%num); last first.
  apply: unvecK => f i Hi. exact: (@ar_bits_mk sfc c 128 size 0 n bops).
split; last exact: pow2_pos. by apply: unvec_ok => f; exact: (@ar_mk_ok sfc c 128 size 0 n bops).
Qed.
Lemma sm_shift x k b i : (k < size)%N -> (b < 128)%N -> cs x (sm_word k b) i = cs x (sm_word 0 b) (i + k).
Proof.
move=> Hk Hb; have [s Hs <-] := sm_sur x. have z0 : (0 < size)%N by move: Hk; clear; lia.
by rewrite !sm_bitW // addn0.
Qed.
Lemma sm_word_min x k b mu : (k < size)%N -> (b < 128)%N ->
  is_minpoly (cs x (sm_word k b)) mu <-> is_minpoly (cs x (sm_word 0 b)) mu.
Proof.
move=> Hk Hb; rewrite -(cs_min sm_unit x (sm_word 0 b) k mu).
have E i : cs x (sm_word k b) i = cs (st sm_A k x) (sm_word 0 b) i by rewrite sm_shift // /cseq -st_add addnC.
by split; apply: cs_ext => i; rewrite E.
Qed.
(** The polynomials of the bits of the output. *)
Definition sm_pos (p : nat) : nat := ((p + sm) %% 128)%N.
Lemma sm_R_min x p mu : (p < 128)%N -> is_minpoly (cs x (sm_R p)) mu <-> is_minpoly (cs x (sm_word 0 (sm_pos p))) mu.
Proof.
move=> Hp. have SB : (sm <= 128)%N by rewrite /sm_bits; case: (c_start c) => [|[[?|?|]|[?|?|]|]|?].
have z1 : (size - 1 < size)%N by move: s3; clear; lia.
rewrite -(@sm_word_min _ (size - 1)) //; last by rewrite /sm_pos ltn_pmod.
rewrite /sm_R /sm_pos; case: ltnP => L; first by rewrite modn_small.
rewrite (_ : (p + sm) %% 128 = p + sm - 128)%N; first exact: (cs_minA sm_unit).
move: Hp SB L; set q := sm; move=> Hp SB L. rewrite -{1}(subnK L) modnDr modn_small //.
by move: Hp SB; clear; lia.
Qed.
Notation mD' := (mD sm_A sm_R sm_lo).
Lemma sm_mD_min x p mu : (p < 128)%N -> is_minpoly (cs x (mD' p)) mu <-> is_minpoly (cs x (sm_word 0 (sm_pos p))) mu.
Proof.
move=> Hp; rewrite -sm_R_min // /mD; case: (sm_lo p) => //.
by rewrite -(cs_minA sm_unit x (invmx sm_A *m sm_R p) mu) mulmxA mulmxV ?mul1mx //; exact: sm_unit.
Qed.
Lemma cs_zero x (C : 'cV['F_2]_n) : (forall i, cs x C i = 0) <-> is_minpoly (cs x C) 1.
Proof.
split=> [Z|[_ g1 _] i]; last by have := g1 i; rewrite size_poly1 big_ord1 coef1 mul1r addn0.
split; [exact: oner_neq0| |by move=> h _; exact: dvd1p].
by move=> i; rewrite big1 // => j _; rewrite Z mulr0.
Qed.
Lemma sm_obs : out_observable sm_A mD'.
Proof.
move=> x Z. have Z0 b : (b < 128)%N -> forall i, cs x (sm_word 0 b) i = 0.
  move=> Hb; apply/cs_zero. have SB : (sm <= 128)%N by rewrite /sm_bits; case: (c_start c) => [|[[?|?|]|[?|?|]|]|?].
  pose p := ((b + (128 - sm)) %% 128)%N. have Hp : (p < 128)%N by rewrite ltn_pmod.
  have -> : b = sm_pos p by rewrite /sm_pos /p modnDml -addnA subnK // modnDr modn_small.
  by apply/sm_mD_min => //; apply/cs_zero => i; exact: Z.
apply/rowP => i; rewrite mxE. have Hi := ltn_ord i.
have Hk : (Nat.div i 128 < size)%N by have := Nat.div_lt_upper_bound i 128 size; move: Hi; clear; lia.
have Hb : (Nat.modulo i 128 < 128)%N by have := Nat.mod_upper_bound i 128; clear; lia.
rewrite -(Z0 _ Hb (0 + Nat.div i 128)%N) -sm_shift // /cseq /st /= mxE (bigD1 i) //= mxE.
have Ei : nat_of_ord i = (Nat.div i 128 * 128 + Nat.modulo i 128)%N by have := Nat.div_mod i 128; clear; lia.
rewrite -Ei eqxx mulr1 big1 ?addr0 // => j Hj. rewrite mxE -Ei (_ : (_ == _ :> nat) = false) ?mulr0 //. 
by apply/negbTE; apply: contra Hj => /eqP E; apply/eqP/val_inj.
Qed.
End SfmtMode.
