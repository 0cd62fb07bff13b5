(** Constructor and public functions of AlgorithmEquidistribution. *)
From Coq Require Import NArith ZArith Lia.
From mathcomp Require Import all_ssreflect all_algebra.
From mathcomp Require Import zify.
From Verif Require Import Base GenModel LinSpec LinLemmas EquiModel EquiLattice EquiProofs EquiProofs2 EquiProofs3.
Set Implicit Arguments.
Unset Strict Implicit.
Unset Printing Implicit Defensive.
Import GRing.Theory.
Local Open Scope ring_scope.
Delimit Scope Z_scope with coqZ.

Lemma idiv_pos (a v : nat) : (1 <= v)%N -> idiv (Z.of_nat a) (Z.of_nat v) = Ret (Z.of_nat (a %/ v)%N).
Proof.
move=> Hv1. rewrite /idiv; case: Z.eqb_spec => Hv0; first lia.
rewrite Z.quot_div_nonneg; [|lia|lia]. congr Ret. symmetry.
apply: (Z.div_unique_pos _ _ _ (Z.of_nat (a %% v)%N)).
  have := ltn_pmod a Hv1. lia.
have := divn_eq a v. lia.
Qed.

Section Pub.
Variables (S : Type) (G : gen_ops S) (n : nat) (ok : S -> Prop).
Variables (abs : S -> 'rV['F_2]_n) (A : 'M['F_2]_n) (C : nat -> 'cV['F_2]_n).
Hypothesis LG : linear_gen G ok abs A C.
Variable nb : nat.
Hypothesis Hnb : forall s, ok s -> g_bitSize G s = nb.
Hypothesis Hn : (n <= 2 * nb + 1)%N.
Variable pos : N -> res Z.
Hypothesis Hpos : pos_spec (g_width G) pos.
Variable s0 : S.
Hypothesis Hs0 : ok s0.
Notation w := (g_width G).
Notation lvec := (lvec S).
Notation seqf := (seqf G abs A C).
Notation goodv := (goodv G ok).
Notation x0 := (abs s0).
Notation inv := (inv G ok abs A C nb x0).
Notation dflt := (lv_gen s0).
Notation at_ bs := (fun i => List.nth i bs dflt).

Lemma unit_msb i j : (N.of_nat i < w)%num -> (N.of_nat j < w)%num ->
  msb w (wshl w 1 (w - N.of_nat i - 1)) j = if j == i then 1 else 0.
Proof.
move=> Hi Hj. rewrite /msb /wshl /trunc N.mod_pow2_bits_low; last lia.
case: eqP => [->|Hne].
  have -> : (w - 1 - N.of_nat i = w - N.of_nat i - 1)%num by lia.
  by rewrite N.shiftl_spec_high' ?N.sub_diag //; lia.
case: (N.lt_ge_cases (w - 1 - N.of_nat j) (w - N.of_nat i - 1)) => H.
  by rewrite N.shiftl_spec_low.
rewrite N.shiftl_spec_high' //. 
have -> : ((w - 1 - N.of_nat j) - (w - N.of_nat i - 1) = N.succ ((w - 1 - N.of_nat j) - (w - N.of_nat i - 1) - 1))%num by lia.
by rewrite -[1%num]/(2 * 0 + 1)%num N.testbit_odd_succ ?N.bits_0 //; lia.
Qed.

Section L.
Variable L : nat.
Hypothesis HL1 : (1 <= L)%N.
Hypothesis HLw : (N.of_nat L <= w)%num.

Lemma init_nth mexp i : (i <= L)%N -> List.nth i (ae_basis (ae_new G s0 L mexp)) dflt =
  if i == L then next_state G (Z.of_nat L) (lv_gen s0) else lv_unit G s0 (N.of_nat i).
Proof.
move=> Hi. rewrite /ae_new /=.
have Hlen : length (List.map (fun i => lv_unit G s0 (N.of_nat i)) (List.seq 0 L)) = L.
  by rewrite List.map_length List.seq_length.
case: eqP => [->|Hne].
  by rewrite List.app_nth2 Hlen ?Nat.sub_diag.
rewrite List.app_nth1 ?Hlen; last lia.
rewrite (List.nth_indep _ _ (lv_unit G s0 (N.of_nat 0))) ?Hlen; last lia.
rewrite (List.map_nth (fun i => lv_unit G s0 (N.of_nat i))) List.seq_nth //. lia.
Qed.
Lemma init_len mexp : length (ae_basis (ae_new G s0 L mexp)) = L.+1.
Proof. rewrite /ae_new /= List.app_length List.map_length List.seq_length /=. lia. Qed.

Lemma init_inv mexp : inv L (at_ (ae_basis (ae_new G s0 L mexp))).
Proof.
pose b i : lvec := if i == L then next_state G (Z.of_nat L) (lv_gen s0) else lv_unit G s0 (N.of_nat i).
suff I : inv L b by apply: (inv_ext _ I) => i Hi; rewrite init_nth.
have Gg : goodv L (lv_gen s0).
  split=> //=; by apply/N.neq_0_lt_0/N.pow_nonzero.
have [P1 P2 P3 P4 P5] := next_state_spec LG HL1 HLw Hnb Hn Gg (erefl _) (erefl _).
have bL : b L = next_state G (Z.of_nat L) (lv_gen s0) by rewrite /b eqxx.
have bi i : (i < L)%N -> b i = lv_unit G s0 (N.of_nat i) by rewrite /b; case: eqP => //; lia.
have Eu i z j : (i < L)%N -> (j < L)%N -> seqf (lv_unit G s0 (N.of_nat i)) z j = unit_sq i z j.
  move=> Hi Hj. rewrite /EquiProofs.seqf /unit_sq [lv_count _]/=.
  case: Z.ltb_spec => H1; first by case: Z.eqb_spec => //; lia.
  case: Z.eqb_spec => H2 /=; first by rewrite unit_msb //; lia.
  by rewrite (lin_zero_abs LG) // st0 obit0.
have Eg z j : seqf (lv_gen s0) z j = out_sq A C x0 z j.
  rewrite /EquiProofs.seqf /out_sq /=.
  case: Z.ltb_spec => H1; first by case: Z.ltb_spec => //; lia.
  case: Z.eqb_spec => H2; first by case: Z.ltb_spec => H3; [rewrite msb0|lia].
  case: Z.ltb_spec => H3; first lia. congr (obit _ (st _ _ _) _). lia.
split.
- move=> i Hi. rewrite /b. case: eqP => [_//|Hne]. split=> //=; first exact: (lin_zero_ok LG).
    rewrite /wshl /trunc. by apply/N.mod_lt/N.pow_nonzero.
  move=> j Hj Hjw. rewrite unit_msb //; last lia. case: eqP => //; lia.
- by move=> i Hi; rewrite bi.
- by move=> i Hi; rewrite bi //= unit_msb ?eqxx //; lia.
- move=> i j Hi Hij Hj; rewrite bi //= unit_msb; try lia. case: eqP => //; lia.
- by rewrite bL.
- rewrite bL => /P5 [Q1 Q2]; split=> // z j Hj. by rewrite P2 // Q2.
- move=> i Hi. rewrite /b. case: eqP => [_|Hne].
    exists x0; split; first exact: orb_self.
    move=> z j H1 Hj. rewrite P2 // Eg /out_sq. case: Z.ltb_spec => //; lia.
  exists 0; split; first exact: orb0.
  move=> z j H1 Hj. rewrite Eu //; last lia. rewrite st0 obit0 /unit_sq.
  by case: Z.eqb_spec => //; lia.
- move=> i Hi. apply: (@spnB _ _ (seqf (b i))); first by exists i; split=> //; lia.
  by move=> z j Hj; rewrite bi // Eu.
- apply: (@spnB _ _ (seqf (b L))); first by exists L.
  by move=> z j Hj; rewrite bL P2 // Eg.
- rewrite bL. rewrite [lv_count (lv_gen s0)]/= in P3. lia.
Qed.
End L.

Variable sbs : nat.
Hypothesis Hsbs : (\rank (krylov A x0) <= sbs)%N.
Variable fuel : nat.
Hypothesis Hfuel : fuel_enough G n nb fuel.

Lemma adjust_ok v (bs : list lvec) : (1 <= v)%N -> (N.of_nat v < w)%num -> (v.+1 < length bs)%N ->
  inv v.+1 (at_ bs) -> lv_zero (at_ bs v.+1) = true ->
  let bs' := adjust G (Z.of_nat v) bs in (v < length bs')%N /\ inv v (at_ bs').
Proof.
move=> Hv1 Hvw Hlen I Hz. split; first by rewrite /adjust List.map_length; lia.
apply: inv_ext (adjust_inv LG Hnb Hn Hv1 Hvw I Hz) => i Hi.
rewrite /adjust (List.nth_indep _ _ (adjust_vec G (Z.of_nat v) dflt)) ?List.map_length; last lia.
exact: List.map_nth.
Qed.

(** The result array: entry i holds the dimension for i+1 bits. *)
Definition veq_ok (v : nat) (veq : list Z) : Prop :=
  forall i, (i < v)%N -> exists k : nat, List.nth_error veq i = Some (Z.of_nat k) /\
    equidist_dim A C x0 i.+1 k /\ (k <= sbs %/ i.+1)%N.
Notation defect := (defect_sum sbs).
Lemma defect_ext v q1 q2 : (forall i, (i < v)%N -> List.nth_error q1 i = List.nth_error q2 i) ->
  defect v q1 = defect v q2.
Proof.
move=> H. rewrite /defect_sum. congr (List.fold_right _ _ _). apply: List.map_ext_in => i.
move/List.in_seq => Hi. have E := H i ltac:(lia). f_equal.
by rewrite -!(List.nth_default_eq) /List.nth_default E.
Qed.
Lemma fold_add_last (l : list Z) x : List.fold_right Z.add 0%coqZ (l ++ [:: x])%list = (List.fold_right Z.add 0%coqZ l + x)%coqZ.
Proof. elim: l => [|a l IH] /=; [lia | rewrite IH; lia]. Qed.
Lemma defectS v veq : defect v.+1 veq =
  (defect v veq + (Z.of_nat (sbs %/ v.+1)%N - List.nth v veq 0))%coqZ.
Proof. by rewrite /defect_sum -[v.+1]addn1 List.seq_app List.map_app /= fold_add_last addn1. Qed.

Lemma all_loop_ok v : forall (bs : list lvec) (veq : list Z) (sum : Z),
  (N.of_nat v < w)%num -> (v.+1 < length bs)%N -> (v <= length veq)%N ->
  inv v.+1 (at_ bs) -> lv_zero (at_ bs v.+1) = true ->
  exists bs' veq', [/\ all_loop G pos fuel (Z.of_nat sbs) v bs veq sum = Ret (bs', veq', (sum + defect v veq')%coqZ),
    veq_ok v veq', length veq' = length veq &
    forall i, (v <= i)%N -> List.nth_error veq' i = List.nth_error veq i].
Proof.
elim: v => [|v IH] bs veq sum Hvw Hlen Hveq I Hz.
  exists bs, veq; split=> //=. by rewrite /defect_sum /= Z.add_0_r.
have Hv1 : (1 <= v.+1)%N by [].
have [Hlen1 I1] := adjust_ok Hv1 Hvw Hlen I Hz.
have Hvw' : (N.of_nat v.+1 <= w)%num by lia.
have [k [bs2 [[E L2 I2 Z2] [D2 B2]]]] := main_ok LG Hnb Hn Hpos Hv1 Hvw' Hsbs Hfuel Hlen1 I1.
cbn [all_loop]. rewrite E bindE.
have -> : (Z.of_nat v.+1 - 1 = Z.of_nat v)%coqZ by lia.
rewrite seti_upd // bindE idiv_pos // bindE.
have [|||bs' [veq' [R1 R2 R3 R4]]] := IH bs2 (upd veq v (Z.of_nat k)) (sum + (Z.of_nat (sbs %/ v.+1)%N - Z.of_nat k))%coqZ _ _ _ I2 Z2.
- lia.
- rewrite L2. lia.
- rewrite upd_length. lia.
exists bs', veq'. 
have Ev : List.nth_error veq' v = Some (Z.of_nat k) by rewrite R4 // upd_nth_error // eqxx.
split.
- rewrite R1 defectS. congr (Ret (_, _, _)).
  have -> : List.nth v veq' 0%coqZ = Z.of_nat k by apply: List.nth_error_nth Ev.
  lia.
- move=> i; rewrite ltnS leq_eqVlt => /orP [/eqP ->|Hi]; last exact: R2.
  by exists k.
- by rewrite R3 upd_length.
- move=> i Hi. rewrite R4; last lia. rewrite upd_nth_error //. case: eqP => //; lia.
Qed.

Lemma sum_loop_ok v : forall (bs : list lvec) (sum : Z) veq,
  (N.of_nat v < w)%num -> (v.+1 < length bs)%N -> (v <= length veq)%N ->
  inv v.+1 (at_ bs) -> lv_zero (at_ bs v.+1) = true ->
  exists bs' veq', sum_loop G pos fuel (Z.of_nat sbs) v bs sum = Ret (bs', (sum + defect v veq')%coqZ) /\
    all_loop G pos fuel (Z.of_nat sbs) v bs veq sum = Ret (bs', veq', (sum + defect v veq')%coqZ).
Proof.
move=> bs sum veq Hvw Hlen Hveq I Hz.
have [bs' [veq' [E _ _ _]]] := all_loop_ok sum Hvw Hlen Hveq I Hz.
exists bs', veq'; split=> //.
move: E; move: (sum + defect v veq')%coqZ => r {I Hz Hlen Hvw Hveq}.
elim: v bs veq sum => [|v IH] bs veq sum /=; first by case=> -> _ ->.
case: (get_equidist_main _ _ _ _ _ _) => //= -[k b2].
case: (seti _ _ _) => //= q. exact: IH.
Qed.

Definition sbs_of (mexp : Z) := (if (mexp =? 0)%coqZ then Z.of_nat (g_bitSize G s0) else mexp).
Lemma all_equidist_ok L mexp (veq : list Z) : (1 <= L)%N -> (N.of_nat L <= w)%num -> (L <= length veq)%N ->
  sbs_of mexp = Z.of_nat sbs ->
  exists a' veq', [/\ get_all_equidist G pos fuel (ae_new G s0 L mexp) veq = Ret (a', veq', defect L veq'),
     veq_ok L veq', length veq' = length veq,
     forall i, (L <= i)%N -> List.nth_error veq' i = List.nth_error veq i & ae_bit_len a' = 0%coqZ] /\
  exists k : nat, equidist_dim A C x0 L k /\
     get_equidist G pos fuel (ae_new G s0 L mexp) = Ret (a', defect (L - 1) veq', Z.of_nat k) /\
     List.nth_error veq' (L - 1) = Some (Z.of_nat k).
Proof.
move=> HL1 HLw Hveq Hs.
have I := init_inv HL1 HLw mexp. have Hlen := init_len HL1 HLw mexp.
have Hlen' : (L < length (ae_basis (ae_new G s0 L mexp)))%N by rewrite Hlen.
have [k [bs2 [[E L2 I2 Z2] [D2 B2]]]] := main_ok LG Hnb Hn Hpos HL1 HLw Hsbs Hfuel Hlen' I.
rewrite /get_all_equidist /get_equidist.
rewrite [ae_bit_len (ae_new _ _ _ _)]/= [ae_stateBitSize (ae_new _ _ _ _)]/= -/(sbs_of mexp) Hs E !bindE.
case: L HL1 HLw Hveq I Hlen Hlen' E L2 I2 Z2 D2 B2 => // v HL1 HLw Hveq I Hlen Hlen' E L2 I2 Z2 D2 B2.
have -> : (Z.of_nat v.+1 - 1 = Z.of_nat v)%coqZ by lia.
rewrite seti_upd // bindE idiv_pos // bindE Nat2Z.id.
have Hbs2 : (v.+1 < length bs2)%N by rewrite L2.
have Hup : (v <= length (upd veq v (Z.of_nat k)))%N by rewrite upd_length; lia.
have Hvw : (N.of_nat v < w)%num by lia.
have [bs3 [veq' [E3 V3 N3 U3]]] := all_loop_ok (Z.of_nat (sbs %/ v.+1)%N - Z.of_nat k)%coqZ Hvw Hbs2 Hup I2 Z2.
have [bs4 [veq4 [S1 S2]]] := sum_loop_ok 0%coqZ Hvw Hbs2 Hup I2 Z2.
have [bs5 [veq5 [S3 V5 N5 U5]]] := all_loop_ok 0%coqZ Hvw Hbs2 Hup I2 Z2.
have Hsh : forall bs q s t, all_loop G pos fuel (Z.of_nat sbs) v bs q s = 
    do ' (b, q', r) <- all_loop G pos fuel (Z.of_nat sbs) v bs q t; Ret (b, q', (r - t + s)%coqZ).
  move=> {}bs2' q s t. clear. elim: v bs2' q s t => [|v IH] bs q s t /=.
    by congr (Ret (_, _, _)); lia.
  case: (get_equidist_main _ _ _ _ _ _) => //= -[k b2].
  case: (seti _ _ _) => //= q'.
  set t' := Z.quot _ _.
  rewrite (IH b2 q' (s + (t' - k))%coqZ (t + (t' - k))%coqZ).
  case: (all_loop _ _ _ _ _ _ _ _) => //= -[[b3 q3] r3]. congr (Ret (_, _, _)); lia.
have := Hsh bs2 (upd veq v (Z.of_nat k)) (Z.of_nat (sbs %/ v.+1)%N - Z.of_nat k)%coqZ 0%coqZ.
rewrite E3 S2 bindE => -[E4 E5 E6].
have Ev : List.nth_error veq' v = Some (Z.of_nat k) by rewrite U3 // upd_nth_error // eqxx.
have Env : List.nth v veq' 0%coqZ = Z.of_nat k by apply: List.nth_error_nth Ev.
rewrite S1 !bindE.
eexists _, veq'; split.
  split.
  - congr (Ret (_, _, _)). rewrite defectS Env. lia.
  - move=> i; rewrite ltnS leq_eqVlt => /orP [/eqP ->|Hi]; last exact: V3.
    by exists k.
  - by rewrite N3 upd_length.
  - move=> i Hi. rewrite U3; last lia. rewrite upd_nth_error //. case: eqP => //; lia.
  - by rewrite [ae_bit_len _]/=; lia.
exists k; split=> //. rewrite E4 -E5 Z.add_0_l subn1 /=. by split.
Qed.
End Pub.
