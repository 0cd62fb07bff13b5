(** The reduction loop, adjust, and the two public functions. *)
From Coq Require Import NArith ZArith Lia.
From mathcomp Require Import all_ssreflect all_algebra.
From mathcomp Require Import zify.
From Verif Require Import Base GenModel LinSpec LinLemmas EquiModel EquiLattice EquiProofs EquiProofs2.
Set Implicit Arguments.
Unset Strict Implicit.
Unset Printing Implicit Defensive.
Import GRing.Theory.
Local Open Scope ring_scope.
Delimit Scope Z_scope with coqZ.

Lemma bindE (T U : Type) (a : T) (f : T -> res U) : bind (Ret a) f = f a.
Proof. by []. Qed.

(** * Lists as arrays *)
Section Arr.
Variables (T : Type) (d : T).
Lemma geti_nth (l : list T) (i : nat) : (i < length l)%N -> geti l (Z.of_nat i) = Ret (List.nth i l d).
Proof.
move=> H. rewrite /geti. case: Z.ltb_spec => H1; first lia.
rewrite Nat2Z.id (List.nth_error_nth' l d) //. lia.
Qed.
Lemma upd_length (l : list T) i x : length (upd l i x) = length l.
Proof. by elim: l i => [|y l IH] [|i] //=; rewrite IH. Qed.
Lemma upd_nth (l : list T) i x j : (i < length l)%N ->
  List.nth j (upd l i x) d = if j == i then x else List.nth j l d.
Proof. by elim: l i j => [|y l IH] [|i] [|j] //= H; rewrite IH. Qed.
Lemma upd_nth_error (l : list T) i x j : (i < length l)%N ->
  List.nth_error (upd l i x) j = if j == i then Some x else List.nth_error l j.
Proof. by elim: l i j => [|y l IH] [|i] [|j] //= H; rewrite IH. Qed.
Lemma seti_upd (l : list T) (i : nat) x : (i < length l)%N ->
  seti l (Z.of_nat i) x = Ret (upd l i x).
Proof.
move=> H. rewrite /seti. case: Z.ltb_spec => H1; first lia.
case: Z.leb_spec => H2 /=; first lia. by rewrite Nat2Z.id.
Qed.
End Arr.

Section Main.
Variables (S : Type) (G : gen_ops S) (n : nat) (ok : S -> Prop).
Variables (abs : S -> 'rV['F_2]_n) (A : 'M['F_2]_n) (C : nat -> 'cV['F_2]_n).
Hypothesis LG : linear_gen G ok abs A C.
Variable nb : nat.
Hypothesis Hnb : forall s, ok s -> g_bitSize G s = nb.
Hypothesis Hn : (n <= 2 * nb + 1)%N.
Variable pos : N -> res Z.
Hypothesis Hpos : pos_spec (g_width G) pos.
Variable x0 : 'rV['F_2]_n.
Variable dflt : lvec S.
Notation w := (g_width G).
Notation lvec := (lvec S).
Notation seqf := (seqf G abs A C).
Notation goodv := (goodv G ok).
Notation inv := (inv G ok abs A C nb x0).
Notation at_ bs := (fun i => List.nth i bs dflt).

Lemma inv_ext v (b b' : nat -> lvec) : (forall i, (i <= v)%N -> b' i = b i) -> inv v b -> inv v b'.
Proof.
move=> E I.
have S1 f : spn v (Bs G abs A C v b) f -> spn v (Bs G abs A C v b') f.
  apply: spn_trans => g [i [Hi ->]]. apply: (@spnB _ _ (seqf (b i))) => //.
  by exists i; rewrite E.
split.
- by move=> i Hi; rewrite E //; exact: (i_good I).
- by move=> i Hi; rewrite E ?(ltnW Hi) //; exact: (i_nz I).
- by move=> i Hi; rewrite E ?(ltnW Hi) //; exact: (i_diag I).
- by move=> i j Hi; rewrite E ?(ltnW Hi) //; exact: (i_tri I).
- by rewrite E //; exact: (i_next I).
- by rewrite E //; exact: (i_zero I).
- by move=> i Hi; rewrite E //; exact: (i_mem I).
- by move=> i Hi; apply: S1; exact: (i_unit I).
- by apply: S1; exact: (i_out I).
- by rewrite E //; exact: (i_cnt I).
Qed.

Section V.
Variable v : nat.
Hypothesis Hv1 : (1 <= v)%N.
Hypothesis Hvw : (N.of_nat v <= w)%num.
Notation vz := (Z.of_nat v).

(** [pos] on the last vector. *)
Definition pivot_ok (b : lvec) (p : nat) : Prop :=
  [/\ (p < v)%N, msb w (lv_next b) p = 1 & forall j, (p < j)%N -> (j < v)%N -> msb w (lv_next b) j = 0].
Lemma pos_pivot b : goodv v b -> lv_next b <> 0%num ->
  exists p, pos (lv_next b) = Ret (Z.of_nat p) /\ pivot_ok b p.
Proof.
move=> [_ _ Hlt Hhi] Hne. have [_ H] := Hpos.
have [|p [Ep [Hpw [H1 H0]]]] := H (lv_next b); first lia.
exists p; split=> //. split=> //.
- rewrite ltnNge; apply/negP => Hge. have := Hhi p Hge Hpw. by rewrite H1.
- by move=> j Hj Hjv; apply: H0 => //; lia.
Qed.

Definition mu (b : nat -> lvec) : nat := ((2 * n + 2 * nb + 1 - \sum_(i < v.+1) cnt (b i)) * v.+1)%N.

Lemma reduce_ok fuel : forall (bs : list lvec) (pz : Z) (p : nat),
  (v < length bs)%N -> inv v (at_ bs) ->
  (lv_zero (at_ bs v) = false -> pz = Z.of_nat p /\ pivot_ok (at_ bs v) p) ->
  (mu (at_ bs) + (if lv_zero (at_ bs v) then 0 else p.+1) < fuel)%N ->
  exists bs', [/\ reduce G pos fuel vz bs pz = Ret bs', length bs' = length bs,
     inv v (at_ bs') & lv_zero (at_ bs' v) = true].
Proof.
elim: fuel => [|fuel IH] bs pz p Hlen I Hp Hfuel; first lia.
rewrite /= (geti_nth dflt) //=.
case Hz: (lv_zero (List.nth v bs dflt)); first by exists bs.
have [Epz Hpo] := Hp Hz. have [Hpv Hp1 Hp0] := Hpo. rewrite /= in Hp1 Hp0.
have Hplen : (p < length bs)%N by lia.
rewrite Epz (geti_nth dflt) //= seti_upd //=.
rewrite -/(bv1 v (at_ bs) p) -/(bp1 v (at_ bs) p) -/(bv2 G v (at_ bs) p).
have Hg2 : goodv v (bv2 G v (at_ bs) p) by apply: (bv2_good LG Hn Hv1 Hvw I).
have Hz2 : lv_zero (bv2 G v (at_ bs) p) = false by apply: (bv2_nz I).
have Hc1 : (lv_count (bv1 v (at_ bs) p) <= Z.of_nat n)%coqZ.
  by apply: (bv1_cnt Hn Hv1 Hvw I).
have Hlen' : (v < length (upd bs p (bp1 v (at_ bs) p)))%N by rewrite upd_length.
have Hnew X i : List.nth i (upd (upd bs p (bp1 v (at_ bs) p)) v X) dflt = bnew v (at_ bs) p X i.
  by rewrite upd_nth // upd_nth.
have [_ Hc1' _ _] : goodv v (bv1 v (at_ bs) p) by apply: (bv1_good Hn Hv1 Hvw I).
have [_ HcX2 _ _] := Hg2.
have Bnd := cnt_bound Hn I.
have CS X := @cnt_step S G n nb Hn v (at_ bs) Hv1 Hvw p Hpv Hz X.
case: N.eqb_spec => H0.
- have [P1 P2 P3 P4 P5] := next_state_spec LG Hv1 Hvw Hnb Hn Hg2 Hz2 H0.
  set X := next_state G vz (bv2 G v (at_ bs) p) in P1 P2 P3 P4 P5 *.
  have Ec : lv_count (bv2 G v (at_ bs) p) = lv_count (bv1 v (at_ bs) p) by [].
  rewrite Ec in P3.
  have IX : inv v (bnew v (at_ bs) p X).
    apply: (step_inv LG Hn Hv1 Hvw I Hpv Hz Hp1 Hp0) => //.
      by move=> /P5 [Q1 Q2]; split=> // z j Hj; rewrite P2 // Q2.
    lia.
  have IX' := inv_ext (fun i _ => Hnew X i) IX.
  rewrite seti_upd //=.
  have EX : List.nth v (upd (upd bs p (bp1 v (at_ bs) p)) v X) dflt = X by rewrite Hnew /bnew eqxx.
  have Hmu : (mu (at_ (upd (upd bs p (bp1 v (at_ bs) p)) v X)) + v.+1 <= mu (at_ bs))%N.
    rewrite /mu. rewrite (eq_bigr (fun i : 'I_v.+1 => cnt (bnew v (at_ bs) p X i))); last by move=> i _; rewrite Hnew.
    have := CS X. have := cnt_bound Hn IX. move: Bnd.
    move: (\sum_(i < v.+1) cnt (bnew v (at_ bs) p X i))%N => s1.
    move: (\sum_(i < v.+1) cnt (List.nth i bs dflt))%N => s2.
    have : (cnt (bv1 v (at_ bs) p) < cnt X)%N by rewrite /cnt; lia.
    move=> A1 A2 A3 A4.
    have -> : (2 * n + 2 * nb + 1 - s2 = (2 * n + 2 * nb + 1 - s1) + (s1 - s2))%N by lia.
    rewrite mulnDl leq_add2l leq_pmull //. lia.
  case HzX: (lv_zero X).
  + have [Q1 _] := P5 HzX. rewrite Q1. have [-> _] := Hpos => /=.
    have [|||bs' [R1 R2 R3 R4]] := IH (upd (upd bs p (bp1 v (at_ bs) p)) v X) (-1)%coqZ 0%N _ IX'.
    * by rewrite !upd_length.
    * by rewrite EX HzX.
    * rewrite EX HzX. lia.
    * by exists bs'; split=> //; rewrite R2 !upd_length.
  + have [q [Eq Hq]] := pos_pivot P1 (P4 HzX). rewrite Eq /=.
    have [|||bs' [R1 R2 R3 R4]] := IH (upd (upd bs p (bp1 v (at_ bs) p)) v X) (Z.of_nat q) q _ IX'.
    * by rewrite !upd_length.
    * by rewrite EX.
    * rewrite EX HzX. have [Hqv _ _] := Hq. rewrite Hz in Hfuel. lia.
    * by exists bs'; split=> //; rewrite R2 !upd_length.
- set X := bv2 G v (at_ bs) p in Hg2 Hz2 H0 HcX2 *.
  have IX : inv v (bnew v (at_ bs) p X).
    apply: (step_inv LG Hn Hv1 Hvw I Hpv Hz Hp1 Hp0) => //; first by rewrite Hz2.
    change (lv_count X) with (lv_count (bv1 v (at_ bs) p)). lia.
  have IX' := inv_ext (fun i _ => Hnew X i) IX.
  rewrite seti_upd //=.
  have EX : List.nth v (upd (upd bs p (bp1 v (at_ bs) p)) v X) dflt = X by rewrite Hnew /bnew eqxx.
  have [q [Eq Hq]] := pos_pivot Hg2 H0. rewrite Eq /=.
  have [Hqv Hq1 Hq0] := Hq.
  have Hqp : (q < p)%N.
    rewrite ltnNge leq_eqVlt; apply/negP => /orP [/eqP Eqp|Hlt].
      by move: Hq1; rewrite -Eqp /X (bv2_p I) // Hz.
    by move: Hq1; rewrite /X (bv2_j I).
  case: Z.leb_spec => H1; first lia. case: Z.leb_spec => H2; first lia.
  have Hmu : (mu (at_ (upd (upd bs p (bp1 v (at_ bs) p)) v X)) = mu (at_ bs))%N.
    rewrite /mu. rewrite (eq_bigr (fun i : 'I_v.+1 => cnt (bnew v (at_ bs) p X i))); last by move=> i _; rewrite Hnew.
    have := CS X. change (cnt X) with (cnt (bv1 v (at_ bs) p)). by move=> /addIn ->.
  have [|||bs' [R1 R2 R3 R4]] := IH (upd (upd bs p (bp1 v (at_ bs) p)) v X) (Z.of_nat q) q _ IX'.
  + by rewrite !upd_length.
  + by rewrite EX.
  + rewrite EX Hz2. rewrite Hz in Hfuel. lia.
  + by exists bs'; split=> //; rewrite R2 !upd_length.
Qed.

(** The minimum of the counts. *)
Lemma min_loop_ok (bs : list lvec) m : forall i acc, (i + m <= length bs)%N ->
  exists k, min_loop m (Z.of_nat i) bs acc = Ret k /\ (k <= acc)%coqZ /\
    (forall q, (i <= q < i + m)%N -> (k <= lv_count (at_ bs q))%coqZ) /\
    (k = acc \/ exists q, (i <= q < i + m)%N /\ k = lv_count (at_ bs q)).
Proof.
elim: m => [|m IH] i acc Hlen.
  exists acc; split=> //. split; first lia. split; [move=> q; lia | by left].
rewrite /= (geti_nth dflt) /=; last lia.
set acc' := (if _ then _ else _).
have [|k [E [H1 [H2 H3]]]] := IH i.+1 acc'; first lia.
have -> : (Z.of_nat i + 1 = Z.of_nat i.+1)%coqZ by lia.
exists k; split=> //.
have Ha : acc' = acc \/ acc' = lv_count (List.nth i bs dflt).
  by rewrite /acc'; case: ifP; [right|left].
have Hb : (acc' <= acc)%coqZ /\ (acc' <= lv_count (List.nth i bs dflt))%coqZ.
  by rewrite /acc' Z.gtb_ltb; case: Z.ltb_spec; lia.
split; first lia. split.
- move=> q Hq. case: (eqVneq q i) => [->|Hne]; first lia. apply: H2. lia.
- case: H3 => [->|[q [Hq ->]]].
    case: Ha => ->; [by left | right; exists i; split=> //; lia].
  right; exists q; split=> //; lia.
Qed.

Variable sbs : nat.
Hypothesis Hsbs : (\rank (krylov A x0) <= sbs)%N.

Definition fuel_enough (fuel : nat) : Prop :=
  ((2 * n + 2 * nb + 2) * (N.to_nat w).+1 <= fuel)%N.
Lemma main_ok fuel (bs : list lvec) : fuel_enough fuel -> (v < length bs)%N -> inv v (at_ bs) ->
  exists (k : nat) bs', [/\ get_equidist_main G pos fuel (Z.of_nat sbs) vz bs = Ret (Z.of_nat k, bs'),
     length bs' = length bs, inv v (at_ bs') & lv_zero (at_ bs' v) = true] /\
     equidist_dim A C x0 v k /\ (k <= sbs %/ v)%N.
Proof.
move=> Hfuel Hlen I. rewrite /get_equidist_main (geti_nth dflt) //=.
have [pz [Epz [p [Hp Hpp]]]] : exists pz, pos (lv_next (List.nth v bs dflt)) = Ret pz /\
   exists p, (lv_zero (at_ bs v) = false -> pz = Z.of_nat p /\ pivot_ok (at_ bs v) p) /\ (p < v)%N.
  case Hz: (lv_zero (List.nth v bs dflt)).
    have [E _] := i_zero I Hz. rewrite E. have [-> _] := Hpos. exists (-1)%coqZ; split=> //.
    by exists 0%N.
  have [q [Eq Hq]] := pos_pivot (i_good I (leqnn v)) (i_next I Hz).
  exists (Z.of_nat q); split=> //. exists q; split=> //. by have [] := Hq.
rewrite Epz /=.
have [|bs' [R1 R2 R3 R4]] := reduce_ok (fuel := fuel) Hlen I Hp.
  rewrite /fuel_enough in Hfuel.
  have : (mu (at_ bs) <= (2 * n + 2 * nb + 1) * v.+1)%N.
    by rewrite /mu leq_mul2r leq_subr orbT.
  have : ((2 * n + 2 * nb + 2) * v.+1 <= (2 * n + 2 * nb + 2) * (N.to_nat w).+1)%N.
    rewrite leq_mul2l. apply/orP; right. lia.
  have -> : ((2 * n + 2 * nb + 2) * v.+1 = (2 * n + 2 * nb + 1) * v.+1 + v.+1)%N.
    by rewrite -{3}[v.+1]mul1n -mulnDl -[in RHS]addnA.
  case: ifP => _; lia.
rewrite R1 bindE -[0%coqZ]/(Z.of_nat 0) (geti_nth dflt) ?bindE ?R2; last lia.
have [|k [E [H1 [H2 H3]]]] := min_loop_ok (bs := bs') (m := (v - 1)%N) (i := 1%N) (lv_count (at_ bs' 0%N)).
  rewrite R2; lia.
have -> : Z.to_nat (vz - 1) = (v - 1)%N by lia.
rewrite -[1%coqZ]/(Z.of_nat 1) E /=.
have Hk0 : (0 <= k)%coqZ.
  case: H3 => [->|[q [Hq ->]]].
    by have [] := i_good R3 (leq0n v).
  by have [] := i_good R3 (_ : (q <= v)%N) => //; lia.
have Hall : forall i, (i < v)%N -> (Z.to_nat k <= cnt (at_ bs' i))%N.
  move=> i Hi. rewrite /cnt. case: (posnP i) => [->|Hi0]; first by lia.
  have := H2 i ltac:(lia). lia.
have Hex : exists i, (i < v)%N /\ cnt (at_ bs' i) = Z.to_nat k.
  case: H3 => [->|[q [Hq ->]]]; [by exists 0%N | by exists q; split=> //; lia].
have Hd := inv_dim Hn R3 R4 Hall Hex.
have Hkv : (Z.to_nat k * v <= sbs)%N.
  apply: leq_trans Hsbs. apply: leq_trans (inv_sum Hn R3).
  rewrite -[X in (_ * X <= _)%N]card_ord mulnC -sum_nat_const. apply: leq_sum => i _. exact: Hall.
have Hq : (Z.to_nat k <= sbs %/ v)%N by rewrite leq_divRL.
have Eq : Z.quot (Z.of_nat sbs) vz = Z.of_nat (sbs %/ v)%N.
  rewrite Z.quot_div_nonneg; [|lia|lia]. symmetry. apply: (Z.div_unique_pos _ _ _ (Z.of_nat (sbs %% v)%N)).
    have := ltn_pmod sbs Hv1. lia.
  have := divn_eq sbs v. lia.
rewrite /idiv. case: Z.eqb_spec => Hv0; first lia. rewrite /= Eq Z.gtb_ltb.
case: Z.ltb_spec => Hlt; first lia.
exists (Z.to_nat k), bs'. rewrite Z2Nat.id //.
Qed.
End V.

(** * adjust: from v+1 to v bits *)
Lemma mask_msb (v : nat) (x : N) (j : nat) : (N.of_nat v <= w)%num -> (N.of_nat j < w)%num ->
  msb w (N.land x (wshl w (wnot w 0) (w - N.of_nat v)%num)) j = if (j < v)%N then msb w x j else 0.
Proof.
move=> Hv Hj. rewrite /msb N.land_spec /wshl /trunc /wnot N.lxor_0_l.
rewrite N.mod_pow2_bits_low; last lia.
case: ltnP => H.
  rewrite N.shiftl_spec_high'; last lia. rewrite N.ones_spec_low; last lia. by rewrite andbT.
rewrite N.shiftl_spec_low ?andbF //. lia.
Qed.
Lemma land_lt (x m : N) : (x < 2 ^ w)%num -> (N.land x m < 2 ^ w)%num.
Proof.
move=> H. apply: N.le_lt_trans H. rewrite -{2}(N.lor_ldiff_and x m).
have := N.add_nocarry_lxor (N.ldiff x m) (N.land x m).
rewrite N.lor_ldiff_and.
have E : (N.land (N.ldiff x m) (N.land x m) = 0)%num.
  apply: N.bits_inj => i. rewrite !N.land_spec N.ldiff_spec N.bits_0.
  by case: (N.testbit x i); case: (N.testbit m i).
move=> /(_ E). rewrite (N.lxor_lor _ _ E) N.lor_ldiff_and. lia.
Qed.

Lemma adjust_inv (v : nat) (b : nat -> lvec) : (1 <= v)%N -> (N.of_nat v < w)%num ->
  inv v.+1 b -> lv_zero (b v.+1) = true -> inv v (fun i => adjust_vec G (Z.of_nat v) (b i)).
Proof.
move=> Hv1 Hvw I Hz.
pose m := wshl w (wnot w 0) (w - N.of_nat v)%num.
pose msk (c : lvec) := {| lv_rand := lv_rand c; lv_count := lv_count c; lv_zero := lv_zero c;
                          lv_next := N.land (lv_next c) m |}.
have Hvw' : (N.of_nat v <= w)%num by lia.
have Emsk c : adjust_vec G (Z.of_nat v) c =
   if (lv_next (msk c) =? 0)%num then next_state G (Z.of_nat v) (msk c) else msk c.
  by rewrite /adjust_vec /msk /m /=; have -> : Z.to_N (Z.of_nat v) = N.of_nat v by lia.
have Mm c j : (N.of_nat j < w)%num -> msb w (lv_next (msk c)) j = if (j < v)%N then msb w (lv_next c) j else 0.
  by move=> Hj; rewrite /msk /m /= mask_msb.
have Mseq c z j : (j < v)%N -> seqf (msk c) z j = seqf c z j.
  move=> Hj. rewrite /EquiProofs.seqf /= -/(msk c).
  case: ifP => // _. case: ifP => // _. rewrite -[N.land _ _]/(lv_next (msk c)) Mm ?Hj //. lia.
have Mgood i : (i <= v.+1)%N -> goodv v (msk (b i)).
  move=> Hi. have [O1 C1 L1 H1] := i_good I Hi. split=> //=; first exact: land_lt.
  move=> j Hj Hjw. rewrite -[N.land _ _]/(lv_next (msk (b i))) Mm // ltnNge Hj //.
have Elow i : (i < v)%N -> adjust_vec G (Z.of_nat v) (b i) = msk (b i).
  move=> Hi. rewrite Emsk. case: N.eqb_spec => // E.
  have := Mm (b i) i ltac:(lia). rewrite E msb0 Hi (i_diag I); last lia. by [].
have Hnzv : lv_zero (msk (b v)) = false by exact: (i_nz I).
(* the vector that becomes the last one *)
have [X1 X2 X3 X4 X5] : [/\ goodv v (adjust_vec G (Z.of_nat v) (b v)),
   forall z j, (j < v)%N -> seqf (adjust_vec G (Z.of_nat v) (b v)) z j = seqf (b v) z j,
   (lv_count (adjust_vec G (Z.of_nat v) (b v)) <= Z.of_nat n + 2 * Z.of_nat nb + 1)%coqZ,
   lv_zero (adjust_vec G (Z.of_nat v) (b v)) = false -> lv_next (adjust_vec G (Z.of_nat v) (b v)) <> 0%num &
   lv_zero (adjust_vec G (Z.of_nat v) (b v)) = true -> lv_next (adjust_vec G (Z.of_nat v) (b v)) = 0%num /\
     forall z j, (j < v)%N -> seqf (adjust_vec G (Z.of_nat v) (b v)) z j = 0].
  have Hcb : (lv_count (b v) <= Z.of_nat n)%coqZ.
    have := inv_sum Hn I. rewrite big_ord_recr /=. have := rank_leq_row (krylov A x0).
    move: (\sum_(i < v) cnt (b i))%N => s. rewrite /cnt. lia.
  rewrite Emsk. case: N.eqb_spec => H0.
    have [P1 P2 P3 P4 P5] := next_state_spec LG Hv1 Hvw' Hnb Hn (Mgood v (leqnSn v)) Hnzv H0.
    split=> //.
    - by move=> z j Hj; rewrite P2 // Mseq.
    - by change (lv_count (msk (b v))) with (lv_count (b v)) in P3; lia.
    - by move=> /P5 [Q1 Q2]; split=> // z j Hj; rewrite P2 // Q2.
  split=> //; first exact: Mgood.
  - by move=> z j Hj; rewrite Mseq.
  - by change (lv_count (msk (b v))) with (lv_count (b v)); lia.
  - by rewrite Hnzv.
have Eseq i z j : (i <= v)%N -> (j < v)%N -> seqf (adjust_vec G (Z.of_nat v) (b i)) z j = seqf (b i) z j.
  rewrite leq_eqVlt => /orP [/eqP ->|Hi] Hj; first exact: X2.
  by rewrite Elow // Mseq.
have S1 f : spn v.+1 (Bs G abs A C v.+1 b) f ->
   spn v (Bs G abs A C v (fun i => adjust_vec G (Z.of_nat v) (b i))) f.
  move/(spn_proj (leqnSn v)). apply: spn_trans => g [i [Hi ->]].
  case: (ltngtP i v.+1) => Hi2; [|lia|].
    apply: (@spnB _ _ (seqf (adjust_vec G (Z.of_nat v) (b i)))); first by exists i.
    by move=> z j Hj; rewrite Eseq.
  rewrite Hi2. apply: spn0 => z j Hj. have [_ H] := i_zero I Hz. apply: H. lia.
split=> //.
- move=> i; rewrite leq_eqVlt => /orP [/eqP ->//|Hi]. rewrite Elow //. apply: Mgood. lia.
- by move=> i Hi; rewrite Elow //; apply: (i_nz I); lia.
- by move=> i Hi; rewrite Elow // Mm ?Hi ?(i_diag I) //; lia.
- by move=> i j Hi Hij Hj; rewrite Elow // Mm ?Hj ?(i_tri I) //; lia.
- move=> i Hi. have [x [Ox Hx]] := i_mem I (leqW Hi). exists x; split=> // z j H1 Hj.
  by rewrite Eseq // Hx //; lia.
- by move=> i Hi; apply: S1; apply: (i_unit I); lia.
- by apply: S1; exact: (i_out I).
Qed.
End Main.
