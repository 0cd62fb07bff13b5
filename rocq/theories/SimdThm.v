(** The statements about calc_SIMD_equidistribution. *)
From Coq Require Import NArith ZArith List Bool Lia.
From mathcomp Require Import all_ssreflect all_algebra.
From mathcomp Require Import zify.
From Verif Require Import Base WordLemmas ArrayOut LinInst LinLemmas GenModel LinSpec ArrayModel ArrayWin ArrayLin DelayLin W128Model SfmtModel SfmtLin SfmtProofs SfmtParity SimdModel SimdPack SimdSpec SimdSeq SimdBits SimdProofs.
Set Implicit Arguments.
Unset Strict Implicit.
Unset Printing Implicit Defensive.
Import GRing.Theory.
Local Open Scope nat_scope.
Delimit Scope Z_scope with coqZ.
Delimit Scope N_scope with num.

(** The call: the object s with the words W; mexp bounds the dimension of the
    span of W; info says which of the two word sizes is measured. *)
Definition simd_call (info : simd_info) (ew L : nat) (c : sfc) (s : sfmt) (W : nat -> N) (pos : N -> res Z) (fuel mexp bit_len : nat) : Prop :=
  [/\ good_info info ew L, sfc_ok c, sfmt_ok c s & sfmt_words s W] /\
  [/\ 3 <= c_size c, Nat.modulo (Z.to_nat (f_pos1 (c_par c))) (c_size c) <> 0, recurrent W mexp & (Z.of_nat mexp < 2 ^ 31)%coqZ] /\
  [/\ pos_spec 128 pos, (c_size c * 512 + 194) * 129 <= fuel & bit_len <= ew].

Lemma call_ok info ew L lsb c s W pos fuel mexp bit_len veq :
  simd_call info ew L c s W pos fuel mexp bit_len -> bit_len <= length veq ->
  exists veq' sum, [/\ calc_SIMD sf_ops pos info lsb sf_setStart sf_setWeight fuel (Z.of_nat mexp) s bit_len veq = Ret (veq', sum),
    sum = defect_sum mexp bit_len veq', length veq' = length veq, forall u, bit_len <= u -> List.nth u veq' 0%coqZ = List.nth u veq 0%coqZ &
    forall v, 1 <= v <= bit_len -> exists r : nat, [/\ List.nth (v - 1) veq' 0%coqZ = Z.of_nat r,
      forall phi, equid lsb ew L W phi v r, exists phi, equid lsb ew L W phi v (L * ((r + (L - 1)) %/ L)) & forall k, (forall phi, equid lsb ew L W phi v k) -> L * (k %/ L) <= r]].
Proof.
move=> [[Hi Hc Hs HW] [[s3 p0 Hr Hm] [Hp Hf Hl]]] Hv.
apply: (@calc_ok info ew L lsb c s W pos fuel mexp bit_len) => //. rewrite /sf_pos. by move: p0; case: (Nat.modulo _ _).
Qed.
Lemma simd_thm info ew L lsb c s W pos fuel mexp bit_len veq :
  simd_call info ew L c s W pos fuel mexp bit_len -> bit_len <= length veq ->
  exists veq' sum,
    calc_SIMD sf_ops pos info lsb sf_setStart sf_setWeight fuel (Z.of_nat mexp) s bit_len veq = Ret (veq', sum) /\
    sum = defect_sum mexp bit_len veq' /\
    length veq' = length veq /\ (forall u, bit_len <= u -> List.nth u veq' 0%coqZ = List.nth u veq 0%coqZ) /\
    forall v, 1 <= v <= bit_len -> exists r : nat,
      List.nth (v - 1) veq' 0%coqZ = Z.of_nat r /\
      (forall phi, equid lsb ew L W phi v r) /\
      forall k, (forall phi, equid lsb ew L W phi v k) -> k < r + L /\ (Nat.modulo k L = 0 -> k <= r).
Proof.
move=> HC Hv. have [veq' [sum [E1 E2 E3 E4 E5]]] := call_ok lsb HC Hv. exists veq', sum. do 4 (split=> //).
move=> v Hv2. have [r [R1 R2 _ R3]] := E5 v Hv2. exists r. split=> //. split=> // k Hk.
have Lp : 2 <= L by have [[Hi _ _ _] _] := HC; exact: (L_pos Hi).
have := R3 k Hk. have := divn_eq k L. have := ltn_pmod k (ltnW Lp). clear -Lp.
have -> : Nat.modulo k L = k %% L.
  symmetry. apply: (Nat.mod_unique _ _ (k %/ L)); first by have := ltn_pmod k (ltnW Lp); lia. have := divn_eq k L. lia.
move: (k %% L) (k %/ L) => a b; nia.
Qed.
Lemma limit_thm info ew L lsb c s W pos fuel mexp bit_len veq veq' sum :
  simd_call info ew L c s W pos fuel mexp bit_len -> bit_len <= length veq ->
  calc_SIMD sf_ops pos info lsb sf_setStart sf_setWeight fuel (Z.of_nat mexp) s bit_len veq = Ret (veq', sum) ->
  (forall v, 1 <= v <= bit_len -> (List.nth (v - 1) veq' 0 <= Z.of_nat (L * (mexp %/ (L * v))))%coqZ) /\
  (1 <= bit_len -> (Z.of_nat (mexp %% L) <= sum)%coqZ).
Proof.
move=> HC Hv E. have [veq1 [sum1 [E1 E2 _ _ E5]]] := call_ok lsb HC Hv. rewrite E in E1. case: E1 => V1 S1. rewrite -?V1 -?S1 in E2 E5.
have [[Hi Hc Hs HW] [[s3 p0 Hr Hm] [Hp Hf Hl]]] := HC. have Lp := L_pos Hi.
have K v : 1 <= v <= bit_len -> (List.nth (v - 1) veq' 0 <= Z.of_nat (L * (mexp %/ (L * v))))%coqZ.
  move=> Hv2. have [r [-> _ R3 _]] := E5 v Hv2. have v1 : 1 <= v by case/andP: Hv2.
  have := @full_lim info ew L lsb W mexp Hi Hr v r v1 R3. clear; lia.
split=> // b1. rewrite E2 /defect_sum.
have T : forall l, (forall i, List.In i l -> i < bit_len) ->
    (0 <= List.fold_right Z.add 0 (List.map (fun i => Z.of_nat (mexp %/ i.+1) - List.nth i veq' 0) l))%coqZ.
  elim=> [|i l IH] H; cbn [List.map List.fold_right]; first by clear; lia.
  have Hi1 : i < bit_len by apply: H; left. have := IH (fun j Hj => H j (or_intror Hj)).
  have Hi2 : 1 <= i.+1 <= bit_len by move: Hi1; clear; lia.
  have := K i.+1 Hi2. rewrite subn1 /=.
  have : L * (mexp %/ (L * i.+1)) <= mexp %/ i.+1.
    rewrite leq_divRL //. apply: (@leq_trans (mexp %/ (L * i.+1) * (L * i.+1))); last exact: leq_trunc_div.
    move: (mexp %/ _) => q; clear; nia.
  clear; lia.
case: bit_len b1 Hv K E5 T {HC E2 E Hl} => // b _ Hv K E5 T. cbn [List.seq List.map List.fold_right].
have T1 := T (List.seq 1 b). have := K 1 isT. rewrite muln1 divn1 subnn.
have := divn_eq mexp L. have : (forall i, List.In i (List.seq 1 b) -> i < b.+1) by move=> i /List.in_seq; clear; lia.
move/T1. clear. move: (mexp %/ L) (mexp %% L) => q r. lia.
Qed.

Lemma cayley (n : nat) (A : 'M['F_2]_n) (x : 'rV['F_2]_n) : (st A n x = \sum_(j < n) f2 ((char_poly A)`_j != 0) *: st A j x)%R.
Proof.
case: n A x => [|n] A x; first by apply/rowP => -[].
have stE i : st A i x = (x *m (A ^+ i))%R.
  elim: i => [|i IH]; first by rewrite expr0 mulmx1. by rewrite stS IH exprSr mulmxA.
have E : (x *m horner_mx A (char_poly A) = 0)%R by rewrite Cayley_Hamilton mulmx0.
have EH : (horner_mx A (char_poly A) = \sum_(i < n.+2) (char_poly A)`_i *: A ^+ i)%R.
  rewrite /horner_mx /= /horner_morph.
  have sz' : size (map_poly (@scalar_mx _ n.+1) (char_poly A)) <= n.+2 by rewrite -(size_char_poly A) size_poly.
  rewrite (horner_coef_wide _ sz'). by apply: eq_bigr => i _; rewrite coef_map /= -mul_scalar_mx.
move: E. rewrite EH mulmx_sumr big_ord_recr /=.
have -> : ((char_poly A)`_(n.+1) = 1)%R by have /monicP := char_poly_monic A; rewrite /lead_coef size_char_poly.
rewrite scale1r -stE. set Y := (\sum_(i < n.+1) _)%R => E.
transitivity Y; first by rewrite -[LHS]add0r -(addF2_self Y) -addrA E addr0.
apply: eq_bigr => i _. by rewrite -scalemxAr -stE f2_nz.
Qed.
(** * Existence of words and of a recurrence *)
Lemma words_exist c s : sfc_ok c -> sfmt_ok c s -> exists W, sfmt_words s W.
Proof.
move=> Hc Hs. exists (sf_W c s). have Ec : s.1.1 = c by have [[]] := Hs. rewrite /sfmt_words /= Ec. split.
- move=> k Hk. rewrite sf_W_win //. lia.
- move=> k. exact: sf_W_rec.
Qed.
Lemma words_recurrent c s W : sfc_ok c -> sfmt_ok c s -> sfmt_words s W -> recurrent W (c_size c * 128).
Proof.
move=> Hc Hs HW. have s2 := sc_size Hc.
pose c4 := sf_cfg 0%coqZ 4%coqZ c. pose s4 := sf_setWeight 4%coqZ (sf_setStart 0%coqZ s).
have Hc4 : sfc_ok c4 := cfg_ok _ _ Hc. have Hs4 : sfmt_ok c4 s4 := mode_ok _ _ Hs.
have UW := words_unique Hc4 Hs4 (words_mode _ _ HW).
pose n := c_size c * 128. have n0 : 0 < n by rewrite /n; lia.
pose A := sfmt_A c4. pose nn := (c_size c4 * 128 + wm_bits (c_weight c4)). have En : nn = n by rewrite /nn /n /= addn0.
pose x k : 'rV['F_2]_nn := sfmt_vec c4 (iter k (dl_next (c_size c4) (sF c4) (sR c4)) s4).
have X k : (x k.+1 = x k *m A)%R.
  rewrite /x iterS. have [Hk _] := iter_next Hc4 k Hs4. exact: (dl_gen_vec (sfmt_dg Hc4) Hk).
have XA k j : x (k + j) = st A j (x k).
  elim: j => [|j IH]; first by rewrite addn0. by rewrite addnS X IH.
have XB k (i : nat) (Hi : i < nn) : (i < 128) -> f2 (N.testbit (W k) (N.of_nat i)) = x k 0%R (Ordinal Hi).
  move=> Hi2. rewrite UW /x mxE /= /dl_bits. have -> : i < c_size c4 * 128 by rewrite /=; lia.
  have [_ E] := iter_next Hc4 k Hs4. rewrite E /ar_bits addn0 /sf_W. 
  have -> : Nat.div i 128 = 0 by lia. by have -> : Nat.modulo i 128 = i by lia.
pose a j : bool := ((char_poly A)`_j != 0)%R.
have -> : c_size c * 128 = nn by rewrite En.
exists a => k i. case: (N.ltb_spec i 128) => Hi; last first.
  have Z q : N.testbit (W q) i = false by rewrite UW; apply: (bits_above 128); [exact: (sf_W_lt Hc4)|].
  rewrite Z (@xsum_ext _ _ (fun=> false)) ?xsum_0 // => j _. by rewrite Z andbF.
have Hi2 : N.to_nat i < nn by rewrite En /n; lia.
have Ei : i = N.of_nat (N.to_nat i) by lia. rewrite Ei. apply: f2_inj. rewrite XB; last lia.
rewrite f2_xsum.
rewrite XA (cayley A (x k)) summxE. apply: eq_bigr => j _. rewrite mxE -XA -XB; last lia.
by rewrite /f2 -/(a j); case: (a j); case: N.testbit; rewrite ?mulr1 ?mulr0 ?mul0r.
Qed.

(** * The counterexample *)
Definition rx_p : sfp := SFP 1279 7 14 3 5 1 0xf7fefffd 0x7fefcfff 0xaff3ef3f 0xb5ffff7f 0.
Definition rx_w : N := 0x35af81e1e0938e05615fbee9d1d2497d.
Definition rx_c : sfc := SFC rx_p 10 0 4 false.
Definition rx_s : sfmt := ((rx_c, RR 0 (List.repeat rx_w 10)), 0%num).
Lemma rx_ok : sfc_ok rx_c /\ sfmt_ok rx_c rx_s.
Proof.
split; first by split=> //; split.
split; last by []. split; first by []. split; first by cbn; lia. split; first by []. move=> i. cbn [rx_s rr_arr fst snd].
do 10 (case: i => [//|i]). by case: i.
Qed.
Lemma rx_words : sfmt_words rx_s (fun=> rx_w).
Proof.
split=> [k Hk|k].
- cbn [rx_s rr_arr rr_idx fst snd]. do 10 (case: k Hk => [|k] Hk; first by vm_compute). exfalso. cbn [rx_s rx_c c_size fst] in Hk. lia.
- by vm_compute.
Qed.
Lemma xsum_pick d i f : i < d -> xsum d (fun j => (j == i) && f j) = f i.
Proof.
move=> Hi. have Z n : n <= i -> xsum n (fun j => (j == i) && f j) = false.
  elim: n => //= n IH Hn. rewrite IH; last lia. by have -> : (n == i) = false by lia.
elim: d Hi => // d IH Hd /=. case: (eqVneq d i) => [->|Hn]; first by rewrite Z ?eqxx //=; case: (f i).
rewrite IH; last lia. by rewrite ?andFb xorb_false_r.
Qed.
Lemma refuted_thm : exists c s W, forall pos fuel, pos_spec 128 pos -> (c_size c * 512 + 194) * 129 <= fuel ->
  simd_call (SI 128 32 4) 32 4 c s W pos fuel 1279 1 /\
  exists veq' sum, calc_SIMD sf_ops pos (SI 128 32 4) true sf_setStart sf_setWeight fuel 1279 s 1 [:: 0%coqZ] = Ret (veq', sum) /\
    List.nth 0 veq' 0%coqZ = 0%coqZ /\ forall phi, equid true 32 4 W phi 1 1.
Proof.
exists rx_c, rx_s, (fun=> rx_w) => pos fuel Hp Hf. have [Hc Hs] := rx_ok.
have HC : simd_call (SI 128 32 4) 32 4 rx_c rx_s (fun=> rx_w) pos fuel 1279 1.
  split; first by split; [by left|exact: Hc|exact: Hs|exact: rx_words].
  split; last by split.
  split; [by []|by vm_compute| |by []].
  exists (fun j => j == 1278) => k i. by rewrite (@xsum_pick 1279 1278 (fun=> N.testbit rx_w i)).
have B q : seqbit true 32 4 (fun=> rx_w) q 0 = true.
  rewrite /seqbit. have : List.In (Nat.modulo q 4) [:: 0; 1; 2; 3].
    have := Nat.mod_upper_bound q 4. case: (Nat.modulo q 4) => [|[|[|[|?]]]] /=; try tauto. move=> H. exfalso. have : 4 <> 0 by []. move/H. lia.
  by case=> [<-|[<-|[<-|[<-|//]]]].
split=> //. have [//|veq' [sum [E1 _ _ _ E5]]] := @call_ok _ _ _ true _ _ _ _ _ _ _ [:: 0%coqZ] HC.
exists veq', sum. split; first exact: E1. have [r [R1 _ [phi R3] _]] := E5 1 isT. split.
- rewrite R1. have -> : r = 0; last by []. move: R3. clear -B. case: r => [|r]; first by move=> _. rewrite addSn.
  have -> : (r + (4 - 1)).+1 = 1 * 4 + r by lia. rewrite divnMDl //. move: (r %/ 4) => q E. exfalso.
  have [K [a H]] := E (fun i _ => i == 1). have H1 := H 1 0; have H0 := H 0 0.
  have X i : xsum K (fun j => a j && seqbit true 32 4 (fun=> rx_w) (phi + i + 4 * j)%coq_nat 0) = xsum K a.
    by apply: xsum_ext => j _; rewrite B andbT.
  rewrite X in H0. rewrite X in H1. have T1 : xsum K a = true by apply: H1; lia. have T0 : xsum K a = false by apply: H0; lia.
  by rewrite T1 in T0.
- move=> phi' y. exists 1, (fun=> y 0 0) => i b Hi Hb. have -> : i = 0 by lia. have -> : b = 0 by lia. by rewrite /= B andbT; case: (y 0 0).
Qed.
