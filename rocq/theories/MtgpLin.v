(** mtgp32 meets the contract of the toolbox. *)
From Coq Require Import NArith ZArith Lia Bool List.
From mathcomp Require Import all_ssreflect all_algebra.
From mathcomp Require Import zify.
From Verif Require Import Base WordLemmas WordVec UtilModel UtilProofs UtilProofs2 UtilProofs3 GenModel LinSpec LinLemmas LinInst PeriodSpec XorshiftProofs TinyLin
  MTSpec MTProofs2 ArrayModel ArrayWin ArrayLin ArrayOut MtdcLin MtgpModel.
Set Implicit Arguments.
Unset Strict Implicit.
Unset Printing Implicit Defensive.
Import GRing.Theory.
Local Open Scope N_scope.
Delimit Scope Z_scope with coqZ.

(** A table of 16 words that is additive in the index. *)
Definition lin_table (t : list N) : Prop :=
  [/\ length t = 16%N, forall i, List.nth i t 0 < 2 ^ 32 &
      forall i j, i < 16 -> j < 16 ->
        List.nth (N.to_nat (N.lxor i j)) t 0 = N.lxor (List.nth (N.to_nat i) t 0) (List.nth (N.to_nat j) t 0)].
Definition gp_r (p : gpp) : nat := (gp_size p * 32 - gp_mexp p)%N.
Definition gpp_ok (p : gpp) : Prop :=
  [/\ (1 < gp_size p)%N /\ (gp_mexp p < gp_size p * 32)%N, (0 < gp_r p < 32)%N,
      gp_mask p = wshl 32 (wnot 32 0) (N.of_nat (gp_r p)),
      (1 < gp_pos p < gp_size p)%N & lin_table (gp_p p) /\ lin_table (gp_tp p)].

Lemma low4_lt x : N.land x 0x0f < 16.
Proof. by rewrite N.land_comm; apply: (land_lt 4). Qed.
Definition tab (t : list N) (x : N) : N := List.nth (N.to_nat (N.land x 0x0f)) t 0.
Lemma tab_add t a b : lin_table t -> tab t (N.lxor a b) = N.lxor (tab t a) (tab t b).
Proof. by case=> _ _ H; rewrite /tab land_lin H //; exact: low4_lt. Qed.
Lemma tab_lt t a : lin_table t -> tab t a < 2 ^ 32.
Proof. by case=> _ H _; exact: H. Qed.
Lemma tab0 t : lin_table t -> tab t 0 = 0.
Proof. move=> H. have := tab_add 0 0 H. by rewrite N.lxor_nilpotent => ->; rewrite N.lxor_nilpotent. Qed.

Section Words.
Variable p : gpp.
Hypothesis Hp : gpp_ok p.
Notation size := (gp_size p).
Notation r := (gp_r p).

Lemma gmask_bit i : N.testbit (gp_mask p) i = (N.of_nat r <=? i) && (i <? 32).
Proof.
have [_ Hr -> _ _] := Hp. rewrite wshl_spec.
case: (N.leb_spec (N.of_nat r) i) => H1; case: (N.ltb_spec i 32) => H2 //; cbn [andb].
by rewrite wnot_spec ?N.bits_0 //; lia.
Qed.
(** The word before the table is applied. *)
Definition gX (a : nat -> N) : N := N.lxor (N.land (a 0%N) (gp_mask p)) (a 1%N).
Definition sxl (k x : N) : N := N.lxor x (wshl 32 x k).
Definition gY (a : nat -> N) : N := N.lxor (sxl (gp_sh1 p) (gX a)) (wshr (a (gp_pos p)) (gp_sh2 p)).
Definition gF (a : nat -> N) : N := N.lxor (gY a) (tab (gp_p p) (gY a)).
Definition gH (x : N) : N := let t := N.lxor x (wshr x 16) in N.lxor t (wshr t 8).
Definition gT (a : nat -> N) : N := N.lxor (gF a) (tab (gp_tp p) (gH (a (gp_pos p - 1)%N))).
Definition gRev (x : N) : N := if gp_rev p then reverse_bit32 x else x.
Definition gO (a : nat -> N) : N := gRev (gT a).
Lemma sxl_add k a b : sxl k (N.lxor a b) = N.lxor (sxl k a) (sxl k b).
Proof. by rewrite /sxl wshl_lin lxor_swap. Qed.
Lemma gH_add a b : gH (N.lxor a b) = N.lxor (gH a) (gH b).
Proof. have E x : gH x = xr 8 (xr 16 x) by []. by rewrite !E !xr_add. Qed.
Lemma gY_add a b : gY (wxor a b) = N.lxor (gY a) (gY b).
Proof.
rewrite /gY (_ : gX (wxor a b) = N.lxor (gX a) (gX b)); last by rewrite /gX /wxor land_lin lxor_swap.
by rewrite sxl_add /wxor wshr_lin lxor_swap.
Qed.
Lemma gY_lt a : small 32 size a -> gY a < 2 ^ 32.
Proof.
have [[s1 _] _ _ Hpos _] := Hp => Ha.
have X : gX a < 2 ^ 32 by apply: (lxor_lt 32); [apply: (land_lt 32); apply: (Ha 0%N); lia|apply: (Ha 1%N); lia].
apply: (lxor_lt 32); first by apply: (lxor_lt 32) => //; exact: wshl_lt.
by apply: shiftr_lt; apply: Ha; lia.
Qed.
Lemma gX_ext a b : small 32 size a -> small 32 size b -> agree size r a b -> gX a = gX b.
Proof.
have [[s1 _] _ _ _ _] := Hp => Ha Hb [E1 E2]. rewrite /gX (E2 1%N); last lia. congr N.lxor.
apply: N.bits_inj => i. rewrite !N.land_spec gmask_bit. case: (N.leb_spec (N.of_nat r) i) => Hi; last by rewrite !andbF.
have -> : i = i - N.of_nat r + N.of_nat r by lia. by rewrite -!N.shiftr_spec' E1.
Qed.
Lemma gF_wf : wfun 32 size r gF.
Proof.
have [[s1 _] _ _ Hpos [T1 _]] := Hp. split.
- by move=> a Ha; apply: (lxor_lt 32); [exact: gY_lt|exact: tab_lt].
- by move=> a b Ha Hb; rewrite /gF gY_add tab_add // lxor_swap.
- move=> a b Ha Hb E. rewrite /gF. have -> // : gY a = gY b.
  by rewrite /gY (gX_ext Ha Hb E) (E.2 (gp_pos p)) //; lia.
Qed.
Lemma gT_wf : wfun 32 size r gT.
Proof.
have [[s1 _] _ _ Hpos [_ T2]] := Hp. have W := gF_wf. split.
- by move=> a Ha; apply: (lxor_lt 32); [exact: (wf_lt W)|exact: tab_lt].
- by move=> a b Ha Hb; rewrite /gT (wf_add W) // /wxor gH_add tab_add // lxor_swap.
- move=> a b Ha Hb E. rewrite /gT (wf_ext W Ha Hb E) (E.2 (gp_pos p - 1)%N) //; lia.
Qed.
Lemma grev_add a b : a < 2 ^ 32 -> b < 2 ^ 32 -> gRev (N.lxor a b) = N.lxor (gRev a) (gRev b).
Proof.
move=> Ha Hb. rewrite /gRev. case: (gp_rev p) => //. apply: (@word_ext 32); [exact: reverse_bit32_lt|by apply: (lxor_lt 32); exact: reverse_bit32_lt|].
move=> i Hi. have H := lxor_lt 32 _ _ Ha Hb. by rewrite N.lxor_spec !reverse_bit32_ok // N.lxor_spec.
Qed.
Lemma grev_lt a : a < 2 ^ 32 -> gRev a < 2 ^ 32.
Proof. by rewrite /gRev; case: (gp_rev p) => // _; exact: reverse_bit32_lt. Qed.
Lemma gO_wf : wfun 32 size r gO.
Proof.
have W := gT_wf. split.
- by move=> a Ha; apply: grev_lt; exact: (wf_lt W).
- by move=> a b Ha Hb; rewrite /gO (wf_add W) // grev_add //; exact: (wf_lt W).
- by move=> a b Ha Hb E; rewrite /gO (wf_ext W Ha Hb E).
Qed.
End Words.

Section Gen.
Variable p : gpp.
Hypothesis Hp : gpp_ok p.
Notation size := (gp_size p).
Notation r := (gp_r p).
Notation n := (gp_mexp p).

Definition gpu_ok : gpu -> Prop := ar_ok p 32 size.
Definition gpu_win : gpu -> nat -> N := ar_win size.
Definition gpu_vec : gpu -> 'rV['F_2]_n := @ar_vec gpp 32 size r n.
Definition gpu_A : 'M['F_2]_n := ar_A p 32 size r n gpu_ops.
Definition gpu_C : nat -> 'cV['F_2]_n := ar_C p 32 size r n (gO p).
Definition gpu_D : nat -> 'cV['F_2]_n := @ar_D gpp p 32 size r n (gT p).

Lemma gpu_generateE s : gpu_ok s -> gpu_generate s = (gT p (gpu_win s), ar_step size (gF p) s).
Proof.
case: s => q s [/= -> [Hi [Hl Hw]]]. have [[s1 _] _ _ Hpos _] := Hp.
have Hs : rr_ok 32 size s by [].
have E i : (i < size)%N -> rr_at size (rr_arr s) (Nat.modulo (rr_idx s + 1) size + i) = win size s i.
  by move=> H; apply: at_win_next; lia.
have M : (Nat.modulo (rr_idx s + 1) size < size)%coq_nat by apply: Nat.mod_upper_bound; lia.
have N1 : gpu_next_state (p, s) = ar_step size (gF p) (p, s).
  rewrite /gpu_next_state /ar_step /rr_push. congr (_, RR _ (put _ _ _)). rewrite (E 1%N) // (E (gp_pos p)); last lia.
  have -> : List.nth (Nat.modulo (rr_idx s + 1) size) (rr_arr s) 0 = win size s 0.
    by have := E 0%N; rewrite /rr_at addn0 Nat.mod_small // => -> //; lia.
  by [].
rewrite /gpu_generate N1. congr (_, _). rewrite /gpu_temper /ar_step /rr_push. cbn [fst snd rr_arr rr_idx].
rewrite nth_put; last by rewrite Hl. rewrite Nat.eqb_refl /gT. congr N.lxor.
rewrite /tab /gH. set t := rr_at _ _ _. suff -> : t = ar_win size (p, s) (gp_pos p - 1)%N by [].
rewrite /t /rr_at nth_put; last by rewrite Hl.
have -> : Nat.sub (Nat.add (Nat.modulo (rr_idx s + 1) size) (gp_pos p)) 1 = Nat.add (Nat.modulo (rr_idx s + 1) size) (gp_pos p - 1)%N by lia.
have -> : (Nat.modulo (Nat.add (Nat.modulo (rr_idx s + 1) size) (gp_pos p - 1)%N) size =? Nat.modulo (rr_idx s + 1) size)%nat = false.
  apply/Nat.eqb_neq. move: (Nat.modulo (rr_idx s + 1) size) M => i M. rewrite mod_small_case; [|lia|lia].
  case: (Nat.ltb_spec (Nat.add i (gp_pos p - 1)%N) size); lia.
have L : (gp_pos p - 1 < size)%N by move: Hpos; clear; lia.
exact: (E _ L).
Qed.
Lemma gpu_ag : arr_gen p 32 size r n (gF p) (gO p) gpu_ops.
Proof.
have [[s1 s2] Hr _ Hpos _] := Hp. split.
- by [].
- lia.
- by case/andP: Hr.
- rewrite /gp_r; lia.
- exact: gF_wf.
- exact: gO_wf.
- by [].
- by move=> s Hs; rewrite -[g_generate _ _]/(gpu_generate s) gpu_generateE.
- by move=> v s Hs _; rewrite -[g_generate_len _ _ _]/(gpu_generate_len v s) /gpu_generate_len gpu_generateE // -[fst s]/(s.1) Hs.1.
- by move=> s t Hs Ht; rewrite /= /gpu_add -[fst s]/(s.1) Hs.1.
- move=> s [E [Hi _]]; rewrite /= /gpu_setZero -[fst s]/(s.1) E. split.
  + split=> //; split=> /=; first exact: Hi. split; first exact: List.repeat_length.
    by move=> i; rewrite nth_repeat0.
  + by move=> k _; rewrite /ar_win /win /= nth_repeat0.
Qed.
Lemma gpu_lin : linear_gen gpu_ops gpu_ok gpu_vec gpu_A gpu_C.
Proof. exact: (ag_lin gpu_ag). Qed.
Lemma gpu_linout : linear_out gpu_ops gpu_ok gpu_vec gpu_D.
Proof. by apply: (ag_linout gpu_ag (gT_wf Hp)) => s Hs; rewrite -[g_generate _ _]/(gpu_generate s) gpu_generateE. Qed.
Lemma gpu_state s t : gpu_ok s -> gpu_ok t ->
  gpu_vec s = gpu_vec t <-> agree size r (gpu_win s) (gpu_win t).
Proof. exact: (ag_state gpu_ag). Qed.

(** Invertible exactly if no non-zero index of the table has itself as the low
    bits of its entry. *)
Lemma gpu_unit : (0 < gp_sh1 p) ->
  gpu_A \in unitmx <-> (forall i, 0 < i < 16 -> N.land (List.nth (N.to_nat i) (gp_p p) 0) 0x0f <> i).
Proof.
move=> sh0. have [[s1 s2] Hr _ Hpos [T1 _]] := Hp.
rewrite (ag_unit gpu_ag s1).
split=> [H i Hi Ei|T a Ha E1 Ek EF].
- pose y := List.nth (N.to_nat i) (gp_p p) 0.
  have y32 : y < 2 ^ 32 by case: T1 => _ L _; exact: L.
  have [_ [_ On]] := bij_xshl _ sh0. have [x [x32 Ex]] := On y y32.
  pose a k := match k with 0%N => N.land x (gp_mask p) | 1%N => N.land x (wnot 32 (gp_mask p)) | _ => 0 end.
  have X : gX p a = x.
    apply: N.bits_inj => j; rewrite /gX /a N.lxor_spec !N.land_spec. case: (N.ltb_spec j 32) => Hj.
      by rewrite wnot_spec //; case: (N.testbit x j); case: (N.testbit (gp_mask p) j).
    by rewrite (bits_above 32 x).
  have m32 : gp_mask p < 2 ^ 32 by have [_ _ -> _ _] := Hp; exact: wshl_lt.
  have small_a : small 32 size a by case=> [|[|k]] _; [apply: (land_lt 32)|apply: (land_lt 32)|exact: pow2_pos].
  have [] : agree size r a (fun=> 0).
    apply: H => //.
    + apply: N.bits_inj => j. rewrite N.shiftr_spec' N.bits_0 /a N.land_spec. case: (N.ltb_spec (j + N.of_nat r) 32) => Hj.
        rewrite wnot_spec // (gmask_bit Hp). have -> : (N.of_nat r <=? j + N.of_nat r) by lia.
        have -> : (j + N.of_nat r <? 32) by lia. by rewrite andbF.
      by rewrite (bits_above 32 x).
    + by case=> [|[|k]].
    + have Y : gY p a = y.
        rewrite /gY X /sxl Ex. case: (gp_pos p) Hpos => [|[|k]] // _. by rewrite /a /wshr N.shiftr_0_l N.lxor_0_r.
      by rewrite /gF Y /tab -/y (_ : N.land y 15 = i) // -/y N.lxor_nilpotent.
  move=> E0 E1.
  have X0 : x = 0.
    rewrite -X. apply: N.bits_inj => j. rewrite /gX N.lxor_spec (E1 1%N) // !N.bits_0 /a !N.land_spec (gmask_bit Hp).
    case: (N.leb_spec (N.of_nat r) j) => Hj; last by rewrite !andbF.
    have := congr1 (fun z => N.testbit z (j - N.of_nat r)) E0. rewrite N.shiftr_spec' N.shiftr_0_l N.bits_0.
    have -> : j - N.of_nat r + N.of_nat r = j by lia. rewrite /a N.land_spec (gmask_bit Hp).
    have -> : (N.of_nat r <=? j) by lia. by case: (N.testbit x j); case: (j <? 32).
  have y0 : y = 0 by rewrite -Ex X0.
  by move: Ei; rewrite -/y y0 N.land_0_l; lia.
- have L0 : a 0%N < 2 ^ 32 by apply: (Ha 0%N); lia. have L1 : a 1%N < 2 ^ 32 by apply: (Ha 1%N).
  have Y0 : gY p a = 0.
    move/N.lxor_eq: EF => EF. case: (N.eq_dec (N.land (gY p a) 0x0f) 0) => [Z|Nz].
      by rewrite EF /tab Z; have := tab0 T1; rewrite /tab N.land_0_l.
    case: (T (N.land (gY p a) 0x0f)); first by have := low4_lt (gY p a); lia.
    by rewrite -/(tab (gp_p p) (gY p a)) -EF.
  have X0 : gX p a = 0.
    move: Y0. rewrite /gY (Ek (gp_pos p)); last lia. rewrite /wshr N.shiftr_0_l N.lxor_0_r => S0.
    have [_ [In _]] := bij_xshl _ sh0.
    have XL : gX p a < 2 ^ 32 by apply: (lxor_lt 32) => //; apply: (land_lt 32).
    have Z32 : 0 < 2 ^ 32 by [].
    by apply: (In _ _ XL Z32); rewrite -/(sxl (gp_sh1 p) (gX p a)) S0.
  have B j : N.testbit (a 1%N) j = N.testbit (a 0%N) j && N.testbit (gp_mask p) j.
    by have := congr1 (fun z => N.testbit z j) X0; rewrite /gX N.lxor_spec N.land_spec N.bits_0; case: (N.testbit (a 1%N) j); case: (_ && _).
  have A1 : a 1%N = 0.
    apply: N.bits_inj => j. rewrite N.bits_0. case: (N.leb_spec (N.of_nat r) j) => Hj.
      have := congr1 (fun z => N.testbit z (j - N.of_nat r)) E1. rewrite N.shiftr_spec' N.bits_0.
      by have -> : j - N.of_nat r + N.of_nat r = j by lia.
    rewrite B (gmask_bit Hp). have -> : (N.of_nat r <=? j) = false by lia. by rewrite andbF.
  split.
  + apply: N.bits_inj => j. rewrite N.shiftr_spec' N.shiftr_0_l N.bits_0.
    have := B (j + N.of_nat r). rewrite A1 N.bits_0 (gmask_bit Hp). have -> : (N.of_nat r <=? j + N.of_nat r) by lia.
    case: (N.ltb_spec (j + N.of_nat r) 32) => Hj; first by rewrite !andbT => <-.
    by rewrite (bits_above 32 (a 0%N)).
  + move=> k /andP[k0 Hk]. case: (eqVneq k 1%N) => [->//|k1]. by apply: Ek; lia.
Qed.
End Gen.
