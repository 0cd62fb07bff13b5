(** Further facts about mtgp32: parameters, tempering, isZero. *)
From Coq Require Import NArith ZArith Lia Bool List.
From mathcomp Require Import all_ssreflect all_algebra.
From mathcomp Require Import zify.
From Verif Require Import Base WordLemmas WordVec UtilModel UtilSpec UtilProofs UtilProofs2 UtilProofs3 GenModel LinSpec LinLemmas LinInst PeriodSpec XorshiftProofs TinyLin
  MTSpec MTProofs2 TemperModel ArrayModel ArrayWin ArrayLin ArrayOut ArrayEqui MtdcLin MtdcProofs MtgpModel MtgpLin.
Set Implicit Arguments.
Unset Strict Implicit.
Unset Printing Implicit Defensive.
Import GRing.Theory.
Local Open Scope N_scope.
Delimit Scope Z_scope with coqZ.

(** * The table of sixteen words *)
Lemma select_lt src : (forall k, List.nth k src 0 < 2 ^ 32) -> forall i b, select_xor i src b < 2 ^ 32.
Proof.
elim: src => [//|a src IH] H i b /=. apply: (lxor_lt 32); last by apply: IH => k; exact: (H k.+1).
by case: (N.testbit i b) => //; exact: (H 0%N).
Qed.
Lemma nth_of_error (l : list N) i x : List.nth_error l i = Some x -> List.nth i l 0 = x.
Proof. by elim: l i => [|a l IH] [|i] //= => [[]//|]; exact: IH. Qed.
Lemma fill16 src : length src = 4%N -> (forall k, List.nth k src 0 < 2 ^ 32) ->
  exists t, [/\ fill_table (List.repeat 0 16) src 16 = Ret t, lin_table t &
    forall k, (k < 4)%N -> List.nth (N.to_nat (2 ^ N.of_nat k)) t 0 = List.nth k src 0].
Proof.
move=> Ls Hs. have Hk k : 2 ^ k < 16 -> (N.to_nat k < length src)%coq_nat.
  rewrite Ls => H. have : k < 4 by apply/(N.pow_lt_mono_r_iff 2). lia.
have [t [E [Lt V]]] := fill_table_ok (List.repeat 0 16) src 16 ltac:(lia) ltac:(lia) ltac:(by []) Hk.
have W i : i < 16 -> List.nth (N.to_nat i) t 0 = select_xor i src 0.
  move=> Hi. have R : List.nth_error (List.repeat 0 16) (N.to_nat i) = Some 0.
    by apply: List.nth_error_repeat; lia.
  have := V _ _ R. rewrite N2Nat.id. have -> : (i <? 16) by lia. move/nth_of_error ->. by rewrite N.lxor_0_l.
exists t; split=> //.
- split.
  + by rewrite Lt List.repeat_length.
  + move=> i. case: (Nat.lt_ge_cases i 16) => Hi.
      have := W (N.of_nat i). rewrite Nat2N.id => ->; [exact: select_lt|lia].
    by rewrite List.nth_overflow // Lt List.repeat_length.
  + move=> i j Hi Hj. rewrite !W //; first exact: select_xor_lxor. exact: (lxor_lt 4).
- move=> k Hk4. rewrite W; last by move: k Hk4 => [|[|[|[|k]]]].
  have Hn : List.nth_error src k = Some (List.nth k src 0) by apply: List.nth_error_nth'; lia.
  by have := @select_xor_pow2 src k 0 _ Hn; rewrite N.add_0_l.
Qed.

(** * Untempered outputs *)
Section Gen.
Variable p : gpp.
Hypothesis Hp : gpp_ok p.
Notation size := (gp_size p).
Notation r := (gp_r p).

Lemma gpp_size1 : (1 < size)%N. Proof. by case: Hp => [[]]. Qed.
Lemma gpp_r0 : (0 < r)%N. Proof. by case: Hp => _ /andP[]. Qed.
Lemma gpu_dim x0 : (forall i, List.nth i (gp_tp p) 0 = 0) -> full_period (gpu_A p) x0 -> gpu_A p \in unitmx ->
  equidist_dim (gpu_A p) (gpu_C p) x0 32 (size - 1) /\ classical_equidist (gpu_A p) (gpu_C p) x0 (size - 1) 32.
Proof.
move=> T0 FP UA.
have OT a : gO p a = gRev p (gF p a) by rewrite /gO /gT /tab T0 N.lxor_0_r.
have On y : y < 2 ^ 32 -> exists x, x < 2 ^ 32 /\ gRev p x = y.
  move=> Hy. exists (gRev p y); split; first exact: grev_lt.
  by rewrite /gRev; case: (gp_rev p) => //; exact: reverse_bit32_invol.
split.
- exact: (ag_dim (gpu_ag Hp) OT On UA gpp_size1 gpp_r0 FP).
- exact: (ag_classical (gpu_ag Hp) OT On UA gpp_size1 FP).
Qed.

(** * isZero *)
Lemma gpu_isZeroE s : gpu_ok p s ->
  gpu_isZero s = true <-> (N.land (gpu_win p s (size - 1)) (gp_imask p) = 0 /\ forall k, (k < size - 1)%N -> gpu_win p s k = 0).
Proof.
case: s => q s [/= -> [Hi [Hl _]]]. have s1 := gpp_size1.
have E0 : List.nth (rr_idx s) (rr_arr s) 0 = win size s (size - 1).
  rewrite /win. have -> : (Nat.add (Nat.add (rr_idx s) 1) (size - 1)%N) = Nat.add (rr_idx s) (Nat.mul 1 size) by lia.
  by rewrite Nat.mod_add; [rewrite Nat.mod_small //; lia|lia].
rewrite /gpu_isZero E0 /gpu_win /ar_win. cbn [fst snd]. case: N.eqb_spec => H; last first.
  by split=> [//|[]].
cbn [negb]. rewrite zero_loop_ok; last lia. split=> [Z|[_ Z] j Hj].
- split=> // k Hk. have := Z k.+1. rewrite at_win; try lia.
  have -> : (k.+1 - 1)%coq_nat = k by lia. apply; lia.
- rewrite at_win; try lia. apply: Z. lia.
Qed.
Definition gwin_state (f : nat -> N) : gpu := (p, rr_mk size f).
Lemma gwin_ok f : (forall k, f k < 2 ^ 32) -> gpu_ok p (gwin_state f).
Proof. by move=> Hf; have s1 := gpp_size1; split=> //; apply: mk_ok => [|k _]; [lia|exact: Hf]. Qed.
Lemma gwinE f k : (k < size)%N -> gpu_win p (gwin_state f) k = f k.
Proof. by move=> Hk; have s1 := gpp_size1; rewrite /gpu_win /ar_win win_mk //; lia. Qed.
Lemma gisZero_false_neg : exists s, [/\ gpu_ok p s, gpu_vec p s = 0%R & gpu_isZero s = false].
Proof.
have s1 := gpp_size1. have r0 := gpp_r0. pose f k := if k is 0%N then 1 else 0.
have Hf : gpu_ok p (gwin_state f) by apply: gwin_ok; case.
have sh : N.shiftr 1 (N.of_nat r) = 0.
  by apply: N.bits_inj => i; rewrite N.shiftr_spec' N.bits_0 (bits_above 1) //; lia.
exists (gwin_state f); split=> //.
- apply/(ag_vec_zero (gpu_ag Hp) Hf); split.
    by rewrite -/(gpu_win p) gwinE ?N.shiftr_0_l //; lia.
  by move=> k /andP[k0 Hk]; rewrite -/(gpu_win p) gwinE //; case: k k0 Hk.
- apply/negP => /(gpu_isZeroE Hf) [_ Z]. have := Z 0%N. rewrite gwinE; last lia. move=> E. by have : 1 = 0 by apply: E; lia.
Qed.
Lemma gisZero_false_pos : (exists i, i < 32 /\ N.testbit (gp_imask p) i = false) ->
  exists s, [/\ gpu_ok p s, gpu_vec p s <> 0%R & gpu_isZero s = true].
Proof.
case=> i [Hi Mi]. have s1 := gpp_size1. pose f k := if (k == size - 1)%N then 2 ^ i else 0.
have i32 : 2 ^ i < 2 ^ 32 by apply: N.pow_lt_mono_r.
have i0 : 2 ^ i <> 0 by apply: N.pow_nonzero.
have Hf : gpu_ok p (gwin_state f) by apply: gwin_ok => k; rewrite /f; case: eqP.
exists (gwin_state f); split=> //.
- move/(ag_vec_zero (gpu_ag Hp) Hf) => [_ Z]. have := Z (size - 1)%N.
  rewrite -/(gpu_win p) gwinE; last lia. rewrite /f eqxx => E. by apply: i0; apply: E; lia.
- apply/(gpu_isZeroE Hf); split.
    rewrite gwinE; last lia. rewrite /f eqxx. apply: N.bits_inj => j. rewrite N.land_spec N.bits_0.
    case: (N.eq_dec i j) => [<-|Ne]; first by rewrite Mi andbF.
    by rewrite N.pow2_bits_false.
  move=> k Hk; rewrite gwinE; last lia. rewrite /f. by case: eqP => // E; lia.
Qed.
End Gen.

(** * The objects that the class makes *)
Definition gpu_size (mexp : nat) : nat := (mexp / 32 + 1)%nat.
Lemma gpu_seed_ok p s v : (0 < gp_size p)%N -> v < 2 ^ 32 -> gpu_ok p (gpu_seed v (p, s)).
Proof.
move=> s0 Hv. split=> //; split; [|split]; cbn [gpu_seed fst snd rr_idx rr_arr].
- lia.
- rewrite /= fill_len. lia.
- case=> [//|j]. cbn [List.nth]. apply: fill_small => i x; exact: trunc_lt.
Qed.
Lemma lin_zero : lin_table (List.repeat 0 16).
Proof. by split=> // [i|i j _ _]; rewrite !nth_repeat0. Qed.
Lemma gpu_new_ok mexp id imask pos sh1 sh2 : (32 <= mexp)%N -> Nat.modulo mexp 32 <> 0%N -> (1 < pos < gpu_size mexp)%N ->
  exists g, [/\ gpu_new mexp id imask pos sh1 sh2 = Ret g, gpp_ok (fst g), gpu_ok (fst g) g &
    [/\ gp_mexp (fst g) = mexp, gp_id (fst g) = id, gp_size (fst g) = gpu_size mexp & forall i, List.nth i (gp_tp (fst g)) 0 = 0]].
Proof.
move=> M1 M2 Hpos.
have R : (0 < gpu_size mexp * 32 - mexp < 32)%N.
  move: M2; rewrite /gpu_size. have := Nat.div_mod mexp 32. have := Nat.mod_upper_bound mexp 32. lia.
have B : (1 < gpu_size mexp)%N /\ (mexp < gpu_size mexp * 32)%N.
  move: M1; rewrite /gpu_size. have := Nat.div_mod mexp 32. have := Nat.mod_upper_bound mexp 32. lia.
rewrite /gpu_new -/(gpu_size mexp). have -> : (32 <=? gpu_size mexp * 32 - mexp)%nat = false by lia.
eexists; split; [reflexivity| | |]; cbn [gpu_seed fst snd].
- by split=> //; split; exact: lin_zero.
- by apply: (@gpu_seed_ok _ (RR 0 nil)) => //=; lia.
- by split=> //= i; exact: (nth_repeat0 16).
Qed.
Lemma gpu_new_undef mexp id imask pos sh1 sh2 : Nat.modulo mexp 32 = 0%N -> gpu_new mexp id imask pos sh1 sh2 = Undef.
Proof.
move=> M. rewrite /gpu_new. have -> : (32 <=? (mexp / 32 + 1) * 32 - mexp)%nat = true; last by [].
have := Nat.div_mod mexp 32. lia.
Qed.

(** * setUpParam *)
(** The last position it may choose. *)
Definition gp_last (size : nat) : Z :=
  if (100 < size)%N then (Z.of_nat size - 2 ^ Z.log2 (Z.of_nat size) - 1)%coqZ else (Z.of_nat (Nat.div size 2) - 1)%coqZ.
Lemma floor_log n : 1 <= n -> floor2p (S (N.to_nat (N.log2 n))) n = Ret (2 ^ N.log2 n).
Proof.
move=> H. have [L1 L2] := N.log2_spec n ltac:(lia).
have B : n < 2 ^ N.of_nat (S (N.to_nat (N.log2 n))) by rewrite Nat2N.inj_succ N2Nat.id.
have [k [-> [K1 K2]]] := floor2p_ok_gen _ _ H B. do 2 f_equal.
rewrite -N.pow_succ_r' in K2.
have : k < N.succ (N.log2 n) by apply/(N.pow_lt_mono_r_iff 2); lia.
have : N.log2 n < N.succ k by apply/(N.pow_lt_mono_r_iff 2); lia.
lia.
Qed.
Lemma tbl_entry_lt i u : u < 2 ^ 32 -> tbl_entry i u < 2 ^ 32.
Proof. by move=> H; rewrite /tbl_entry; case: (_ =? _) => //; apply: (lxor_lt 32) => //; exact: wshl_lt. Qed.
Lemma pos_choice (size : nat) u : (0 < size)%N -> (Z.of_nat size < 2 ^ 31)%coqZ ->
  (if (100 <? size)%nat then
     bind (floor2p (S (N.to_nat (N.log2 (N.of_nat size)))) (N.of_nat size)) (fun fl => get_range u 3 (Z.of_nat size - Z.of_N fl - 1))
   else get_range u 3 (Z.of_nat (Nat.div size 2) - 1)) = get_range u 3 (gp_last size).
Proof.
move=> s0 s31. rewrite /gp_last. case: (Nat.ltb_spec 100 size) => H; last first.
  by have -> : (100 < size)%N = false by lia.
have -> : (100 < size)%N by lia. rewrite floor_log; last lia. cbn [bind].
have -> : Z.of_N (2 ^ N.log2 (N.of_nat size)) = (2 ^ Z.log2 (Z.of_nat size))%coqZ; last by [].
rewrite N2Z.inj_pow. f_equal. by rewrite -nat_N_Z; case: (N.of_nat size) => [|[]].
Qed.
Lemma last_bound size : (0 < size)%N -> (gp_last size < Z.of_nat size - 1)%coqZ.
Proof.
move=> s0. rewrite /gp_last. case: ifP => H.
  have := Z.pow_pos_nonneg 2 (Z.log2 (Z.of_nat size)) ltac:(lia) (Z.log2_nonneg _). lia.
have := Nat.div_lt size 2. lia.
Qed.
Lemma gpu_setUpParam_exit u u0 u1 u2 u3 p s : (0 < gp_size p)%N -> (Z.of_nat (gp_size p) < 2 ^ 31)%coqZ -> (gp_last (gp_size p) < 3)%coqZ ->
  gpu_setUpParam u u0 u1 u2 u3 (p, s) = Exit.
Proof. by move=> s0 s31 L; rewrite /gpu_setUpParam pos_choice // get_range_exit. Qed.

(** The bits of tbl[2] and tbl[3] that carry the id. *)
Definition id_of_table (t2 t3 : N) : N := N.lor (N.land (N.shiftr t2 4) 0xffff) (N.land t3 0xffff0000).
Lemma bits_const (c : N) (f : N -> bool) :
  c < 2 ^ 32 -> (forall j, 32 <= j -> f j = false) -> List.forallb (fun j => Bool.eqb (N.testbit c (N.of_nat j)) (f (N.of_nat j))) (List.seq 0 32) = true ->
  forall j, N.testbit c j = f j.
Proof.
move=> Hc Hf /List.forallb_forall H j. case: (N.ltb_spec j 32) => Hj; last by rewrite (bits_above 32) ?Hf.
have := H (N.to_nat j). rewrite N2Nat.id => K. apply/Bool.eqb_prop/K. apply/List.in_seq. lia.
Qed.
Lemma low_bit j : N.testbit 0xffff j = (j <? 16).
Proof. by move: j; apply: bits_const => // j Hj; lia. Qed.
Lemma high_bit j : N.testbit 0xffff0000 j = (16 <=? j) && (j <? 32).
Proof. by move: j; apply: bits_const => // j Hj; lia. Qed.
Lemma mid_bit j : N.testbit 0x000ffff0 j = (4 <=? j) && (j <? 20).
Proof. by move: j; apply: bits_const => // j Hj; lia. Qed.
Lemma out_bit j : N.testbit 0xfff0000f j = (j <? 32) && ~~ ((4 <=? j) && (j <? 20)).
Proof. by move: j; apply: bits_const => // j Hj; lia. Qed.
Lemma id_back a b id : id < 2 ^ 32 ->
  id_of_table (N.lxor (N.land a 0xfff0000f) (N.land (wshl 32 id 4) 0x000ffff0)) (N.lxor (N.land b 0x0000ffff) (N.land id 0xffff0000)) = id.
Proof.
move=> Hid. apply: N.bits_inj => j. rewrite /id_of_table N.lor_spec !N.land_spec N.shiftr_spec' !N.lxor_spec !N.land_spec
  wshl_spec !low_bit !high_bit mid_bit out_bit.
case: (N.ltb_spec j 16) => H1.
- have -> : (j + 4 <? 32) by lia. have -> : (4 <=? j + 4) by lia. have -> : (j + 4 <? 20) by lia.
  have -> : (16 <=? j) = false by lia. have -> : j + 4 - 4 = j by lia.
  by rewrite /= !andbF !andbT; case: (N.testbit id j).
- have -> : (16 <=? j) by lia. case: (N.ltb_spec j 32) => H2; first by rewrite /= !andbF !andbT; case: (N.testbit id j).
  by rewrite /= !andbF (bits_above 32).
Qed.
Lemma gpu_setUpParam_ok u u0 u1 u2 u3 p s : gpp_ok p -> gpu_ok p (p, s) -> (Z.of_nat (gp_size p) < 2 ^ 31)%coqZ -> (3 <= gp_last (gp_size p))%coqZ ->
  gp_id p < 2 ^ 32 -> u0 < 2 ^ 32 -> u1 < 2 ^ 32 -> u2 < 2 ^ 32 -> u3 < 2 ^ 32 ->
  exists q, [/\ gpu_setUpParam u u0 u1 u2 u3 (p, s) = Ret (q, s), gpp_ok q, gpu_ok q (q, s),
    [/\ (3 <= Z.of_nat (gp_pos q) <= gp_last (gp_size p))%coqZ, gp_sh1 q = 13, gp_sh2 q = 4 & gp_mexp q = gp_mexp p] &
    [/\ forall k, (k < 4)%N -> List.nth (N.to_nat (2 ^ N.of_nat k)) (gp_p q) 0 = List.nth k (gp_tbl q) 0,
        forall k, (k < 2)%N -> N.land (List.nth k (gp_tbl q) 0) 0x0f <> 2 ^ N.of_nat k &
        id_of_table (List.nth 2 (gp_tbl q) 0) (List.nth 3 (gp_tbl q) 0) = gp_id p]].
Proof.
move=> Hp Hs s31 L3 Hid H0 H1 H2 H3. have s1 := gpp_size1 Hp. have LB := last_bound (ltnW s1).
have I3 : int_ok 3 by []. have IL : int_ok (gp_last (gp_size p)) by apply/andP; split; lia.
have FT : (gp_last (gp_size p) - 3 + 1 < 2 ^ 31)%coqZ by lia.
have [pos [Ep Hpos]] := get_range_in u 3 (gp_last (gp_size p)) I3 IL L3 FT.
rewrite /gpu_setUpParam pos_choice; [|exact: ltnW|exact: s31]. rewrite Ep. cbn [bind].
set t2 := N.lxor (N.land (tbl_entry 2 u2) _) _. set t3 := N.lxor (N.land (tbl_entry 3 u3) _) _.
set tbl := (_ :: _). 
have Ht2 : t2 < 2 ^ 32 by apply: (lxor_lt 32); apply: (land_lt 32); [exact: tbl_entry_lt|exact: wshl_lt].
have Ht3 : t3 < 2 ^ 32 by apply: (lxor_lt 32); apply: (land_lt 32) => //; exact: tbl_entry_lt.
have Hb : forall k, List.nth k tbl 0 < 2 ^ 32.
  by case=> [|[|[|[|[|k]]]]] //=; exact: tbl_entry_lt.
have [t [Et Lt Vt]] := fill16 (src := tbl) erefl Hb.
rewrite Et. cbn [bind]. eexists; split; [reflexivity| | | |].
- have [B R M P [T1 T2]] := Hp. split; [exact: B|exact: R|exact: M| |by split]. by cbn [gp_pos gp_size]; move: Hpos LB; clear; lia.
- by case: Hs.
- split; [|by []..]. by cbn [gp_pos]; move: Hpos; clear; lia.
- cbn [gp_tbl gp_p]. split=> [|k Hk|]; [exact: Vt| |exact: id_back].
  have D i x : (i < 2)%N -> N.land (tbl_entry i x) 15 <> 2 ^ N.of_nat i.
    move=> Hi. rewrite /tbl_entry (_ : wshl 32 1 (N.of_nat i) = 2 ^ N.of_nat i); last by case: i Hi => [|[]].
    case: N.eqb_spec => // E. rewrite land_lin E. by case: i Hi {E} => [|[]].
  by case: k Hk => [|[|k]] Hk; [exact: (D 0%N u0)|exact: (D 1%N u1)|].
Qed.
(** Different ids lead to different tables, whatever random numbers are drawn. *)
Lemma gpu_ids p1 p2 s1 s2 q1 q2 t1 t2 u u0 u1 u2 u3 v v0 v1 v2 v3 :
  gpp_ok p1 -> gpu_ok p1 (p1, s1) -> (Z.of_nat (gp_size p1) < 2 ^ 31)%coqZ -> gp_id p1 < 2 ^ 32 ->
  gpp_ok p2 -> gpu_ok p2 (p2, s2) -> (Z.of_nat (gp_size p2) < 2 ^ 31)%coqZ -> gp_id p2 < 2 ^ 32 ->
  u0 < 2 ^ 32 -> u1 < 2 ^ 32 -> u2 < 2 ^ 32 -> u3 < 2 ^ 32 -> v0 < 2 ^ 32 -> v1 < 2 ^ 32 -> v2 < 2 ^ 32 -> v3 < 2 ^ 32 ->
  gpu_setUpParam u u0 u1 u2 u3 (p1, s1) = Ret (q1, t1) -> gpu_setUpParam v v0 v1 v2 v3 (p2, s2) = Ret (q2, t2) ->
  gp_p q1 = gp_p q2 -> gp_id p1 = gp_id p2.
Proof.
have G p s q t w w0 w1 w2 w3 : gpp_ok p -> gpu_ok p (p, s) -> (Z.of_nat (gp_size p) < 2 ^ 31)%coqZ -> gp_id p < 2 ^ 32 ->
  w0 < 2 ^ 32 -> w1 < 2 ^ 32 -> w2 < 2 ^ 32 -> w3 < 2 ^ 32 -> gpu_setUpParam w w0 w1 w2 w3 (p, s) = Ret (q, t) ->
  gp_id p = id_of_table (List.nth 4 (gp_p q) 0) (List.nth 8 (gp_p q) 0).
  move=> Hp Hs S31 Hid W0 W1 W2 W3 E.
  case: (Z.ltb_spec (gp_last (gp_size p)) 3) => L; first by rewrite gpu_setUpParam_exit // in E; exact: ltnW (gpp_size1 Hp).
  have [q' [E' _ _ _ [T _ I]]] := gpu_setUpParam_ok w Hp Hs S31 L Hid W0 W1 W2 W3.
  move: E; rewrite E' => [[<- _]]. by rewrite -[4%N]/(N.to_nat (2 ^ N.of_nat 2)) -[8%N]/(N.to_nat (2 ^ N.of_nat 3)) !T.
move=> P1 S1 Z1 I1 P2 S2 Z2 I2 A0 A1 A2 A3 B0 B1 B2 B3 E1 E2 E.
by rewrite (G _ _ _ _ _ _ _ _ _ P1 S1 Z1 I1 A0 A1 A2 A3 E1) (G _ _ _ _ _ _ _ _ _ P2 S2 Z2 I2 B0 B1 B2 B3 E2) E.
Qed.

(** * Tempering *)
Definition tmp_ok (p : gpp) : Prop := length (gp_tmp p) = 4%N /\ forall k, List.nth k (gp_tmp p) 0 < 2 ^ 32.
Lemma upd_nth (l : list N) i j x : (i < length l)%N -> List.nth j (upd l i x) 0 = if (j == i)%N then x else List.nth j l 0.
Proof.
move=> H. have H' : (i < length l)%coq_nat by lia. case: eqP => [->|Ne].
  by apply: nth_of_error; exact: upd_same.
by rewrite -!List.nth_default_eq /List.nth_default upd_other //; lia.
Qed.
Lemma gpu_setPattern_ok p s mask pattern k : gpp_ok p -> gpu_ok p (p, s) -> tmp_ok p -> (k < 4)%N -> mask < 2 ^ 32 ->
  exists q, [/\ gpu_setPattern mask pattern k (p, s) = Ret (q, s), gpp_ok q, gpu_ok q (q, s), tmp_ok q &
    [/\ gp_p q = gp_p p, gp_tp q = gp_tp p & forall i, i < 32 -> forall j, N.testbit (List.nth j (gp_tmp q) 0) i =
        if (j == k)%N && N.testbit mask i then N.testbit pattern i else N.testbit (List.nth j (gp_tmp p) 0) i]].
Proof.
move=> Hp Hs [Ht1 Ht2] Hk Hm. rewrite /gpu_setPattern.
have Hn : List.nth_error (gp_tmp p) k = Some (List.nth k (gp_tmp p) 0) by apply: List.nth_error_nth'; lia.
rewrite Hn. eexists; split; [reflexivity|by case: Hp|by case: Hs| |].
- split; cbn [gp_tmp]; first by rewrite upd_length; lia.
  move=> j. rewrite upd_nth ?Ht1 //. case: eqP => _ //. apply: (lor_lt 32); last by rewrite N.land_comm; apply: (land_lt 32).
  exact: (land_lt 32).
- split=> // i Hi j. cbn [gp_tmp]. rewrite upd_nth ?Ht1 //. case: eqP => [->|_] //=.
  rewrite N.lor_spec !N.land_spec wnot_spec //. case: (N.testbit mask i); by rewrite ?andbF ?andbT ?orbF.
Qed.
Lemma gpu_setPattern_undef p s mask pattern k : tmp_ok p -> (4 <= k)%N -> gpu_setPattern mask pattern k (p, s) = Undef.
Proof. move=> [H _] Hk. rewrite /gpu_setPattern. by have -> : List.nth_error (gp_tmp p) k = None by apply/List.nth_error_None; lia. Qed.
Lemma gpu_setUpTempering_ok p s : gpp_ok p -> gpu_ok p (p, s) -> tmp_ok p ->
  exists q, [/\ gpu_setUpTempering (p, s) = Ret (q, s), gpp_ok q, gpu_ok q (q, s),
    [/\ gp_p q = gp_p p, gp_tmp q = gp_tmp p, gp_pos q = gp_pos p & gp_mexp q = gp_mexp p] &
    forall k, (k < 4)%N -> List.nth (N.to_nat (2 ^ N.of_nat k)) (gp_tp q) 0 = List.nth k (gp_tmp p) 0].
Proof.
move=> Hp Hs [Ht1 Ht2]. have [t [Et Lt Vt]] := fill16 Ht1 Ht2. rewrite /gpu_setUpTempering Et. cbn [bind].
eexists; split; [reflexivity| |by case: Hs|by []|exact: Vt].
by have [B R M P [T1 _]] := Hp; split.
Qed.
