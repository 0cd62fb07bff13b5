(** Class sfmt: isZero, invertible transition, setOneBit, setUpParam, seed,
    the 32-bit words of the output. *)
From Coq Require Import NArith ZArith Lia Bool List.
From mathcomp Require Import all_ssreflect all_algebra.
From mathcomp Require Import zify.
From Verif Require Import Base WordLemmas WordVec UtilModel UtilProofs GenModel LinSpec LinLemmas LinInst LinOut PeriodSpec PeriodProofs4 XorshiftProofs TinyLin
  ArrayModel ArrayWin ArrayLin ArrayOut MtdcLin MtdcProofs RmtLin DelayLin W128Model W128Spec W128Proofs W128Cert ParityModel SfmtModel SfmtLin.
Set Implicit Arguments.
Unset Strict Implicit.
Unset Printing Implicit Defensive.
Import GRing.Theory.
Local Open Scope N_scope.
Delimit Scope Z_scope with coqZ.

Lemma w32_zero x k : wok x -> (k < 4)%N ->
  (w32 x k =? 0) = true <-> forall i, 32 * N.of_nat k <= i < 32 * N.of_nat k + 32 -> N.testbit (wval x) i = false.
Proof.
move=> Wx Hk. have Hk' : (k < 4)%coq_nat by lia. split=> [/N.eqb_eq E i Hi|E].
- have := w32_bit x k (i - 32 * N.of_nat k) Wx Hk'. rewrite E N.bits_0. have -> : (i - 32 * N.of_nat k <? 32) by lia.
  by rewrite (_ : 32 * N.of_nat k + (i - 32 * N.of_nat k) = i) //; lia.
- apply/N.eqb_eq/N.bits_inj => i. rewrite N.bits_0 w32_bit //. case: N.ltb_spec => // L. apply: E. lia.
Qed.
Lemma zero_win size s : (0 < size)%N -> (rr_idx s < size)%N ->
  (forall j, (j < size)%N -> List.nth j (rr_arr s) 0 = 0) <-> forall k, (k < size)%N -> win size s k = 0.
Proof.
move=> s0 Hi. split=> [Z k Hk|E j Hj].
- rewrite /win. apply: Z. have := Nat.mod_upper_bound (rr_idx s + 1 + k) size. lia.
- have [k [Hk Ek]] : exists k, (k < size)%N /\ Nat.modulo (rr_idx s + 1 + k) size = j.
    case: (leqP (rr_idx s + 1) j) => L.
    - exists (j - (rr_idx s + 1))%N; split; first lia. rewrite Nat.mod_small; lia.
    - exists (j + size - (rr_idx s + 1))%N; split; first lia.
      rewrite (_ : (_ + _)%N = Nat.add j (Nat.mul 1 size)); last lia.
      rewrite Nat.mod_add; last lia. rewrite Nat.mod_small; lia.
  have := E k Hk. by rewrite /win Ek.
Qed.

Section Gen.
Variable c : sfc.
Hypothesis Hc : sfc_ok c.
Notation size := (c_size c).
Notation p := (c_par c).
Notation n := (c_size c * 128)%N.
Notation m := (wm_bits (c_weight c)).
Let dg := sfmt_dg Hc.
Definition sf_win (s : sfmt) (k : nat) : N := List.nth ((rr_idx s.1.2 + 1 + k) mod size)%nat (rr_arr s.1.2) 0.

Lemma sfmt_isZero s : sfmt_ok c s -> sf_isZero s = true <-> sfmt_vec c s = 0%R.
Proof.
move=> Hs. rewrite /sfmt_vec (dl_vec_zero dg Hs). have s2 := sc_size Hc.
case: s Hs => [[c' s] q] [[E [Hi [Hl Hw]]] Hq]. cbn [fst snd] in E, Hi, Hl, Hw, Hq |- *. rewrite /sf_isZero E.
have [Wq Vq] := w_of_ok Hq.
have K : (if rr_zero_loop size size 0 0 (rr_arr s) then
    match c_weight c with
    | 4%coqZ => true | 3%coqZ => w32 (w_of q) 3 =? 0
    | 2%coqZ => (w32 (w_of q) 2 =? 0) && (w32 (w_of q) 3 =? 0)
    | _ => (w32 (w_of q) 1 =? 0) && (w32 (w_of q) 2 =? 0) && (w32 (w_of q) 3 =? 0)
    end else false) = true <-> (rr_zero_loop size size 0 0 (rr_arr s) = true /\ forall i, N.of_nat (128 - m) <= i < 128 -> N.testbit q i = false).
  case: (rr_zero_loop _ _ _ _ _); last by split=> // -[].
  have Z k : (k < 4)%N -> (w32 (w_of q) k =? 0) = true <-> forall i, 32 * N.of_nat k <= i < 32 * N.of_nat k + 32 -> N.testbit q i = false.
    by move=> Hk; rewrite (w32_zero Wq Hk) Vq.
  have Z1 := Z 1%N erefl; have Z2 := Z 2%N erefl; have Z3 := Z 3%N erefl.
  have A1 : (w32 (w_of q) 1 =? 0) && (w32 (w_of q) 2 =? 0) && (w32 (w_of q) 3 =? 0) = true <->
     (true = true /\ forall i, 32 <= i < 128 -> N.testbit q i = false).
    rewrite !Bool.andb_true_iff Z1 Z2 Z3. split.
    - move=> [[B1 B2] B3]; split=> // i Hi'. case: (N.ltb_spec i 64) => L1; first by apply: B1; lia.
      case: (N.ltb_spec i 96) => L2; [apply: B2|apply: B3]; lia.
    - by move=> [_ B]; split; [split|] => i Hi'; apply: B; lia.
  have A2 : (w32 (w_of q) 2 =? 0) && (w32 (w_of q) 3 =? 0) = true <->
     (true = true /\ forall i, 64 <= i < 128 -> N.testbit q i = false).
    rewrite !Bool.andb_true_iff Z2 Z3. split.
    - move=> [B2 B3]; split=> // i Hi'. case: (N.ltb_spec i 96) => L2; [apply: B2|apply: B3]; lia.
    - by move=> [_ B]; split => i Hi'; apply: B; lia.
  have A3 : (w32 (w_of q) 3 =? 0) = true <-> (true = true /\ forall i, 96 <= i < 128 -> N.testbit q i = false).
    rewrite Z3. split; first by move=> B3; split=> // i Hi'; apply: B3; lia.
    by move=> [_ B] i Hi'; apply: B; lia.
  rewrite /wm_bits.
  case: (c_weight c) => [|[[[?|?|]|[?|?|]|]|[[?|?|]|[[?|?|]|[?|?|]|]|]|]|?]; try exact: A1; try exact: A2; try exact: A3.
  by split=> // _; split=> // i; lia.
rewrite K zero_loop_ok; last lia.
have -> : (forall j : nat, (0 <= j /\ j < Nat.add 0 size)%coq_nat -> rr_at size (rr_arr s) (Nat.add 0 j) = 0) <-> forall j, (j < size)%N -> List.nth j (rr_arr s) 0 = 0.
  by split=> Z j Hj; have := Z j; rewrite /rr_at Nat.add_0_l Nat.mod_small; (try apply); lia.
rewrite zero_win //; [|lia|lia]. split=> -[Z1 Z2]; split=> // i Hi'.
- case: (N.ltb_spec i 128) => L; first by apply: Z2. exact: (bits_above 128).
- apply: Z2; lia.
Qed.
Lemma sfmt_state s t : sfmt_ok c s -> sfmt_ok c t -> sfmt_vec c s = sfmt_vec c t <->
  (forall k, (k < size)%N -> sf_win s k = sf_win t k) /\ forall i, N.of_nat (128 - m) <= i -> N.testbit s.2 i = N.testbit t.2 i.
Proof. exact: (dl_state dg). Qed.
Lemma sfmt_linout : linear_out sf_ops (sfmt_ok c) (sfmt_vec c) (@dl_D sfc c 128 size m n (sR c)).
Proof. exact: (dl_linout dg). Qed.

(** * Invertible *)
Lemma shl_inj0 a k : 0 < k -> a < 2 ^ 128 -> N.lxor a (wshl 128 a k) = 0 -> a = 0.
Proof.
move=> k0 Ha E. apply: N.bits_inj => i. rewrite N.bits_0. elim/(well_founded_ind N.lt_wf_0): i => i IH.
have := congr1 (fun x => N.testbit x i) E. rewrite N.lxor_spec N.bits_0 wshl_spec.
case: ifP => [/andP[L1 L2]|_]; last by rewrite xorb_false_r.
rewrite (IH (i - k)); [by rewrite xorb_false_r|lia].
Qed.
Lemma sfmt_unit : (3 <= size)%N -> (0 < sf_pos c)%N -> c_weight c = 4%coqZ -> sfmt_A c \in unitmx.
Proof.
move=> s3 p0 w4. apply: (dl_unit dg); first by rewrite w4.
have s1 : (1 < size)%N by lia. apply/(ag_unit (base_ag dg) s1) => a Ha E1 Ek.
rewrite N.shiftr_0_r in E1.
have K k : (0 < k < size)%N -> a k = 0 by move=> Hk; case: (eqVneq k 1%N) => [->//|k1]; apply: Ek; lia.
have Pl := sf_pos_lt Hc.
rewrite /sF (K (sf_pos c)) ?(K (size - 2)%N) ?(K (size - 1)%N); [|lia|lia|lia]. rewrite /frec.
have Z1 k : sh32r k 0 = 0 by have := sh32r_add k 0 0; rewrite !N.lxor_nilpotent.
have Z2 k : sh32l k 0 = 0 by have := sh32l_add k 0 0; rewrite !N.lxor_nilpotent.
rewrite Z1 Z2 N.land_0_l /wshr N.shiftr_0_l !N.lxor_0_r => /shl_inj0 E.
have a0 : a 0%N = 0 by apply: E; [have := so_sl2 (sc_par Hc); lia|apply: (Ha 0%N); lia].
by split=> [|k Hk]; [rewrite a0|exact: K].
Qed.
Lemma sfmt_sing : c_weight c <> 4%coqZ -> sfmt_A c \notin unitmx.
Proof.
move=> w4. apply: (dl_sing dg). move: w4; rewrite /wm_bits.
by case: (c_weight c) => [|[[[?|?|]|[?|?|]|]|[[?|?|]|[[?|?|]|[?|?|]|]|]|]|?].
Qed.

(** * setOneBit *)
(** Bit i of the array. *)
Definition sf_bit (g : sfmt) (i : nat) : bool :=
  N.testbit (List.nth (Nat.div i 128) (rr_arr g.1.2) 0) (N.of_nat (Nat.modulo i 128)).
Lemma one_bit128 i : wval (if (Nat.modulo (Nat.div i 64) 2 =? 0)%nat
    then W128 (wshl 64 1 (N.of_nat (Nat.modulo i 64))) (u1 (w_of 0)) else W128 (u0 (w_of 0)) (wshl 64 1 (N.of_nat (Nat.modulo i 64))))
  = 2 ^ N.of_nat (Nat.modulo i 128).
Proof.
have M : (Nat.modulo i 64 < 64)%coq_nat by apply: Nat.mod_upper_bound.
have E : wshl 64 1 (N.of_nat (Nat.modulo i 64)) = 2 ^ N.of_nat (Nat.modulo i 64).
  rewrite /wshl N.shiftl_1_l /trunc N.mod_small //. apply: N.pow_lt_mono_r; lia.
have D : Nat.modulo i 128 = (Nat.modulo i 64 + 64 * Nat.modulo (Nat.div i 64) 2)%N.
  have -> : 128%N = Nat.mul 64 2 by []. rewrite Nat.mod_mul_r //.
have M2 : (Nat.modulo (Nat.div i 64) 2 < 2)%coq_nat by apply: Nat.mod_upper_bound.
rewrite E D. case: Nat.eqb_spec => E2.
- rewrite E2 /wval. cbn [u0 u1 w_of]. rewrite /wshr N.shiftr_0_l N.mul_0_l N.add_0_l. congr (2 ^ _). lia.
- have -> : Nat.modulo (Nat.div i 64) 2 = 1%N by lia. rewrite /wval. cbn [u0 u1 w_of]. rewrite /trunc N.mod_0_l; last by [].
  rewrite N.add_0_r -N.pow_add_r. congr (2 ^ _). lia.
Qed.
Lemma sf_setOneBit_ok g i : sfmt_ok c g -> (i < n)%N -> exists g', [/\ sf_setOneBit i g = Ret g', sfmt_ok c g',
  (forall j, sf_bit g' j = (j == i)), g'.2 = 0 & rr_idx g'.1.2 = 0%N].
Proof.
move=> Hg Hi. have s2 := sc_size Hc.
have Hd : (Nat.div i 128 < size)%N by suff : (Nat.div i 128 < size)%coq_nat; [lia|apply: Nat.div_lt_upper_bound; lia].
case: g Hg => [[c' s] q] [[E _] _]. cbn [fst] in E. rewrite E /sf_setOneBit /sf_setZero.
have -> : (size <=? Nat.div i 128)%nat = false by lia. cbn [rr_idx rr_arr].
rewrite nth_repeat0 one_bit128. eexists; split; first exact: erefl.
- split; last exact: pow2_pos. split; first by []. split; cbn [fst snd rr_idx rr_arr]; first lia.
  split; first by rewrite put_len List.repeat_length.
  move=> j. rewrite nth_put; last by rewrite List.repeat_length; lia.
  case: (j =? _)%nat; last by rewrite nth_repeat0; exact: pow2_pos.
  apply: N.pow_lt_mono_r; first by []. have := Nat.mod_upper_bound i 128. lia.
- move=> j. rewrite /sf_bit; cbn [fst snd rr_idx rr_arr]; rewrite nth_put; last by rewrite List.repeat_length; lia.
  have Di := Nat.div_mod i 128. have Dj := Nat.div_mod j 128.
  case: (Nat.eqb_spec (Nat.div j 128) (Nat.div i 128)) => E'.
  + rewrite N.pow2_bits_eqb. case: (j =P i) => [->|Nji]; first exact: N.eqb_refl.
    apply/N.eqb_neq. lia.
  + rewrite nth_repeat0 N.bits_0. by case: (j =P i) => // Eji; case: E'; rewrite Eji.
- by [].
- by [].
Qed.
(** The position of bit i of the array in the vector of the state. *)
Definition sf_idx (i : nat) : nat := (Nat.modulo (Nat.div i 128 + size - 1) size * 128 + Nat.modulo i 128)%N.
Lemma sf_idx_bit i j : (i < n)%N -> (j < n)%N ->
  (Nat.add (Nat.mul (Nat.modulo (0 + 1 + Nat.div j 128) size) 128) (Nat.modulo j 128) == i) = (j == sf_idx i).
Proof.
move=> Hi Hj. have s2 := sc_size Hc. rewrite /sf_idx.
have Di := Nat.div_mod i 128; have Dj := Nat.div_mod j 128.
have Mi := Nat.mod_upper_bound i 128; have Mj := Nat.mod_upper_bound j 128.
have Ld : (Nat.div i 128 < size)%coq_nat by apply: Nat.div_lt_upper_bound; lia.
have Le : (Nat.div j 128 < size)%coq_nat by apply: Nat.div_lt_upper_bound; lia.
move: (Nat.div i 128) (Nat.modulo i 128) (Nat.div j 128) (Nat.modulo j 128) Di Dj Mi Mj Ld Le => a b d e Di Dj Mi Mj Ld Le.
rewrite !mod_small_case; try lia.
case: Nat.ltb_spec => L1; case: Nat.ltb_spec => L2; lia.
Qed.
Lemma sf_setOneBit_vec g i : sfmt_ok c g -> (i < n)%N -> exists g', [/\ sf_setOneBit i g = Ret g', sfmt_ok c g' &
  sfmt_vec c g' = (\row_j (j == sf_idx i :> nat)%:R)%R].
Proof.
move=> Hg Hi. have s2 := sc_size Hc. have [g' [E H B Q I]] := sf_setOneBit_ok Hg Hi. exists g'; split=> //.
apply/rowP => j. rewrite !mxE /f2. congr ((nat_of_bool _)%:R)%R. rewrite /dl_bits. case: ifP => L.
- rewrite -(sf_idx_bit Hi L) -B /sf_bit /ar_bits /ar_win /win I addn0.
  have M := Nat.mod_upper_bound j 128. set b := Nat.modulo j 128 in M *. set a := Nat.modulo _ size.
  have -> : Nat.div (Nat.add (Nat.mul a 128) b) 128 = a by symmetry; apply: (Nat.div_unique _ _ _ b); lia.
  by have -> : Nat.modulo (Nat.add (Nat.mul a 128) b) 128 = b by symmetry; apply: (Nat.mod_unique _ _ a); lia.
- rewrite Q N.bits_0. symmetry. apply/negbTE. apply/eqP => Ej. move: L. rewrite Ej /sf_idx.
  have := Nat.mod_upper_bound i 128. have := Nat.mod_upper_bound (Nat.add (Nat.div i 128) size - 1)%N size. lia.
Qed.

(** * The words of the sequence *)
Notation stp := (ar_step size (sF c)).
(** The 128-bit words: the array from the oldest word on, then the new words. *)
Definition sf_W (s : sfmt) (k : nat) : N := ar_win size (iter k stp s.1) 0.
(** The sequence of 32-bit words. *)
Definition sf_Y (s : sfmt) (q : nat) : N := w32 (w_of (sf_W s (Nat.div q 4))) (Nat.modulo q 4).
Lemma sf_W_lt s k : sfmt_ok c s -> sf_W s k < 2 ^ 128.
Proof. move=> [Hs _]. have [_ R] := ag_iter_ok (base_ag dg) k Hs. exact: (@win_lt 128 size). Qed.
Lemma sf_win_W s j k : sfmt_ok c s -> (k < size)%N -> ar_win size (iter j stp s.1) k = sf_W s (j + k).
Proof.
move=> [Hs _] Hk. have s2 := sc_size Hc. rewrite /sf_W !(ag_iter_win (base_ag dg)) //; last lia.
by rewrite add0n addnC.
Qed.
Lemma sf_W_win s k : sfmt_ok c s -> (k < size)%N -> sf_W s k = sf_win s k.
Proof. by move=> Hs Hk; rewrite -[k in LHS]add0n -sf_win_W. Qed.
Lemma sf_W_new s j : sfmt_ok c s -> sf_W s (j + size) = sF c (ar_win size (iter j stp s.1)).
Proof.
move=> [Hs _]. have s2 := sc_size Hc. rewrite /sf_W (ag_iter_win (base_ag dg)) //; last lia.
have -> : (0 + (j + size) < size)%N = false by lia. by rewrite add0n addnK.
Qed.
Lemma sf_W_rec s k : sfmt_ok c s -> sf_W s (k + size) =
  frec p (sf_W s k) (sf_W s (k + sf_pos c)) (sf_W s (k + (size - 2))) (sf_W s (k + (size - 1))).
Proof.
move=> Hs. have s2 := sc_size Hc. rewrite sf_W_new // /sF. have := sf_pos_lt Hc => Hp.
by rewrite !sf_win_W ?addn0 //; lia.
Qed.

(** The blocks of the start mode, the output of the weight mode. *)
Definition sm_phase (mode : Z) : nat := match mode with 0%coqZ => 4 | 1%coqZ => 1 | 2%coqZ => 2 | _ => 3 end%N.
Definition wm_words (mode : Z) : nat := match mode with 4%coqZ => 4 | 3%coqZ => 3 | 2%coqZ => 2 | _ => 1 end%N.
Lemma iter_next s j : sfmt_ok c s -> sfmt_ok c (iter j (dl_next size (sF c) (sR c)) s) /\
  (iter j (dl_next size (sF c) (sR c)) s).1 = iter j stp s.1.
Proof.
move=> Hs. elim: j => [//|j [IH1 IH2]] /=. split; first exact: (dl_next_ok dg).
by rewrite IH2.
Qed.
Lemma w32_eq x k y : wok x -> (k < 4)%N -> y < 2 ^ 32 ->
  (forall i, i < 32 -> N.testbit (wval x) (32 * N.of_nat k + i) = N.testbit y i) -> w32 x k = y.
Proof.
move=> Wx Hk Hy E. apply: N.bits_inj => i. rewrite w32_bit //; last lia. case: N.ltb_spec => L; first exact: E.
by rewrite (bits_above 32).
Qed.
Lemma start_words s j k : sfmt_ok c s -> (k < 4)%N ->
  w32 (w_of (sR c (ar_win size (iter j stp s.1)))) k = sf_Y s (4 * (j + size - 1) + sm_phase (c_start c) + k).
Proof.
move=> Hs Hk. have s2 := sc_size Hc. 
have L1 := sf_W_lt (j + (size - 1)) Hs. have L2 := sf_W_lt (j + size) Hs.
rewrite /sR sf_win_W //; last lia. rewrite -sf_W_new //.
have LR := startw_lt (c_start c) L1 L2. have [WR VR] := w_of_ok LR.
set q := (4 * _ + _ + _)%N.
have LY := sf_W_lt (Nat.div q 4) Hs. have [WY VY] := w_of_ok LY.
apply: w32_eq => //; first by rewrite /sf_Y; exact: w32_lt.
move=> i Hi. rewrite VR startw_bit // /sf_Y.
have M := Nat.mod_upper_bound q 4. have D := Nat.div_mod q 4.
rewrite w32_bit //; last lia. have -> : (i <? 32) by lia. rewrite VY.
have SP : (32 * N.of_nat (sm_phase (c_start c)) = sm_bits (c_start c)) /\ (1 <= sm_phase (c_start c) <= 4)%N.
  by rewrite /sm_phase /sm_bits; case: (c_start c) => [|[[?|?|]|[?|?|]|]|?].
case: SP => SP1 SP2. rewrite -SP1.
have -> : (32 * N.of_nat k + i <? 128) by lia.
case: N.ltb_spec => L.
- have [-> EM] : (j + (size - 1) = Nat.div q 4 /\ Nat.modulo q 4 = sm_phase (c_start c) + k)%N by rewrite /q; lia.
  congr N.testbit. lia.
- have [-> EM] : (j + size = Nat.div q 4 /\ Nat.modulo q 4 = sm_phase (c_start c) + k - 4)%N by rewrite /q; lia.
  congr N.testbit. lia.
Qed.
Lemma sf_run s j : sfmt_ok c s -> PeriodProofs4.run sf_ops j s = iter j (dl_next size (sF c) (sR c)) s.
Proof.
move=> Hs. rewrite /PeriodProofs4.run. elim: j => [//|j IH]. rewrite !iterS IH.
have [H _] := iter_next j Hs. by rewrite (dg_step dg).
Qed.
Lemma sf_blocks s j k : sfmt_ok c s -> (c_weight c = 4%coqZ \/ (0 < j)%N) -> (k < 4)%N ->
  w32 (w_of (g_generate sf_ops (PeriodProofs4.run sf_ops j s)).1) k =
  sf_Y s (4 * (j + size - 1) + sm_phase (c_start c) + k - (if (k < wm_words (c_weight c))%N then 0 else 4)%N).
Proof.
move=> Hs Hj Hk. have s2 := sc_size Hc. rewrite sf_run //. have [Hs' E1] := iter_next j Hs. rewrite (dg_step dg) //. cbn [fst].
have LO := dl_out_lt dg Hs'. have [WO VO] := w_of_ok LO.
have Hr i : sR c (ar_win size (iter i stp s.1)) < 2 ^ 128.
  apply: (wf_lt (sR_wf Hc)) => l _. rewrite /ar_win. have [_ R] := ag_iter_ok (base_ag dg) i Hs.1. exact: win_lt.
have WM : (N.of_nat (128 - m) = 32 * N.of_nat (wm_words (c_weight c))) /\ (1 <= wm_words (c_weight c) <= 4)%N.
  by rewrite /wm_words /wm_bits; case: (c_weight c) => [|[[[?|?|]|[?|?|]|]|[[?|?|]|[[?|?|]|[?|?|]|]|]|]|?].
case: WM => WM1 WM2.
have W4 : c_weight c = 4%coqZ -> wm_words (c_weight c) = 4%N by move=> ->.
case: ifP => L.
- rewrite subn0 -start_words //. have [WR VR] := w_of_ok (Hr j). apply: w32_eq => //; first exact: w32_lt.
  move=> i Hi. rewrite VO w32_bit //; last lia. have -> : (i <? 32) by lia. rewrite VR.
  rewrite /dl_out mixw_bit WM1 E1. by have -> : (32 * N.of_nat k + i <? 32 * N.of_nat (wm_words (c_weight c))) by lia.
- have j0 : (0 < j)%N by case: Hj => // /W4; lia.
  case: j j0 {Hj} Hs' E1 LO WO VO => // j _ Hs' E1 LO WO VO.
  have -> : (4 * (j.+1 + size - 1) + sm_phase (c_start c) + k - 4 = 4 * (j + size - 1) + sm_phase (c_start c) + k)%N by lia.
  rewrite -start_words //. have [WR VR] := w_of_ok (Hr j). apply: w32_eq => //; first exact: w32_lt.
  move=> i Hi. rewrite VO w32_bit //; last lia. have -> : (i <? 32) by lia. rewrite VR.
  rewrite /dl_out mixw_bit WM1. have -> : (32 * N.of_nat k + i <? 32 * N.of_nat (wm_words (c_weight c))) = false by lia.
  rewrite iterS. cbn [dl_next snd]. by have [_ ->] := iter_next j Hs.
Qed.
End Gen.
