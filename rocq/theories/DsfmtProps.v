(** Properties C65 to C69 and C31: the class dSFMT. *)
From Coq Require Import NArith ZArith List Bool Lia.
From mathcomp Require Import all_ssreflect all_algebra.
From mathcomp Require Import zify.
From Verif Require Import Base UtilModel GenModel PolyF2 LinSpec PeriodModel PeriodSpec PeriodProofs4 ArrayModel W128Model W128Spec
  ParityModel ParitySpec SfmtModel ViewLin DsfmtModel DsfmtLin DsfmtProofs DsfmtPar DsfmtSeq DsfmtFixModel DsfmtFixSpec
  DsfmtAffine DsfmtFix DsfmtCert.
Set Implicit Arguments.
Unset Strict Implicit.
Unset Printing Implicit Defensive.
Import GRing.Theory.
Local Open Scope ring_scope.
Delimit Scope Z_scope with coqZ.

(** C65: with prefix 0 the class is a linear generator in every start and weight
    mode; the dimension is 104 * size + 128, in weight mode 1 plus the 52 bits of
    the half of the block before.  generate() is defined. *)
Theorem C65_linear : forall c, dsc_ok c -> linear_gen ds_ops (dsfmt_ok c) (dsfmt_vec c) (dsfmt_A c) (dsfmt_C c).
Proof. exact dsfmt_lin. Qed.
Theorem C65_output : forall c, dsc_ok c -> linear_out ds_ops (dsfmt_ok c) (dsfmt_vec c) (vl_col (dn c) (ds_view c) (ds_mk c) (vO c)).
Proof. by move=> c Hc; exact: (vl_linout (ds_vg Hc)). Qed.
(** bitSize() is the dimension in weight mode 2; otherwise 52 bits are missing. *)
Theorem C65_dimension : forall c s, dsfmt_ok c s -> dn c = (g_bitSize ds_ops s + (if (e_weight c =? 2)%coqZ then 0 else 52))%N.
Proof. by move=> c s [E _ _ _ _]; rewrite /dn /dm /wt2; cbn [g_bitSize ds_ops]; rewrite -[fst (fst s)]/(s.1.1) E. Qed.
Theorem C65_defined : forall c, dsc_ok c -> forall s, dsfmt_ok c s ->
  (exists x s', [/\ ds_generate s = Ret (x, s'), (x < 2 ^ 128)%num & dsfmt_ok c s']) /\
  forall v, (1 <= v <= 128)%coqZ -> exists x s', [/\ ds_generate_len v s = Ret (x, s'), (x < 2 ^ 128)%num & dsfmt_ok c s'].
Proof. exact ds_defined. Qed.
Theorem C65_state : forall c, dsc_ok c -> forall s t, dsfmt_ok c s -> dsfmt_ok c t ->
  let word (g : dsfmt) k := List.nth ((rr_idx g.1.2 + 1 + k) mod e_size c)%nat (rr_arr g.1.2) 0%num in
  dsfmt_vec c s = dsfmt_vec c t <-> [/\ forall k, (k < e_size c)%N -> word s k = word t k, ds_lung s = ds_lung t &
    e_weight c <> 2%coqZ -> hi64 (ds_prev s) = hi64 (ds_prev t)].
Proof. exact dsfmt_state. Qed.
Theorem C65_isZero : forall c, dsc_ok c -> e_weight c = 2%coqZ -> forall s, dsfmt_ok c s -> ds_isZero s = true <-> dsfmt_vec c s = 0.
Proof. by move=> c Hc w2 s; exact: dsfmt_isZero. Qed.
Theorem C65_invertible : forall c, dsc_ok c -> e_weight c = 2%coqZ -> dsfmt_A c \in unitmx.
Proof. by move=> c Hc w2; exact: dsfmt_unit. Qed.
Theorem C65_not_invertible : forall c, dsc_ok c -> e_weight c <> 2%coqZ -> dsfmt_A c \notin unitmx.
Proof. by move=> c Hc w2; exact: dsfmt_sing. Qed.
Theorem C65_seed : forall c v s l, dsc_ok c -> (v < 2 ^ 128)%num -> dsfmt_ok c (ds_seed v ((c, s), l)).
Proof. by move=> c v s l Hc Hv; exact: ds_seed_ok. Qed.
Theorem C65_new : forall q, dsp_ok q -> (232 <= d_mexp q)%coqZ -> (0 <= d_pos1 q)%coqZ ->
  let g := ds_new q in dsc_ok g.1.1 /\ dsfmt_ok g.1.1 g.
Proof. exact ds_new_ok. Qed.

(** The array is the shortest whose 104-bit words and lung exceed the exponent. *)
Theorem C65_size : forall q mexp junk, (128 <= d_mexp q)%coqZ -> (128 <= mexp)%coqZ ->
  (Z.of_nat (e_size (ds_new q).1.1 * 104) + 24 <= d_mexp q < Z.of_nat (e_size (ds_new q).1.1 * 104) + 128)%coqZ /\
  (Z.of_nat (e_size (ds_new_mexp mexp junk).1.1 * 104) + 24 <= mexp < Z.of_nat (e_size (ds_new_mexp mexp junk).1.1 * 104) + 128)%coqZ /\
  d_mexp (e_par (ds_new_mexp mexp junk).1.1) = mexp /\ e_par (ds_new q).1.1 = q.
Proof.
have K m : (128 <= m)%coqZ -> (Z.of_nat (ds_words m * 104) + 24 <= m < Z.of_nat (ds_words m * 104) + 128)%coqZ.
  move=> Hm. rewrite /ds_words Z.quot_div_nonneg; move: Hm; clear; lia.
by move=> q mexp junk H1 H2; split; [exact: K|split; [exact: K|]].
Qed.

(** The parameters of dSFMT521. *)
Definition ds_exp : dsp := DSP 521 3 25 0x000fbfefff77efff 0x000ffeebfbdfbfdf 0xc166867883ae2adbcfb393d661638469 0x1ccaa588000000000.
Definition ds_exc (st wt : Z) : dsc := DSC ds_exp 4 st wt 0 false 0.
Definition ds_ex (st wt : Z) : dsfmt := ds_seed 1234 ((ds_exc st wt, RR 0 nil), (0, 0)%num).
Lemma ds_exc_ok st wt : dsc_ok (ds_exc st wt).
Proof. by split=> //; split. Qed.
Lemma ds_ex_ok st wt : dsc_ok (ds_exc st wt) /\ dsfmt_ok (ds_exc st wt) (ds_ex st wt).
Proof. by split; [exact: ds_exc_ok|apply: ds_seed_ok => //; exact: ds_exc_ok]. Qed.
(** In weight mode 1 isZero tests the wrong word of the block before: it holds of
    states that are not zero, and fails for states that are. *)
Definition ds_block (q : N) : dsfmt := ((ds_exc 0 1, RR 0 (List.repeat 0%num 4)), (0%num, q)).
Lemma ds_block_ok q : w52 q -> dsfmt_ok (ds_exc 0 1) (ds_block q).
Proof.
move=> Hq. split; [by []|exact: (@zero_rr (ds_exc 0 1) 0)|exact: (zero52 (ds_exc 0 1))|by []|exact: Hq].
Qed.
Theorem C65_isZero_refuted : exists c s t, [/\ dsc_ok c, dsfmt_ok c s /\ dsfmt_ok c t,
  ds_isZero s = true /\ dsfmt_vec c s <> 0 & ds_isZero t = false /\ dsfmt_vec c t = 0].
Proof.
have H1 : w52 (join 0 1) by []. have H2 : w52 (join (2 ^ 32) 0) by []. have Hc := ds_exc_ok 0 1.
exists (ds_exc 0 1), (ds_block (join 0 1)), (ds_block (join (2 ^ 32) 0)); split=> //; [by split; exact: ds_block_ok| |]; split=> //.
- move/(dsfmt_zero Hc (ds_block_ok H1)) => [_ _ K]. by have := K (fun e => ltac:(by [])).
- apply/(dsfmt_zero Hc (ds_block_ok H2)); split=> // k Hk. by rewrite /ArrayWin.win MtdcLin.nth_repeat0.
Qed.
Example C65_case : dsc_ok (ds_exc 1 1) /\ dsfmt_ok (ds_exc 1 1) (ds_ex 1 1) /\ e_weight (ds_exc 1 1) <> 2%coqZ /\
  e_weight (ds_exc 0 2) = 2%coqZ /\ ds_isZero (ds_ex 0 2) = false /\ ds_words 521 = 4%N /\
  ds_new ds_exp = ((ds_exc 0 2, RR 0 (List.repeat 0%num 4)), (0, 0)%num).
Proof. have [H1 H2] := ds_ex_ok 1 1. split; first exact: H1. split; first exact: H2. by vm_compute. Qed.

(** C66: the sequence.  W (0), W (1), ... are the 128-bit words of the array, from
    the oldest, continued by the recursion, U (k) the lungs; Y is the sequence of
    their 64-bit halves.  Call j returns two words of Y from the position of the
    start mode on, in weight mode 1 the second from one block earlier. *)
Theorem C66_sequence : forall c, dsc_ok c -> forall s, dsfmt_ok c s -> exists W U : nat -> N,
  let p := e_par c in let size := e_size c in
  let Y q := half (Nat.modulo q 2) (W (Nat.div q 2)) in
  [/\ forall k, (lo64 (W k) < 2 ^ 52)%num /\ (hi64 (W k) < 2 ^ 52)%num,
      U 0%N = ds_lung s /\ forall k, (k < size)%N -> W k = List.nth ((rr_idx s.1.2 + 1 + k) mod size)%nat (rr_arr s.1.2) 0%num,
      forall k, U k.+1 = dlung p (W k) (W (k + Nat.modulo (Z.to_nat (d_pos1 p)) size)%N) (U k),
      forall k, W (k + size)%N = dnew p (W k) (U k.+1) &
      forall j i, e_weight c = 2%coqZ \/ (0 < j)%N -> (i < 2)%N ->
        half i (g_generate ds_ops (run ds_ops j s)).1 =
        Y (2 * (j + size - 1) + ds_phase (e_start c) + i - (if (i < ds_words2 (e_weight c))%N then 0 else 2))%N].
Proof.
move=> c Hc s Hs. exists (ds_W c s), (ds_U c s); split.
- by move=> k; exact: (ds_W_52 Hc k Hs).
- split=> // k Hk. by rewrite -[ds_W c s k]/(ds_W c s (0 + k)) -(ds_it_win Hc).
- by move=> k; exact: (ds_U_rec Hc k Hs).
- by move=> k; exact: (ds_W_rec Hc k Hs).
- by move=> j i Hj Hi; exact: (ds_blocks Hc Hs Hj Hi).
Qed.
(** setStartMode and setWeightMode keep the array, the lung, the parameters and the
    number of words, and setWeightMode clears the block before: in weight mode 1 the
    upper half of the next output is zero. *)
Theorem C66_modes : forall c, dsc_ok c -> forall s, dsfmt_ok c s -> forall sm wm,
  let s' := ds_setStart sm (ds_setWeight wm s) in
  [/\ s'.1.2 = s.1.2 /\ ds_lung s' = ds_lung s, e_par s'.1.1 = e_par c /\ e_prefix s'.1.1 = e_prefix c, e_size s'.1.1 = e_size c,
      e_start s'.1.1 = sm /\ e_weight s'.1.1 = wm & wm = 1%coqZ -> hi64 (g_generate ds_ops s').1 = 0%num].
Proof.
move=> c Hc s Hs sm wm s'.
pose c' := DSC (e_par c) (e_size c) sm wm (e_prefix c) (e_fixed c) (e_fixedSL1 c).
have Es : s' = ((c', s.1.2), (s.2.1, 0%num)).
  by rewrite /s' /c'; case: s Hs {s'} => [[c1 r] [l q]] [/= -> *].
split; try by rewrite Es.
move=> w1. have Hc' : dsc_ok c' by case: Hc => *; split.
have Hs' : dsfmt_ok (c') s' by rewrite Es; case: Hs => *; split.
cbn [g_generate ds_ops]. rewrite (ds_generateE Hc' Hs'). cbn [ds_run fst].
have Ew : e_weight c' = 1%coqZ := w1. rewrite /vO Ew. cbn [wt2 Z.eqb Pos.eqb]. set r := vR _ _.
have -> : ds_view c' s' (e_size c').+1 = 0%num.
  rewrite /ds_view Ew ltnNge leqnSn. cbn [negb]. rewrite (_ : _.+1 == _ = false) ?Es //. by apply/eqP; clear; lia.
apply: hi_join. exact: lo64_lt.
Qed.
(** The recursion, bit by bit: bit i of half h. *)
Theorem C66_recursion : forall p a b L i h, (b < 2 ^ 128)%num -> (L < 2 ^ 128)%num -> (h < 2)%N -> (i < 64)%num ->
  let bit x k := N.testbit x (Z.to_N k) in
  let j := (64 * Z.of_nat h + Z.of_N i)%coqZ in
  let l := dlung p a b L in
  (bit l j = xorb (xorb ((d_sl1 p <=? Z.of_N i)%coqZ && bit a (j - Z.max 0 (d_sl1 p))%coqZ)
       (bit L (64 * (1 - Z.of_nat h) + (Z.of_N i + 32) mod 64)%coqZ)) (bit b j)) /\
  (bit (dnew p a l) j = xorb (xorb ((i <? 52)%num && bit l (j + 12)%coqZ) (bit l j && N.testbit (if h is 0%N then d_msk1 p else d_msk2 p) i)) (bit a j)).
Proof. exact drec_bits. Qed.
Example C66_case : let s := ds_ex 1 1 in dsc_ok (ds_exc 1 1) /\ dsfmt_ok (ds_exc 1 1) s /\
  half 1 (g_generate ds_ops (run ds_ops 1 s)).1 <> half 1 (g_generate ds_ops (run ds_ops 2 s)).1.
Proof. have [H1 H2] := ds_ex_ok 1 1. split; first exact: H1. split; first exact: H2. by vm_compute. Qed.

(** C67: setOneBit(i) sets bit i of the state and no other; setUpParam. *)
Theorem C67_setOneBit : forall c, dsc_ok c -> forall g i, dsfmt_ok c g -> (i < e_size c * 104 + 128)%N ->
  exists g', [/\ ds_setOneBit i g = Ret g', dsfmt_ok c g',
    (forall j, (j < e_size c * 104 + 128)%N -> ds_bit c g' j = (j == i)), ds_prev g' = 0%num & rr_idx g'.1.2 = 0%N].
Proof. exact ds_setOneBit_ok. Qed.
Theorem C67_unit_vector : forall c, dsc_ok c -> forall g i, dsfmt_ok c g -> (i < e_size c * 104 + 128)%N ->
  exists g', [/\ ds_setOneBit i g = Ret g', dsfmt_ok c g' & exists j : 'I_(dn c), dsfmt_vec c g' = delta_mx 0 j].
Proof.
move=> c Hc g i Hg Hi. have [g' [H1 H2 H3]] := ds_setOneBit_vec Hc Hg Hi. exists g'; split=> //.
have L : (ds_idx c i < dn c)%N by apply: leq_trans (ds_idx_lt Hc Hi) _; rewrite /dn leq_addr.
exists (Ordinal L). rewrite H3. apply/rowP => j. rewrite !mxE eqxx. congr (nat_of_bool _)%:R.
Qed.
Theorem C67_setUpParam : forall (u : nat -> N) g, (forall i, (u i < 2 ^ 64)%num) -> (3 <= e_size g.1.1)%N -> (N.of_nat (e_size g.1.1) < 2 ^ 31)%num ->
  e_prefix g.1.1 = 0%num -> (e_fixed g.1.1 -> (0 <= e_fixedSL1 g.1.1 < 64)%coqZ) ->
  exists g', [/\ ds_setUpParam u g = Ret g', dsc_ok g'.1.1 & (1 <= d_pos1 (e_par g'.1.1) <= Z.of_nat (e_size g.1.1) - 2)%coqZ] /\
    [/\ e_size g'.1.1 = e_size g.1.1, d_mexp (e_par g'.1.1) = d_mexp (e_par g.1.1), e_weight g'.1.1 = e_weight g.1.1 &
        e_start g'.1.1 = e_start g.1.1 /\ (g'.1.2, g'.2) = (g.1.2, g.2)] /\
    (if e_fixed g.1.1 then d_sl1 (e_par g'.1.1) = e_fixedSL1 g.1.1 else (1 <= d_sl1 (e_par g'.1.1) <= 51)%coqZ).
Proof. exact ds_setUp_ok. Qed.
Theorem C67_two_words : forall (u : nat -> N) g, e_size g.1.1 = 2%N -> ds_setUpParam u g = Undef.
Proof. exact ds_setUp_2. Qed.
Example C67_case : let g := ds_new_mexp 521 (List.repeat 0%num 4) in (3 <= e_size g.1.1)%N /\ (N.of_nat (e_size g.1.1) < 2 ^ 31)%num /\
  e_prefix g.1.1 = 0%num /\ e_size (ds_new_mexp 300 (List.repeat 0%num 2)).1.1 = 2%N /\
  match ds_setOneBit (104 + 60) (ds_ex 0 2) with Ret g => List.nth 1 (rr_arr g.1.2) 0%num = (2 ^ 72)%num | _ => False end.
Proof. by vm_compute. Qed.

(** C31 for dSFMT: searchParity always returns a certificate, if sl1 > 0. *)
Theorem C31_dsfmt_contract : forall c, dsc_ok c -> e_weight c = 2%coqZ -> (0 < d_sl1 (e_par c))%coqZ ->
  parity_gen ds_ops ds_par_ops (dsfmt_ok c) (dsfmt_vec c) (e_size c * 104 + 128) (ds_e c) (ds_Q c) /\ observable (dsfmt_A c) (ds_Q c) 128.
Proof. by move=> c Hc w2 s0; split; [exact: ds_parity_gen|exact: ds_observable]. Qed.
Theorem C31_dsfmt : forall c pos kernel f d junk fuel g, dsc_ok c -> e_weight c = 2%coqZ -> (0 < d_sl1 (e_par c))%coqZ ->
  pos_spec 128 pos -> kernel_spec kernel ->
  irreducible_poly f -> size f = d.+1 -> f %| char_poly (dsfmt_A c) -> ~~ (f ^+ 2 %| char_poly (dsfmt_A c)) ->
  d_mexp (e_par c) = Z.of_nat d -> (e_size c * 104 + 128 < d + 128)%N -> (e_size c * 104 + 128 <= fuel)%N -> dsfmt_ok c g ->
  exists v, [/\ searchParity ds_ops ds_par_ops pos kernel (Some junk) fuel g f = Ret (v, ds_setParity v g), (0 < v < 2 ^ 128)%num &
    forall s, dsfmt_ok c s -> ParitySpec.inner 128 v (ds_getParity s) = 1 ->
      dsfmt_vec c s *m poly_mx (dsfmt_A c) (char_poly (dsfmt_A c) %/ f) != 0 /\
      (primitive f d -> forall k, dsfmt_vec c (run ds_ops k s) = dsfmt_vec c s -> 2 ^ d - 1 %| k)%N].
Proof.
move=> c pos kernel f d junk fuel g H1 H2 H3 H4 H5 H6 H7 H8 H9 H10 H11 H12 H13.
exact: (ds_search H1 H2 H3 H4 H5 H6 H7 H8 H9 junk H10 H11 H12 H13).
Qed.
Example C31_dsfmt_case : let c := ds_exc 0 2 in dsc_ok c /\ dsfmt_ok c (ds_ex 0 2) /\ e_weight c = 2%coqZ /\
  (0 < d_sl1 (e_par c))%coqZ /\ d_mexp (e_par c) = Z.of_nat 521 /\ (e_size c * 104 + 128 < 521 + 128)%N.
Proof. have [H1 H2] := ds_ex_ok 0 2. split; first exact: H1. split; first exact: H2. by vm_compute. Qed.

(** C68: the object in use, with the prefix 0x3ff: every half of every word is a
    double in [1, 2), and stays so; without the prefix the state moves by the
    linear map plus the state of setConst. *)
Theorem C68_doubles : forall c, dsc_ok c -> e_weight c = 2%coqZ -> forall s, ds_live c s ->
  exists x s', [/\ ds_generate s = Ret (x, s'), two_doubles x & ds_live c s'].
Proof.
move=> c Hc w2 s /live_real Hs. have [x [E R H _]] := real_generate Hc w2 Hs.
exists x, (real_next c s); split=> //; [exact/two_real|exact/live_real].
Qed.
Theorem C68_affine : forall c, dsc_ok c -> e_weight c = 2%coqZ -> forall g, dsfmt_ok c g ->
  exists cst, [/\ ds_setConst g = Ret cst, dsfmt_ok c cst & forall s, ds_live c s ->
    match ds_generate s with
    | Ret (_, s') => dsfmt_vec c (strip c s') = dsfmt_vec c (strip c s) *m dsfmt_A c + dsfmt_vec c cst
    | _ => False
    end].
Proof.
move=> c Hc w2 g Hg. have [cst [E H _]] := ds_setConst_ok Hc w2 Hg. exists cst; split=> // s /live_real Hs.
have [x [-> _ _ _]] := real_generate Hc w2 Hs. exact: (real_affine Hc w2 Hs Hg E).
Qed.
Theorem C68_seed : forall c v s l, dsc_ok c -> (v < 2 ^ 128)%num -> ds_live c (ds_seed v ((with_prefix 0x3ff0000000000000 c, s), l)).
Proof. exact ds_seed_live. Qed.
Definition ds_liv : dsfmt := ds_seed 1234 ((with_prefix 0x3ff0000000000000 (ds_exc 0 2), RR 0 nil), (0, 0)%num).
Example C68_case : ds_live (ds_exc 0 2) ds_liv /\ List.nth 0 (rr_arr ds_liv.1.2) 0%num <> List.nth 1 (rr_arr ds_liv.1.2) 0%num.
Proof. split; [by apply: ds_seed_live => //; exact: ds_exc_ok|by vm_compute]. Qed.

(** C69: calc_fixpoint returns the lung of the fixed point of the component of f,
    which is unique; it throws if there is none. *)
Theorem C69_fixpoint : forall c XGCD f q g cst, dsc_ok c -> e_weight c = 2%coqZ -> xgcd_spec XGCD -> dsfmt_ok c g ->
  coprimep f q -> coprimep f ('X + 1) -> ds_setConst g = Ret cst -> dsfmt_vec c cst *m poly_mx (dsfmt_A c) (f * q) = 0 ->
  exists F, [/\ calc_fixpoint XGCD g f q = Ret (ds_getParity F), dsfmt_ok c F,
    is_fixpoint (dsfmt_A c) (dsfmt_vec c cst) f q (dsfmt_vec c F) &
    forall y, is_fixpoint (dsfmt_A c) (dsfmt_vec c cst) f q y -> y = dsfmt_vec c F].
Proof.
move=> c XGCD f q g cst Hc w2 HX Hg c1 c2 E K. have [F [E1 O1 I1]] := ds_fix_ok Hc w2 HX Hg c1 c2 E K.
exists F; split=> // y Hy. exact: (fix_unique c1 c2 Hy I1).
Qed.
Theorem C69_throws : forall c XGCD f q g, dsc_ok c -> e_weight c = 2%coqZ -> xgcd_spec XGCD -> dsfmt_ok c g ->
  ~~ coprimep f q \/ ~~ coprimep f ('X + 1) -> calc_fixpoint XGCD g f q = Throw.
Proof. by move=> c XGCD f q g Hc w2 HX Hg H; exact: (ds_fix_throw Hc w2 HX Hg H). Qed.
(** The search program: fixed point, parity vector, and then, for every state of
    the object in use after periodCertification, a period that is a multiple of
    2^mexp - 1. *)
Theorem C69_certified_period : forall c XGCD pos kernel f q d junk fuel g, dsc_ok c -> e_weight c = 2%coqZ -> (0 < d_sl1 (e_par c))%coqZ ->
  xgcd_spec XGCD -> pos_spec 128 pos -> kernel_spec kernel ->
  irreducible_poly f -> size f = d.+1 -> f %| char_poly (dsfmt_A c) -> ~~ (f ^+ 2 %| char_poly (dsfmt_A c)) ->
  d_mexp (e_par c) = Z.of_nat d -> (e_size c * 104 < d)%N -> coprimep f q ->
  (dn c <= fuel)%N -> dsfmt_ok c g ->
  exists fx v, [/\ calc_fixpoint XGCD g f q = Ret fx,
    searchParity ds_ops ds_par_ops pos kernel (Some junk) fuel (ds_setFixPoint fx g) f = Ret (v, ds_setParity v (ds_setFixPoint fx g)),
    (ds_setParity v (ds_setFixPoint fx g)).1.1 = with_cert fx v c /\ (fx < 2 ^ 128)%num /\ (0 < v < 2 ^ 128)%num &
    primitive f d -> forall s, ds_live (with_cert fx v c) s ->
      let s' := (ds_periodCertification false s).2 in
      [/\ ds_live (with_cert fx v c) s', s'.1 = s.1 & forall k, exists2 t, ds_steps k s' = Ret t & (ds_equals s' t -> 2 ^ d - 1 %| k)%N]].
Proof.
move=> c XGCD pos kernel f q d junk fuel g H1 H2 H3 H4 H5 H6 H7 H8 H9 H10 H11 H12 H13 H14 H15.
have [cst [H16 _ _]] := ds_setConst_ok H1 H2 H15.
exact: (ds_certified H1 H2 H3 H4 H5 H6 H7 H8 H9 H10 H11 H12 H13 junk H14 H15 H16).
Qed.
(** The quotient of the characteristic polynomial will do. *)
Theorem C69_quotient : forall c f cst, irreducible_poly f -> f %| char_poly (dsfmt_A c) -> ~~ (f ^+ 2 %| char_poly (dsfmt_A c)) ->
  let q := char_poly (dsfmt_A c) %/ f in coprimep f q /\ dsfmt_vec c cst *m poly_mx (dsfmt_A c) (f * q) = 0.
Proof. exact ds_quotient. Qed.
Example C69_case : let c := ds_exc 0 2 in dsc_ok c /\ dsfmt_ok c (ds_ex 0 2) /\ e_weight c = 2%coqZ /\ (0 < d_sl1 (e_par c))%coqZ /\
  d_mexp (e_par c) = Z.of_nat 521 /\ (e_size c * 104 < 521)%N /\
  match ds_setConst (ds_ex 0 2) with Ret g => ds_isZero g = false | _ => False end /\ ds_live (with_cert 1 1 c) (((with_prefix ds_high (with_cert 1 1 c), ds_liv.1.2), ds_liv.2)).
Proof.
have [H1 H2] := ds_ex_ok 0 2. split; first exact: H1. split; first exact: H2. do 5 (split; first by vm_compute).
by have [_ Q1 Q2 Q3] := proj1 C68_case.
Qed.


Print Assumptions C65_linear.
Print Assumptions C65_output.
Print Assumptions C65_dimension.
Print Assumptions C65_defined.
Print Assumptions C65_state.
Print Assumptions C65_isZero.
Print Assumptions C65_invertible.
Print Assumptions C65_not_invertible.
Print Assumptions C65_seed.
Print Assumptions C65_new.
Print Assumptions C65_size.
Print Assumptions C65_isZero_refuted.
Print Assumptions C66_sequence.
Print Assumptions C66_modes.
Print Assumptions C66_recursion.
Print Assumptions C67_setOneBit.
Print Assumptions C67_unit_vector.
Print Assumptions C67_setUpParam.
Print Assumptions C67_two_words.
Print Assumptions C31_dsfmt_contract.
Print Assumptions C31_dsfmt.
Print Assumptions C68_doubles.
Print Assumptions C68_affine.
Print Assumptions C68_seed.
Print Assumptions C69_fixpoint.
Print Assumptions C69_throws.
Print Assumptions C69_certified_period.
Print Assumptions C69_quotient.
