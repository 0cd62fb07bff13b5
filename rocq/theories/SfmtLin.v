(** The class sfmt meets the contract of the toolbox in every start mode and
    weight mode. *)
From Coq Require Import NArith ZArith Lia Bool List.
From mathcomp Require Import all_ssreflect all_algebra.
From mathcomp Require Import zify.
From Verif Require Import Base WordLemmas WordVec UtilModel UtilProofs GenModel LinSpec LinLemmas LinInst LinOut PeriodSpec XorshiftProofs TinyLin
  ArrayModel ArrayWin ArrayLin ArrayOut MtdcLin RmtLin DelayLin W128Model W128Spec W128Proofs W128Cert SfmtModel.
Set Implicit Arguments.
Unset Strict Implicit.
Unset Printing Implicit Defensive.
Local Open Scope N_scope.
Delimit Scope Z_scope with coqZ.

Lemma w_of_ok x : x < 2 ^ 128 -> wok (w_of x) /\ wval (w_of x) = x.
Proof.
move=> Hx. split; first split.
- exact: trunc_lt.
- apply: lt_pow2_bits => i Hi. cbn [u1 w_of]. rewrite wshr_spec. apply: (bits_above 128) => //. lia.
- rewrite /wval /w_of; cbn [u0 u1]. apply: N.bits_inj => i. rewrite cat_spec; last exact: trunc_lt.
  rewrite trunc_spec wshr_spec. case: N.ltb_spec => // L. congr N.testbit. lia.
Qed.
Lemma w_of_val x : wok x -> w_of (wval x) = x.
Proof.
move=> Hx. have [H1 H2] := w_of_ok (wval_lt _ Hx). exact: (wval_inj _ _ H1 Hx H2).
Qed.
Lemma of32_eq r0 r1 r2 r3 Y : r0 < 2 ^ 32 -> r1 < 2 ^ 32 -> r2 < 2 ^ 32 -> r3 < 2 ^ 32 -> Y < 2 ^ 128 ->
  (forall j, j < 32 -> N.testbit r0 j = N.testbit Y j) ->
  (forall j, j < 32 -> N.testbit r1 j = N.testbit Y (32 + j)) ->
  (forall j, j < 32 -> N.testbit r2 j = N.testbit Y (64 + j)) ->
  (forall j, j < 32 -> N.testbit r3 j = N.testbit Y (96 + j)) -> wval (w_of32 r0 r1 r2 r3) = Y.
Proof.
move=> L0 L1 L2 L3 LY H0 H1 H2 H3. have [_ B] := of32_ok _ _ _ _ L0 L1 L2 L3.
apply: N.bits_inj => i. rewrite B. case: N.ltb_spec => A0; first by rewrite H0.
case: N.ltb_spec => A1; first by rewrite H1; [congr N.testbit|]; lia.
case: N.ltb_spec => A2; first by rewrite H2; [congr N.testbit|]; lia.
case: (N.ltb_spec i 128) => A3; first by rewrite H3; [congr N.testbit|]; lia.
rewrite (bits_above 128 Y) // (bits_above 32 r3) //. lia.
Qed.

(** Shifts of the four 32-bit words of a 128-bit word. *)
Definition sh32r (k : N) (x : N) : N :=
  mkw 128 (fun i => (N.of_nat i mod 32 + k <? 32) && N.testbit x (N.of_nat i + k)).
Definition sh32l (k : N) (x : N) : N :=
  mkw 128 (fun i => (k <=? N.of_nat i mod 32) && N.testbit x (N.of_nat i - k)).
Lemma mk128_bit f i : i < 128 -> N.testbit (mkw 128 f) i = f (N.to_nat i).
Proof. move=> Hi. rewrite -{1}(N2Nat.id i) mkw_bit. by have -> : (N.to_nat i <? 128)%nat = true by lia. Qed.
Lemma sh32r_bit k x i : i < 128 -> N.testbit (sh32r k x) i = (i mod 32 + k <? 32) && N.testbit x (i + k).
Proof. by move=> Hi; rewrite /sh32r mk128_bit // N2Nat.id. Qed.
Lemma sh32l_bit k x i : i < 128 -> N.testbit (sh32l k x) i = (k <=? i mod 32) && N.testbit x (i - k).
Proof. by move=> Hi; rewrite /sh32l mk128_bit // N2Nat.id. Qed.
Lemma sh32r_lt k x : sh32r k x < 2 ^ 128.
Proof. exact: (mkw_lt 128). Qed.
Lemma sh32l_lt k x : sh32l k x < 2 ^ 128.
Proof. exact: (mkw_lt 128). Qed.
Lemma sh32r_add k x y : sh32r k (N.lxor x y) = N.lxor (sh32r k x) (sh32r k y).
Proof.
apply: (@word_ext 128); [exact: sh32r_lt|by apply: lxor_lt; exact: sh32r_lt|] => i Hi.
rewrite N.lxor_spec !sh32r_bit // N.lxor_spec. by case: (_ <? _).
Qed.
Lemma sh32l_add k x y : sh32l k (N.lxor x y) = N.lxor (sh32l k x) (sh32l k y).
Proof.
apply: (@word_ext 128); [exact: sh32l_lt|by apply: lxor_lt; exact: sh32l_lt|] => i Hi.
rewrite N.lxor_spec !sh32l_bit // N.lxor_spec. by case: (_ <=? _).
Qed.

(** The new word as a number. *)
Definition sf_msk (p : sfp) : N := wval (w_of32 (f_msk1 p) (f_msk2 p) (f_msk3 p) (f_msk4 p)).
Definition frec (p : sfp) (a b c d : N) : N :=
  N.lxor (N.lxor (N.lxor (N.lxor a (wshl 128 a (8 * Z.to_N (f_sl2 p)))) (N.land (sh32r (Z.to_N (f_sr1 p)) b) (sf_msk p)))
    (wshr c (8 * Z.to_N (f_sr2 p)))) (sh32l (Z.to_N (f_sl1 p)) d).
(** Legal parameters. *)
Record sfp_ok (p : sfp) : Prop := {
  so_sl1 : (0 <= f_sl1 p < 32)%coqZ; so_sl2 : (1 <= f_sl2 p <= 7)%coqZ;
  so_sr1 : (0 <= f_sr1 p < 32)%coqZ; so_sr2 : (1 <= f_sr2 p <= 7)%coqZ;
  so_m1 : f_msk1 p < 2 ^ 32; so_m2 : f_msk2 p < 2 ^ 32; so_m3 : f_msk3 p < 2 ^ 32; so_m4 : f_msk4 p < 2 ^ 32 }.
Lemma frec_lt p a b c d : sfp_ok p -> a < 2 ^ 128 -> c < 2 ^ 128 -> frec p a b c d < 2 ^ 128.
Proof.
move=> _ Ha Hc. rewrite /frec. apply: (lxor_lt 128); last exact: sh32l_lt.
apply: (lxor_lt 128); last exact: shiftr_lt. apply: (lxor_lt 128); last by apply: (land_lt 128); exact: sh32r_lt.
apply: (lxor_lt 128) => //. exact: wshl_lt.
Qed.
Lemma frec_add p a b c d a' b' c' d' :
  frec p (N.lxor a a') (N.lxor b b') (N.lxor c c') (N.lxor d d') = N.lxor (frec p a b c d) (frec p a' b' c' d').
Proof.
rewrite /frec wshl_lin wshr_lin sh32r_add sh32l_add land_lin.
by rewrite (lxor_swap a) (lxor_swap (N.lxor a _)) (lxor_swap (N.lxor (N.lxor a _) _)) lxor_swap.
Qed.
Lemma w32_lt' x i : wok x -> w32 x i < 2 ^ 32.
Proof. exact: w32_lt. Qed.
Lemma recursionE p a b c d : sfp_ok p -> a < 2 ^ 128 -> b < 2 ^ 128 -> c < 2 ^ 128 -> d < 2 ^ 128 ->
  sf_recursion p a b c d = Ret (frec p a b c d).
Proof.
move=> Hp Ha Hb Hc Hd. have [P1 P2 P3 P4 M1 M2 M3 M4] := Hp.
have [Wa Va] := w_of_ok Ha; have [Wb Vb] := w_of_ok Hb; have [Wc Vc] := w_of_ok Hc; have [Wd Vd] := w_of_ok Hd.
have [x [Ex [Wx Vx]]] := lshift128_ok _ _ Wa P2. have [y [Ey [Wy Vy]]] := rshift128_ok _ _ Wc P4.
have BX i : i < 128 -> N.testbit (wval x) i = N.testbit (wshl 128 a (8 * Z.to_N (f_sl2 p))) i.
  by move=> Hi; rewrite Vx Va /wshl /trunc N.shiftl_mul_pow2.
have BY i : N.testbit (wval y) i = N.testbit (wshr c (8 * Z.to_N (f_sr2 p))) i.
  by rewrite Vy Vc /wshr N.shiftr_div_pow2.
have SR z : shr32 z (f_sr1 p) = Ret (wshr z (Z.to_N (f_sr1 p))).
  rewrite /shr32. by have -> : ((0 <=? f_sr1 p) && (f_sr1 p <? 32))%coqZ by lia.
have SL z : shl32 z (f_sl1 p) = Ret (wshl 32 z (Z.to_N (f_sl1 p))).
  rewrite /shl32. by have -> : ((0 <=? f_sl1 p) && (f_sl1 p <? 32))%coqZ by lia.
rewrite /sf_recursion Ex Ey. cbn [bind]. rewrite /sf_word !SR !SL. cbn [bind]. congr Ret.
have [WM BM] := of32_ok _ _ _ _ M1 M2 M3 M4.
pose rk k msk := N.lxor (N.lxor (N.lxor (N.lxor (w32 (w_of a) k) (w32 x k)) (N.land (wshr (w32 (w_of b) k) (Z.to_N (f_sr1 p))) msk)) (w32 y k))
   (wshl 32 (w32 (w_of d) k) (Z.to_N (f_sl1 p))).
have RL k msk : rk k msk < 2 ^ 32.
  rewrite /rk. apply: (lxor_lt 32); last exact: wshl_lt. apply: (lxor_lt 32); last exact: w32_lt.
  apply: (lxor_lt 32); last by apply: (land_lt 32); apply: shiftr_lt; exact: w32_lt. by apply: (lxor_lt 32); exact: w32_lt.
have RB k msk j : (k < 4)%N -> j < 32 -> (N.testbit msk j = N.testbit (sf_msk p) (32 * N.of_nat k + j)) ->
    N.testbit (rk k msk) j = N.testbit (frec p a b c d) (32 * N.of_nat k + j).
  move=> Hk Hj Hm. set i := 32 * N.of_nat k + j. have Hi : i < 128 by lia.
  have Mi : i mod 32 = j by rewrite /i N.add_comm N.mul_comm N.mod_add // N.mod_small.
  have Hk' : (k < 4)%coq_nat by lia.
  rewrite /rk /frec !N.lxor_spec !N.land_spec sh32r_bit // sh32l_bit // Mi -BX // -BY -Hm.
  rewrite !w32_bit // wshr_spec wshl_spec !w32_bit // Va Vb Vd.
  have -> : (j <? 32) = true by lia. rewrite -/i. cbn [andb].
  congr xorb; [congr xorb; congr xorb|].
  - congr andb. case: N.ltb_spec => // L. cbn [andb]. congr N.testbit. lia.
  - case: N.leb_spec => // L. cbn [andb]. have -> : (j - Z.to_N (f_sl1 p) <? 32) = true by lia. congr N.testbit. lia.
apply: of32_eq; try exact: RL.
- exact: frec_lt.
- move=> j Hj. apply: (RB 0%N) => //. rewrite /sf_msk BM. have -> : (32 * N.of_nat 0 + j <? 32) by lia. by [].
- move=> j Hj. apply: (RB 1%N) => //. rewrite /sf_msk BM. have -> : (32 * N.of_nat 1 + j <? 32) = false by lia.
  have -> : (32 * N.of_nat 1 + j <? 64) by lia. congr N.testbit; lia.
- move=> j Hj. apply: (RB 2%N) => //. rewrite /sf_msk BM. have -> : (32 * N.of_nat 2 + j <? 32) = false by lia.
  have -> : (32 * N.of_nat 2 + j <? 64) = false by lia. have -> : (32 * N.of_nat 2 + j <? 96) by lia. congr N.testbit; lia.
- move=> j Hj. apply: (RB 3%N) => //. rewrite /sf_msk BM. have -> : (32 * N.of_nat 3 + j <? 32) = false by lia.
  have -> : (32 * N.of_nat 3 + j <? 64) = false by lia. have -> : (32 * N.of_nat 3 + j <? 96) = false by lia. congr N.testbit; lia.
Qed.

Lemma top_mask128 v : (1 <= v <= 128)%coqZ -> wshl 128 (wnot 128 0) (128 - Z.to_N v) = 2 ^ 128 - 2 ^ (128 - Z.to_N v).
Proof.
move=> Hv. have Hk : 128 - Z.to_N v < 128 by lia. move: (128 - Z.to_N v) Hk => k Hk.
rewrite /wshl /wnot N.lxor_0_l /trunc N.shiftl_mul_pow2 N.ones_equiv.
have P : 2 ^ k < 2 ^ 128 by apply: N.pow_lt_mono_r. have P0 := pow2_pos k.
symmetry. apply: (N.mod_unique _ _ (2 ^ k - 1)); first lia.
move: (2 ^ 128) (2 ^ k) P P0 => a b. clear. nia.
Qed.

(** The start modes: d is the number of bits of the block that come from the
    newest word. *)
Definition sm_bits (mode : Z) : N := match mode with 0%coqZ => 128 | 1%coqZ => 32 | 2%coqZ => 64 | _ => 96 end.
Definition startw (mode : Z) (p i : N) : N := wval (sf_start mode (w_of p) (w_of i)).
Lemma startw_ok mode p i : p < 2 ^ 128 -> i < 2 ^ 128 -> wok (sf_start mode (w_of p) (w_of i)).
Proof.
move=> Hp Hi. have [Wp Vp] := w_of_ok Hp; have [Wi Vi] := w_of_ok Hi.
have K a b c d x y z u : wok x -> wok y -> wok z -> wok u -> wok (w_of32 (w32 x a) (w32 y b) (w32 z c) (w32 u d)).
  by move=> X Y Z U; have [] := of32_ok _ _ _ _ (w32_lt x a X) (w32_lt y b Y) (w32_lt z c Z) (w32_lt u d U).
rewrite /sf_start. by case: mode => [|[[?|?|]|[?|?|]|]|?]; apply: K.
Qed.
Lemma startw_bit mode p i k : p < 2 ^ 128 -> i < 2 ^ 128 ->
  N.testbit (startw mode p i) k =
    if k <? 128 - sm_bits mode then N.testbit p (k + sm_bits mode)
    else if k <? 128 then N.testbit i (k - (128 - sm_bits mode)) else false.
Proof.
move=> Hp Hi. have W := startw_ok mode Hp Hi. have [Wp Vp] := w_of_ok Hp; have [Wi Vi] := w_of_ok Hi.
case: (N.ltb_spec k 128) => L; last first.
  have -> : (k <? 128 - sm_bits mode) = false by lia. apply: (bits_above 128) => //. exact: wval_lt.
rewrite /startw.
have K x a y b z c u d : wok x -> wok y -> wok z -> wok u -> (a < 4)%N -> (b < 4)%N -> (c < 4)%N -> (d < 4)%N ->
   N.testbit (wval (w_of32 (w32 x a) (w32 y b) (w32 z c) (w32 u d))) k =
    if k <? 32 then N.testbit (wval x) (32 * N.of_nat a + k) else if k <? 64 then N.testbit (wval y) (32 * N.of_nat b + (k - 32))
    else if k <? 96 then N.testbit (wval z) (32 * N.of_nat c + (k - 64)) else N.testbit (wval u) (32 * N.of_nat d + (k - 96)).
  move=> X Y Z U Ha Hb Hc Hd. have [_ ->] := of32_ok _ _ _ _ (w32_lt x a X) (w32_lt y b Y) (w32_lt z c Z) (w32_lt u d U).
  rewrite !w32_bit //; try lia.
  case: (N.ltb_spec k 32) => // K1. case: (N.ltb_spec k 64) => K2.
    by have -> : (k - 32 <? 32) by lia.
  case: (N.ltb_spec k 96) => K3; first by have -> : (k - 64 <? 32) by lia.
  by have -> : (k - 96 <? 32) by lia.
have Q x a b : a = b -> N.testbit x a = N.testbit x b by move=> ->.
rewrite /sf_start /sm_bits.
case: mode {W} => [|[[?|?|]|[?|?|]|]|?]; rewrite K // Vi ?Vp;
repeat (case: N.ltb_spec => ?); try (apply: Q; lia); lia.
Qed.
Lemma startw_add mode p i p' i' : p < 2 ^ 128 -> i < 2 ^ 128 -> p' < 2 ^ 128 -> i' < 2 ^ 128 ->
  startw mode (N.lxor p p') (N.lxor i i') = N.lxor (startw mode p i) (startw mode p' i').
Proof.
move=> H1 H2 H3 H4. have L1 := lxor_lt 128 _ _ H1 H3. have L2 := lxor_lt 128 _ _ H2 H4.
apply: N.bits_inj => k. rewrite N.lxor_spec !startw_bit // !N.lxor_spec. by case: (_ <? _) => //; case: (_ <? _).
Qed.
Lemma startw_lt mode p i : p < 2 ^ 128 -> i < 2 ^ 128 -> startw mode p i < 2 ^ 128.
Proof. by move=> H1 H2; apply: wval_lt; exact: startw_ok. Qed.

(** The weight modes: m bits come from the word before. *)
Definition wm_bits (mode : Z) : nat := match mode with 4%coqZ => 0 | 3%coqZ => 32 | 2%coqZ => 64 | _ => 96 end%N.
Lemma weightE mode r q : wok r -> wok q ->
  wok (sf_weight mode r q) /\ wval (sf_weight mode r q) = mixw 128 (wm_bits mode) (wval r) (wval q).
Proof.
move=> Wr Wq.
have K a b c d x y z u : wok x -> wok y -> wok z -> wok u -> wok (w_of32 (w32 x a) (w32 y b) (w32 z c) (w32 u d)).
  by move=> X Y Z U; have [] := of32_ok _ _ _ _ (w32_lt x a X) (w32_lt y b Y) (w32_lt z c Z) (w32_lt u d U).
have W : wok (sf_weight mode r q).
  rewrite /sf_weight. by case: mode => [|[[[?|?|]|[?|?|]|]|[[?|?|]|[[?|?|]|[?|?|]|]|]|]|?]; try exact: Wr; apply: K.
split=> //. apply: (@word_ext 128); [exact: wval_lt|by apply: (mixw_lt (w := 128)); exact: wval_lt|] => k L.
have K' x a y b z c u d : wok x -> wok y -> wok z -> wok u -> (a < 4)%N -> (b < 4)%N -> (c < 4)%N -> (d < 4)%N ->
   N.testbit (wval (w_of32 (w32 x a) (w32 y b) (w32 z c) (w32 u d))) k =
    if k <? 32 then N.testbit (wval x) (32 * N.of_nat a + k) else if k <? 64 then N.testbit (wval y) (32 * N.of_nat b + (k - 32))
    else if k <? 96 then N.testbit (wval z) (32 * N.of_nat c + (k - 64)) else N.testbit (wval u) (32 * N.of_nat d + (k - 96)).
  move=> X Y Z U Ha Hb Hc Hd. have [_ ->] := of32_ok _ _ _ _ (w32_lt x a X) (w32_lt y b Y) (w32_lt z c Z) (w32_lt u d U).
  rewrite !w32_bit //; try lia.
  case: (N.ltb_spec k 32) => // K1. case: (N.ltb_spec k 64) => K2.
    by have -> : (k - 32 <? 32) by lia.
  case: (N.ltb_spec k 96) => K3; first by have -> : (k - 64 <? 32) by lia.
  by have -> : (k - 96 <? 32) by lia.
have Q x a b : a = b -> N.testbit x a = N.testbit x b by move=> ->.
rewrite mixw_bit /sf_weight /wm_bits {W}.
case: mode => [|[[[?|?|]|[?|?|]|]|[[?|?|]|[[?|?|]|[?|?|]|]|]|]|?]; rewrite ?K' //;
repeat (case: N.ltb_spec => ?); try (apply: Q; lia); lia.
Qed.

Lemma sf_atE size a k : (0 < size)%N -> length a = size -> sf_at size a (Z.of_nat k) = Ret (rr_at size a k).
Proof.
move=> s0 Hl. rewrite /sf_at. have -> : (size =? 0)%nat = false by lia.
have -> : Z.rem (Z.of_nat k) (Z.of_nat size) = Z.of_nat (Nat.modulo k size).
  rewrite Z.rem_mod_nonneg; [|lia|lia]. by rewrite Nat2Z.inj_mod.
have -> : (Z.of_nat (Nat.modulo k size) <? 0)%coqZ = false by lia.
rewrite Nat2Z.id /rr_at. have L : (Nat.modulo k size < length a)%coq_nat by rewrite Hl; apply: Nat.mod_upper_bound; lia.
by rewrite (List.nth_error_nth' a 0 L).
Qed.

(** What is asked of an object. *)
Record sfc_ok (c : sfc) : Prop := {
  sc_par : sfp_ok (c_par c); sc_size : (2 <= c_size c)%N; sc_pos : (0 <= f_pos1 (c_par c))%coqZ }.

Section Gen.
Variable c : sfc.
Hypothesis Hc : sfc_ok c.
Notation size := (c_size c).
Notation p := (c_par c).
Notation n := (c_size c * 128)%N.
Definition sf_pos : nat := Nat.modulo (Z.to_nat (f_pos1 p)) size.

(** The next word, the block of the start mode, the word of generate(int). *)
Definition sF (a : nat -> N) : N := frec p (a 0%N) (a sf_pos) (a (size - 2)%N) (a (size - 1)%N).
Definition sR (a : nat -> N) : N := startw (c_start c) (a (size - 1)%N) (sF a).
Definition sT (x : N) : N := if c_rev c then wval (w_reverse (w_of x)) else x.
Notation m := (wm_bits (c_weight c)).

Lemma sf_pos_lt : (sf_pos < size)%N.
Proof. have := Nat.mod_upper_bound (Z.to_nat (f_pos1 p)) size. have := sc_size Hc. rewrite /sf_pos. lia. Qed.
Lemma sF_wf : wfun 128 size 0 sF.
Proof.
have Hs := sc_size Hc. have Hl := sf_pos_lt. split.
- move=> a Ha. apply: (frec_lt _ _ (sc_par Hc)); apply: Ha; lia.
- move=> a b Ha Hb. by rewrite /sF /wxor frec_add.
- move=> a b Ha Hb E. have s0 : (0 < size)%N by lia. have := agree0 s0 E => E'. by rewrite /sF !E' //; lia.
Qed.
Lemma sR_wf : wfun 128 size 0 sR.
Proof.
have Hs := sc_size Hc. have W := sF_wf. have s0 : (0 < size)%N by lia.
have s1 : (size - 1 < size)%N by lia. split.
- move=> a Ha. apply: startw_lt; [exact: (Ha _ s1)|exact: (wf_lt W)].
- move=> a b Ha Hb. rewrite /sR (wf_add W) // /wxor startw_add //; by [exact: (Ha _ s1)|exact: (Hb _ s1)|exact: (wf_lt W)].
- move=> a b Ha Hb E. by rewrite /sR (wf_ext W Ha Hb E) (agree0 s0 E).
Qed.
Lemma sT_wl : wlin 128 sT.
Proof.
rewrite /sT. case: (c_rev c); last by split. split.
- move=> x Hx. apply: wval_lt. have [W _] := w_of_ok Hx. by have [] := w_reverse_ok _ W.
- move=> x y Hx Hy. have Hxy := lxor_lt 128 _ _ Hx Hy.
  have [Wx Vx] := w_of_ok Hx; have [Wy Vy] := w_of_ok Hy; have [Wz Vz] := w_of_ok Hxy.
  have [R1 [B1 _]] := w_reverse_ok _ Wx; have [R2 [B2 _]] := w_reverse_ok _ Wy; have [R3 [B3 _]] := w_reverse_ok _ Wz.
  apply: (@word_ext 128); [exact: wval_lt|by apply: lxor_lt; exact: wval_lt|] => i Hi.
  by rewrite N.lxor_spec B1 // B2 // B3 // Vx Vy Vz N.lxor_spec.
Qed.

Definition sfmt_ok : sfmt -> Prop := dl_ok c 128 size.
Definition sfmt_vec : sfmt -> 'rV['F_2]_(n + m) := @dl_vec sfc 128 size m n.
Definition sfmt_A : 'M['F_2]_(n + m) := @dl_A sfc c 128 size m n sf_ops.
Definition sfmt_C : nat -> 'cV['F_2]_(n + m) := @dl_C sfc c 128 size m n sR sT.

Lemma sf_nextE s : ar_ok c 128 size (c, s) -> sf_next_state c s = Ret (rr_push size s (sF (win size s))).
Proof.
move=> [_ [Hi [Hl Hw]]]. cbn [snd] in Hi, Hl, Hw. have Hs := sc_size Hc. have s0 : (0 < size)%N by lia. have Hp := sc_pos Hc.
rewrite /sf_next_state. set ix := Nat.modulo _ _.
have L : (ix < size)%coq_nat by apply: Nat.mod_upper_bound; lia.
have E0 : sf_at size (rr_arr s) (Z.of_nat ix) = Ret (win size s 0).
  rewrite sf_atE //. congr Ret. have := @at_win_next size _ s 0. rewrite Nat.add_0_r. apply; lia.
have E1 : sf_at size (rr_arr s) (Z.of_nat ix + f_pos1 p) = Ret (win size s sf_pos).
  have -> : (Z.of_nat ix + f_pos1 p)%coqZ = Z.of_nat (Nat.add ix (Z.to_nat (f_pos1 p))) by lia.
  rewrite sf_atE //. congr Ret. rewrite -(@at_win_next size _ s sf_pos); [|lia|lia|have := sf_pos_lt; lia].
  rewrite /rr_at /sf_pos -/ix. by rewrite Nat.add_mod_idemp_r //; lia.
have E2 : sf_at size (rr_arr s) (Z.of_nat ix + Z.of_nat size - 2) = Ret (win size s (size - 2)).
  have -> : (Z.of_nat ix + Z.of_nat size - 2)%coqZ = Z.of_nat (Nat.add ix (size - 2)) by lia.
  rewrite sf_atE //. congr Ret. apply: at_win_next; lia.
have E3 : sf_at size (rr_arr s) (Z.of_nat ix + Z.of_nat size - 1) = Ret (win size s (size - 1)).
  have -> : (Z.of_nat ix + Z.of_nat size - 1)%coqZ = Z.of_nat (Nat.add ix (size - 1)) by lia.
  rewrite sf_atE //. congr Ret. apply: at_win_next; lia.
rewrite E0 E1 E2 E3. cbn [bind]. rewrite recursionE; [by []|exact: sc_par|exact: Hw|exact: Hw|exact: Hw|exact: Hw].
Qed.
(** generate() has no undefined behaviour. *)
Lemma sf_generateE s : sfmt_ok s -> sf_generate s = Ret (dl_out 128 size m sR s, dl_next size sF sR s).
Proof.
case: s => [[c' s] q] [[/= E Hs] Hq]. rewrite {c'}E.
have A0 : ar_ok c 128 size (c, s) by split.
have s2 := sc_size Hc. have s0 : (0 < size)%N by lia.
rewrite /sf_generate sf_nextE //. cbn [bind]. set s' := rr_push _ _ _.
have Hx : sF (win size s) < 2 ^ 128 by apply: (wf_lt sF_wf) => k _; exact: win_lt.
have Hs' : rr_ok 128 size s' by apply: push_ok => //; lia. have [I' [L' W']] := Hs'.
have -> : (Z.of_nat (rr_idx s') + Z.of_nat size - 1)%coqZ = Z.of_nat (Nat.add (rr_idx s') (size - 1)) by lia.
rewrite !sf_atE //. cbn [bind].
have E1 : rr_at size (rr_arr s') (Nat.add (rr_idx s') (size - 1)) = win size s (size - 1).
  rewrite at_win; [|lia|lia|lia]. rewrite (win_push 128) //; try lia.
  case: Nat.eqb_spec => // K; first lia. congr win. lia.
have E2 : rr_at size (rr_arr s') (rr_idx s') = sF (win size s).
  have := @at_win size _ s' size. rewrite (win_push 128) //; try lia. rewrite Nat.eqb_refl => <-; [|lia|lia|lia].
  rewrite /rr_at. have -> : Nat.add (rr_idx s') size = Nat.add (rr_idx s') (Nat.mul 1 size) by lia. by rewrite Nat.mod_add //; lia.
rewrite E1 E2.
have Hw : win size s (size - 1) < 2 ^ 128 by exact: (@win_lt 128 size).
have Wr := startw_ok (c_start c) Hw Hx. have [Wq Vq] := w_of_ok Hq.
have [_ ->] := weightE (c_weight c) Wr Wq. by rewrite Vq.
Qed.
Lemma sf_lenE v s : sfmt_ok s -> (1 <= v <= 128)%coqZ -> sf_generate_len v s =
  Ret (N.land (sT (dl_out 128 size m sR s)) (wshl 128 (wnot 128 0) (128 - Z.to_N v)), dl_next size sF sR s).
Proof.
move=> Hs Hv. rewrite /sf_generate_len sf_generateE //. cbn [bind].
have Ec : fst (fst s) = c by have [[]] := Hs. rewrite Ec.
have Hx : dl_out 128 size m sR s < 2 ^ 128.
  have [[_ A] B] := Hs. apply: (mixw_lt (w := 128)) => //. apply: (wf_lt sR_wf) => k _. exact: win_lt.
have [Wx Vx] := w_of_ok Hx.
have Hv' : (0 <= v <= 128)%coqZ by lia. have [mk [-> [Wm Vm]]] := w_mask_spec _ Hv'. cbn [bind].
rewrite top_mask128 // -Vm /sT. case: (c_rev c).
- have [Wr _] := w_reverse_ok _ Wx. by have [_ ->] := w_and_ok _ _ Wr Wm.
- by have [_ ->] := w_and_ok _ _ Wx Wm; rewrite Vx.
Qed.

Lemma sfmt_dg : delay_gen c 128 size m n sF sR sT sf_ops.
Proof.
have s2 := sc_size Hc. split.
- by [].
- lia.
- rewrite /wm_bits. by case: (c_weight c) => [|[[[?|?|]|[?|?|]|]|[[?|?|]|[[?|?|]|[?|?|]|]|]|]|?].
- by [].
- exact: sF_wf.
- exact: sR_wf.
- exact: sT_wl.
- by [].
- by move=> s Hs; cbn [g_generate sf_ops]; rewrite sf_generateE.
- by move=> v s Hs Hv; cbn [g_generate_len sf_ops]; rewrite sf_lenE.
- move=> [[c1 s] q] [[c2 t] q'] [[/= E1 _] H1] [[/= E2 _] H2]. rewrite /dl_addS /ar_addS /= -E1.
  cbn [snd] in H1, H2. have [W1 V1] := w_of_ok H1. have [W2 V2] := w_of_ok H2. have [_ ->] := w_xor_ok _ _ W1 W2. by rewrite V1 V2 E1.
- move=> [[c1 s] q] [[E1 _] _]. cbn [fst] in E1. rewrite E1. cbn [g_setZero sf_ops sf_setZero]. split; [|split].
  + split; last exact: pow2_pos. split; first by []. split; cbn [fst snd rr_idx rr_arr]; first lia. split; first exact: List.repeat_length.
    by move=> i; rewrite nth_repeat0; exact: pow2_pos.
  + by move=> k _; rewrite /ar_win /win; cbn [fst snd rr_idx rr_arr]; rewrite nth_repeat0.
  + by [].
Qed.
Lemma sfmt_lin : linear_gen sf_ops sfmt_ok sfmt_vec sfmt_A sfmt_C.
Proof. exact: (dl_lin sfmt_dg). Qed.
End Gen.
