(** Properties C46 and C47: 128-bit words and period certification. *)
From Coq Require Import NArith ZArith List Bool Lia.
From Verif Require Import Base UtilModel UtilSpec W128Model W128Spec W128Proofs W128Cert.
Local Open Scope N_scope.

(** * C46: a union stands for the number [wval]. *)
Theorem C46_injective : forall x y, wok x -> wok y -> wval x = wval y -> x = y.
Proof. exact wval_inj. Qed.
Theorem C46_shift_right : forall x s, wok x -> (0 <= s < 128)%Z ->
  exists r, w_shr x s = Ret r /\ wok r /\ wval r = wval x / 2 ^ Z.to_N s.
Proof. exact w_shr_spec. Qed.
Theorem C46_shift_left : forall x s, wok x -> (0 <= s < 128)%Z ->
  exists r, w_shl x s = Ret r /\ wok r /\ wval r = (wval x * 2 ^ Z.to_N s) mod 2 ^ 128.
Proof. exact w_shl_spec. Qed.
Theorem C46_shift_range : forall x s, ~ (0 <= s < 128)%Z -> w_shr x s = Undef /\ w_shl x s = Undef.
Proof. exact w_shift_bad. Qed.
Theorem C46_mask : forall n, (0 <= n <= 128)%Z ->
  exists r, w_mask n = Ret r /\ wok r /\ wval r = 2 ^ 128 - 2 ^ (128 - Z.to_N n).
Proof. exact w_mask_spec. Qed.
Theorem C46_mask_range : forall n, ~ (0 <= n <= 128)%Z -> w_mask n = Undef.
Proof. exact w_mask_bad. Qed.
Theorem C46_and : forall a b, wok a -> wok b -> wok (w_and a b) /\ wval (w_and a b) = N.land (wval a) (wval b).
Proof. exact w_and_ok. Qed.
Theorem C46_or : forall a b, wok a -> wok b -> wok (w_or a b) /\ wval (w_or a b) = N.lor (wval a) (wval b).
Proof. exact w_or_ok. Qed.
Theorem C46_xor : forall a b, wok a -> wok b -> wok (w_xor a b) /\ wval (w_xor a b) = N.lxor (wval a) (wval b).
Proof. exact w_xor_ok. Qed.
Theorem C46_not : forall a, wok a -> wok (w_not a) /\ wval (w_not a) = 2 ^ 128 - 1 - wval a.
Proof. exact w_not_ok. Qed.
Theorem C46_equal : forall a b, wok a -> wok b -> w_eq a b = true <-> wval a = wval b.
Proof. exact w_eq_ok. Qed.
Theorem C46_isZero : forall a, wok a -> w_isZero a = true <-> wval a = 0.
Proof. exact w_isZero_ok. Qed.
Theorem C46_constants : wval w_zero = 0 /\ wval w_one = 1 /\ forall x, wval (w_convert x) = x.
Proof. exact w_consts. Qed.
Theorem C46_getBitOfPos : forall x pos, wok x -> (0 <= pos < 128)%Z ->
  w_getBit x pos = Ret (N.b2n (N.testbit (wval x) (Z.to_N pos))).
Proof. exact w_getBit_ok. Qed.
Theorem C46_setBitOfPos : forall x pos b, wok x -> (0 <= pos < 128)%Z ->
  exists r, w_setBit x pos b = Ret r /\ wok r /\
    forall i, N.testbit (wval r) i = if i =? Z.to_N pos then N.testbit b 0 else N.testbit (wval x) i.
Proof. exact w_setBit_ok. Qed.
Theorem C46_pos_range : forall x pos b, ~ (0 <= pos < 128)%Z -> w_getBit x pos = Undef /\ w_setBit x pos b = Undef.
Proof. exact (fun x pos b H => conj (w_getBit_bad x pos H) (w_setBit_bad x pos b H)). Qed.
Theorem C46_reverse_bit : forall x, wok x -> wok (w_reverse x) /\
  (forall i, i < 128 -> N.testbit (wval (w_reverse x)) i = N.testbit (wval x) (127 - i)) /\ w_reverse (w_reverse x) = x.
Proof. exact w_reverse_ok. Qed.
(** calc_1pos negates a signed 64-bit number; where this wraps the function is
    right for every word. *)
Theorem C46_calc_1pos_wrapping : forall x, wok x ->
  (wval x = 0 -> w_calc_1pos_wrap x = (-1)%Z) /\ (wval x <> 0 -> lowest_one_from_msb 128 (wval x) (w_calc_1pos_wrap x)).
Proof. exact w_calc_wrap_ok. Qed.
(** Full statement: the same for [w_calc_1pos], where an overflow is undefined.
    It is false for words whose lowest 1 is at bit 63 or 127 with nothing else in
    that half; it holds for the others. *)
Theorem C46_calc_1pos_partial : forall x, wok x -> u0 x <> 2 ^ 63 -> (u0 x = 0 -> u1 x <> 2 ^ 63) ->
  exists p, w_calc_1pos x = Ret p /\ (wval x = 0 -> p = (-1)%Z) /\ (wval x <> 0 -> lowest_one_from_msb 128 (wval x) p).
Proof. exact w_calc_partial. Qed.
Theorem C46_calc_1pos_refuted : exists x y, wok x /\ wok y /\ wval x = 2 ^ 127 /\ wval y = 2 ^ 63 + 2 ^ 64 /\
  w_calc_1pos x = Undef /\ w_calc_1pos y = Undef.
Proof. exact w_calc_undef. Qed.
(** The byte shifts of SFMT; the search uses 1, 3, 5 and 7. *)
Theorem C46_rshift128 : forall x s, wok x -> (1 <= s <= 7)%Z ->
  exists r, rshift128 x s = Ret r /\ wok r /\ wval r = wval x / 2 ^ (8 * Z.to_N s).
Proof. exact rshift128_ok. Qed.
Theorem C46_lshift128 : forall x s, wok x -> (1 <= s <= 7)%Z ->
  exists r, lshift128 x s = Ret r /\ wok r /\ wval r = (wval x * 2 ^ (8 * Z.to_N s)) mod 2 ^ 128.
Proof. exact lshift128_ok. Qed.
(** Other counts are undefined, also 0. *)
Theorem C46_byte_shift_range : forall x s, ~ (1 <= s <= 7)%Z -> rshift128 x s = Undef /\ lshift128 x s = Undef.
Proof. exact shift128_bad. Qed.
Example C46_case : let x := W128 0x8000000000000001 0x123456789abcdef0 in wok x /\ wval x = 0x123456789abcdef08000000000000001 /\
  w_shr x 4 = Ret (W128 0x0800000000000000 0x0123456789abcdef) /\ w_shl x 68 = Ret (W128 0 0x10) /\
  lshift128 x 1 = Ret (W128 0x0000000000000100 0x3456789abcdef080) /\ w_calc_1pos x = Ret 127%Z.
Proof. repeat split. Qed.

(** * C47: period certification of SFMT.  [st] is state[0]; exactly the lowest
    bit of the parity vector is changed, if necessary. *)
Theorem C47_certified : forall st par, wok st -> wok par -> wval par <> 0 ->
  wok (snd (periodCertification st par)) /\ inner (wval (snd (periodCertification st par))) (wval par) = true.
Proof. exact cert_ok. Qed.
Theorem C47_change : forall st par, wok st -> wok par -> wval par <> 0 ->
  (inner (wval st) (wval par) = true -> periodCertification st par = (1%Z, st)) /\
  (inner (wval st) (wval par) = false -> exists st', periodCertification st par = (0%Z, st') /\ wok st' /\
     exists i, i < 128 /\ N.testbit (wval par) i = true /\ (forall j, j < i -> N.testbit (wval par) j = false) /\ flips (wval st) (wval st') i).
Proof. exact cert_cases. Qed.
(** The condition on the parity vector is needed. *)
Theorem C47_zero_parity : forall st, periodCertification st w_zero = (0%Z, st) /\ inner (wval st) (wval w_zero) = false.
Proof. exact (fun st => conj (cert_zero st) (inner_zero (wval st))). Qed.
(** The same for the lung of dSFMT, relative to the fixed point unless noFix. *)
Theorem C47_dsfmt_certified : forall lung par fix_ (noFix : bool), wok lung -> wok par -> wok fix_ -> wval par <> 0 ->
  let st' := snd (dsfmt_certification lung par fix_ noFix) in
  wok st' /\ inner (if noFix then wval st' else N.lxor (wval st') (wval fix_)) (wval par) = true.
Proof. exact dcert_ok. Qed.
Theorem C47_dsfmt_change : forall lung par fix_ (noFix : bool), wok lung -> wok par -> wok fix_ -> wval par <> 0 ->
  let v (y : w128) := if noFix then wval y else N.lxor (wval y) (wval fix_) in
  (inner (v lung) (wval par) = true -> dsfmt_certification lung par fix_ noFix = (1%Z, lung)) /\
  (inner (v lung) (wval par) = false -> exists lung', dsfmt_certification lung par fix_ noFix = (0%Z, lung') /\ wok lung' /\
     exists i, i < 128 /\ N.testbit (wval par) i = true /\ flips (wval lung) (wval lung') i).
Proof. exact dcert_cases. Qed.
Example C47_case : let par := W128 0 0x13c9e68400000000 in wok par /\ wval par <> 0 /\ inner (wval w_one) (wval par) = false /\
  periodCertification w_one par = (0%Z, W128 1 0x0000000400000000) /\
  dsfmt_certification w_one par w_one false = (0%Z, W128 1 0x0000000400000000).
Proof. repeat split. discriminate. Qed.

Print Assumptions C46_injective.
Print Assumptions C46_shift_right.
Print Assumptions C46_shift_left.
Print Assumptions C46_shift_range.
Print Assumptions C46_mask.
Print Assumptions C46_mask_range.
Print Assumptions C46_and.
Print Assumptions C46_or.
Print Assumptions C46_xor.
Print Assumptions C46_not.
Print Assumptions C46_equal.
Print Assumptions C46_isZero.
Print Assumptions C46_constants.
Print Assumptions C46_getBitOfPos.
Print Assumptions C46_setBitOfPos.
Print Assumptions C46_pos_range.
Print Assumptions C46_reverse_bit.
Print Assumptions C46_calc_1pos_wrapping.
Print Assumptions C46_calc_1pos_partial.
Print Assumptions C46_calc_1pos_refuted.
Print Assumptions C46_rshift128.
Print Assumptions C46_lshift128.
Print Assumptions C46_byte_shift_range.
Print Assumptions C47_certified.
Print Assumptions C47_change.
Print Assumptions C47_zero_parity.
Print Assumptions C47_dsfmt_certified.
Print Assumptions C47_dsfmt_change.
