(** Properties C71 and C72: getLCMPoly and anni of the sample programs dSFMTdc and
    sfmtdc. *)
From Coq Require Import NArith ZArith List Bool Lia.
From mathcomp Require Import all_ssreflect all_algebra.
From mathcomp Require Import zify.
From Verif Require Import Base GenModel PolyF2 LinSpec ArrayModel PeriodModel PeriodSpec PolyAct PeriodProofs4 ParityModel W128Model W128Spec SfmtModel SfmtLin SfmtProofs
  SfmtParity SfmtProps DsfmtModel DsfmtLin DsfmtProps SimdModel SimdPack SimdSpec SimdProofs SimdThm DsfmtEquiModel DsfmtEquiSpec DsfmtEquiThm AnniModel AnniThm.
Set Implicit Arguments.
Unset Strict Implicit.
Unset Printing Implicit Defensive.
Local Open Scope ring_scope.
Delimit Scope Z_scope with coqZ.

(** C71, dSFMT (getParityValue is the lung): for a divisor l of the characteristic
    polynomial the result L is a multiple of l, a divisor of the characteristic
    polynomial, annihilates the object's state, and generates the sequence of the
    lowest lung bit of every state.  It is the least such polynomial. *)
Theorem C71_getLCMPoly_dsfmt : forall c, dsc_ok c -> e_weight c = 2%coqZ -> (0 < d_sl1 (e_par c))%coqZ ->
  forall M, minpolyseq_spec M -> forall l s, dsfmt_ok c s -> l != 0 -> exists L,
  [/\ getLCMPoly_d ds_ops ds_par_ops M l s = Ret L, L != 0, l %| L,
    l %| char_poly (dsfmt_A c) -> [/\ L %| char_poly (dsfmt_A c), dsfmt_vec c s *m poly_mx (dsfmt_A c) L = 0 &
      forall t, dsfmt_ok c t -> generates L (par_bits ds_ops ds_par_ops t 0)] &
    forall h, l %| h -> (forall p, (p < 128)%N -> generates h (par_bits ds_ops ds_par_ops s p)) ->
      (forall t, dsfmt_ok c t -> generates h (par_bits ds_ops ds_par_ops t 0)) -> L %| h].
Proof. exact ds_lcm. Qed.
(** If the lowest lung bit determines the state, every state is annihilated. *)
Theorem C71_annihilates_all : forall c, dsc_ok c -> e_weight c = 2%coqZ -> (0 < d_sl1 (e_par c))%coqZ ->
  forall M, minpolyseq_spec M -> forall l s L, dsfmt_ok c s -> l != 0 -> l %| char_poly (dsfmt_A c) ->
  getLCMPoly_d ds_ops ds_par_ops M l s = Ret L ->
  (forall t, dsfmt_ok c t -> (forall i, par_bits ds_ops ds_par_ops t 0 i = 0) -> dsfmt_vec c t = 0) ->
  forall t, dsfmt_ok c t -> dsfmt_vec c t *m poly_mx (dsfmt_A c) L = 0.
Proof. exact ds_lcm_all. Qed.
(** sfmt: the least multiple of l that generates the sequence of the lowest output
    bit of every state. *)
Theorem C71_getLCMPoly_sfmt : forall c, sfc_ok c -> (3 <= c_size c)%N -> (0 < sf_pos c)%N -> c_weight c = 4%coqZ ->
  forall M, minpolyseq_spec M -> forall l s, sfmt_ok c s -> l != 0 -> exists L,
  [/\ getLCMPoly_s sf_ops sf_par_ops M l s = Ret L, L != 0, l %| L,
    l %| char_poly (sfmt_A c) -> L %| char_poly (sfmt_A c) /\ forall t, sfmt_ok c t -> generates L (out_bits sf_ops t 0) &
    forall h, l %| h -> (forall t, sfmt_ok c t -> generates h (out_bits sf_ops t 0)) -> L %| h].
Proof. exact sf_lcm. Qed.
Example C71_case : dsc_ok (ds_exc 0 2) /\ e_weight (ds_exc 0 2) = 2%coqZ /\ (0 < d_sl1 (e_par (ds_exc 0 2)))%coqZ /\
  minpolyseq_spec mps /\ dsfmt_ok (ds_exc 0 2) (ds_ex 0 2) /\ (1 : f2x) != 0 /\ (1 : f2x) %| char_poly (dsfmt_A (ds_exc 0 2)) /\
  sfc_ok (sf_exc 0 4) /\ (3 <= c_size (sf_exc 0 4))%N /\ (0 < sf_pos (sf_exc 0 4))%N /\ c_weight (sf_exc 0 4) = 4%coqZ /\ sfmt_ok (sf_exc 0 4) (sf_ex 0 4).
Proof.
have [H1 H2] := ds_ex_ok 0 2. have [H3 H4] := sf_ex_ok 0 4.
split; first exact: H1. do 2 (split; first by []). split; first exact: mps_spec. split; first exact: H2.
split; first exact: GRing.oner_neq0. split; first exact: dvd1p. split; first exact: H3. do 3 (split; first by []). exact: H4.
Qed.

(** C72: anni returns.  The answer is true exactly if the minimal polynomial of the
    sequence of the lowest output bit has an irreducible factor of degree mexp = d
    (the remaining factors are smaller); then the object left is not zero, one
    irreducible polynomial of degree d annihilates it and is a recurrence of its
    words, and if 2^d - 1 is prime its period is 2^d - 1 exactly.  The number of
    state bits is less than 2 d. *)
Theorem C72_anni_dsfmt : forall c, dsc_ok c -> e_weight c = 2%coqZ -> (0 < d_sl1 (e_par c))%coqZ ->
  forall M, minpolyseq_spec M -> forall d fuel, (e_size c * 104 + 128 < 2 * d)%N -> d_mexp (e_par c) = Z.of_nat d ->
  (e_size c * 104 + 128 < fuel)%N -> forall s, dsfmt_ok c s -> exists b s',
  [/\ anni_d ds_ops ds_par_ops M fuel s = Ret (b, s'), dsfmt_ok c s',
    b = true <-> (exists mu f, is_minpoly (out_bits ds_ops s 0) mu /\ large_factor mu f d) &
    b = true -> ds_isZero s' = false /\
      (exists f, [/\ irreducible_poly f, size f = d.+1, dsfmt_vec c s' *m poly_mx (dsfmt_A c) f = 0 &
         forall W, dsfmt_words s' W -> recurrent W d /\ forall i, generates f (fun k => (N.testbit (W k) i)%:R)]) /\
      (prime (2 ^ d - 1) -> forall k, dsfmt_vec c (run ds_ops k s') = dsfmt_vec c s' <-> (2 ^ d - 1 %| k)%N)].
Proof. exact ds_anni. Qed.
Theorem C72_anni_sfmt : forall c, sfc_ok c -> (3 <= c_size c)%N -> (0 < sf_pos c)%N -> c_weight c = 4%coqZ -> c_start c = 0%coqZ ->
  forall M, minpolyseq_spec M -> forall d fuel, (c_size c * 128 < 2 * d)%N -> f_mexp (c_par c) = Z.of_nat d ->
  (c_size c * 128 < fuel)%N -> forall s, sfmt_ok c s -> exists b s',
  [/\ anni_s sf_ops sf_par_ops M fuel s = Ret (b, s'), sfmt_ok c s',
    b = true <-> (exists mu f, is_minpoly (out_bits sf_ops s 0) mu /\ large_factor mu f d) &
    b = true -> sf_isZero s' = false /\
      (exists f, [/\ irreducible_poly f, size f = d.+1, sfmt_vec c s' *m poly_mx (sfmt_A c) f = 0 &
         forall W, sfmt_words s' W -> recurrent W d /\ forall i, generates f (fun k => (N.testbit (W k) i)%:R)]) /\
      (prime (2 ^ d - 1) -> forall k, sfmt_vec c (run sf_ops k s') = sfmt_vec c s' <-> (2 ^ d - 1 %| k)%N)].
Proof. exact sf_anni. Qed.

(** So the object left can be measured with mexp = d: the hypotheses of C70 and
    C64 hold. *)
Theorem C72_measure_dsfmt : forall c, dsc_ok c -> e_weight c = 2%coqZ -> (0 < d_sl1 (e_par c))%coqZ ->
  forall M, minpolyseq_spec M -> forall d fuel, (e_size c * 104 + 128 < 2 * d)%N -> d_mexp (e_par c) = Z.of_nat d ->
  (e_size c * 104 + 128 < fuel)%N -> forall s s' W pos fuel' bit_len, dsfmt_ok c s ->
  anni_d ds_ops ds_par_ops M fuel s = Ret (true, s') -> dsfmt_words s' W ->
  (Z.of_nat d < 2 ^ 31)%coqZ -> pos_spec 128 pos -> ((e_size c * 416 + 618) * 129 <= fuel')%N -> (bit_len <= 52)%N ->
  dsfmt_call c s' W pos fuel' d bit_len.
Proof. exact ds_anni_call. Qed.
Theorem C72_measure_sfmt : forall c, sfc_ok c -> (3 <= c_size c)%N -> (0 < sf_pos c)%N -> c_weight c = 4%coqZ -> c_start c = 0%coqZ ->
  forall M, minpolyseq_spec M -> forall d fuel, (c_size c * 128 < 2 * d)%N -> f_mexp (c_par c) = Z.of_nat d ->
  (c_size c * 128 < fuel)%N -> forall info ew L s s' W pos fuel' bit_len, sfmt_ok c s ->
  anni_s sf_ops sf_par_ops M fuel s = Ret (true, s') -> sfmt_words s' W -> good_info info ew L ->
  (Z.of_nat d < 2 ^ 31)%coqZ -> pos_spec 128 pos -> ((c_size c * 512 + 194) * 129 <= fuel')%N -> (bit_len <= ew)%N ->
  simd_call info ew L c s' W pos fuel' d bit_len.
Proof. exact sf_anni_call. Qed.
Example C72_case : let c := ds_exc 0 2 in let e := sf_exc 0 4 in
  (e_size c * 104 + 128 < 2 * 521)%N /\ d_mexp (e_par c) = Z.of_nat 521 /\ ds_isZero (ds_ex 0 2) = false /\
  (c_size e * 128 < 2 * 607)%N /\ f_mexp (c_par e) = Z.of_nat 607 /\ c_start e = 0%coqZ /\ sf_isZero (sf_ex 0 4) = false.
Proof. by vm_compute. Qed.

Print Assumptions C71_getLCMPoly_dsfmt.
Print Assumptions C71_annihilates_all.
Print Assumptions C71_getLCMPoly_sfmt.
Print Assumptions C72_anni_dsfmt.
Print Assumptions C72_anni_sfmt.
Print Assumptions C72_measure_dsfmt.
Print Assumptions C72_measure_sfmt.
