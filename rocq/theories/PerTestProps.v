(** Properties C80 and C81: the programs test_period of sfmtdc and calc_period of
    dSFMTdc. *)
From Coq Require Import NArith ZArith List Bool Lia.
From mathcomp Require Import all_ssreflect all_algebra.
From mathcomp Require Import zify.
From Verif Require Import Base GenModel PolyF2 LinSpec PeriodModel PeriodSpec PolyAct ArrayModel W128Model W128Spec SfmtModel SfmtLin SfmtProps
  DsfmtModel DsfmtLin DsfmtProps SimdSpec SimdThm DsfmtEquiSpec DsfmtEquiProofs PerTestModel PerTestSpec
  PerTestRead PerTestSfmt PerTestDsfmt.
Import ListNotations.
Set Implicit Arguments.
Unset Strict Implicit.
Unset Printing Implicit Defensive.
Local Open Scope ring_scope.
Delimit Scope Z_scope with coqZ.

(** C80: started with the line that get_string writes for the parameters q (mexp =
    d at least 256, pos1 not a multiple of the length of the array), whatever
    comes behind it, the program returns.  W is the sequence of words of an object
    with these parameters, seeded with seedw.  It prints the line again; the
    numbers before the annihilation are the least and the greatest degree of the
    minimal polynomials of the 128 bit sequences of the words and the number of
    terms of the first of the greatest degree.  The line for start mode i and
    weight mode j is printed exactly if the minimal polynomial of bit 32 i of the
    words has an irreducible factor of degree d, otherwise the program ends with
    -1 there; a line shows the maximum d, and the minimum d if the polynomials of
    all 128 bits have such a factor, 0 if not. *)
Theorem C80_test_period : forall q, sfp_ok q -> (256 <= f_mexp q < 2 ^ 31 - 128)%coqZ -> (0 <= f_pos1 q < 2 ^ 31)%coqZ ->
  (0 < f_pos1 q mod (f_mexp q / 128 + 1))%coqZ ->
  forall M fuel junk, minpolyseq_spec M -> let d := Z.to_nat (f_mexp q) in (d + 128 < fuel)%N ->
  forall W, sfmt_words (sf_seed (pt_seed junk) (sf_new q)) W ->
  forall tail, (f_parity q < 2 ^ 128)%num ->
  exists out, [/\ sf_test_period M fuel junk (sf_text q ++ tail) = Ret out, pt_text out = sf_text q,
    forall mu, (forall b, (b < 128)%N -> is_minpoly (bit_seq W b) (mu b)) -> mm_spec (List.seq 0 128) mu (pt_before out) &
    table_spec (fun m => large_bit d W (32 * Z.to_nat m.1)) (row_spec d (forall b, (b < 128)%N -> large_bit d W b))
      [(0, 4); (0, 3); (0, 2); (0, 1); (1, 4); (1, 3); (1, 2); (1, 1);
       (2, 4); (2, 3); (2, 2); (2, 1); (3, 4); (3, 3); (3, 2); (3, 1)]%coqZ (pt_rows out) (pt_code out)].
Proof. exact sf_program. Qed.
(** All the lines are printed and 0 is returned exactly if the bits 0, 32, 64 and
    96 have the factor. *)
Theorem C80_complete : forall q, sfp_ok q -> (256 <= f_mexp q < 2 ^ 31 - 128)%coqZ -> (0 <= f_pos1 q < 2 ^ 31)%coqZ ->
  (0 < f_pos1 q mod (f_mexp q / 128 + 1))%coqZ ->
  forall M fuel junk, minpolyseq_spec M -> (Z.to_nat (f_mexp q) + 128 < fuel)%N ->
  forall W, sfmt_words (sf_seed (pt_seed junk) (sf_new q)) W -> forall tail, (f_parity q < 2 ^ 128)%num ->
  exists out, sf_test_period M fuel junk (sf_text q ++ tail) = Ret out /\
    (pt_code out = 0%coqZ <-> forall i, (i < 4)%N -> large_bit (Z.to_nat (f_mexp q)) W (32 * i)) /\
    (pt_code out = 0%coqZ -> length (pt_rows out) = 16%N) /\ (pt_code out <> 0%coqZ -> pt_code out = (-1)%coqZ).
Proof. exact sf_complete. Qed.
(** The text that get_string writes is read back as the same parameters. *)
Theorem C80_text : forall q t, sfp_ok q -> (0 <= f_mexp q < 2 ^ 31)%coqZ -> (0 <= f_pos1 q < 2 ^ 31)%coqZ -> (f_parity q < 2 ^ 128)%num ->
  sf_parse (sf_text q ++ t) = Ret q.
Proof. exact sf_parseE. Qed.
(** A text that ends early: para++ leaves the string. *)
Theorem C80_short_refuted : exists para, forall M fuel junk, sf_test_period M fuel junk para = Undef.
Proof. by exists [0x36; 0x30; 0x37]%num. Qed.

(** The parameters of SFMT607. *)
Example C80_case : sfp_ok sf_exp /\ (256 <= f_mexp sf_exp < 2 ^ 31 - 128)%coqZ /\ (0 <= f_pos1 sf_exp < 2 ^ 31)%coqZ /\
  (0 < f_pos1 sf_exp mod (f_mexp sf_exp / 128 + 1))%coqZ /\ minpolyseq_spec mps /\ (f_parity sf_exp < 2 ^ 128)%num /\
  (exists W, sfmt_words (sf_seed (pt_seed 5) (sf_new sf_exp)) W) /\
  firstn 26 (sf_text sf_exp) = [0x36; 0x30; 0x37; 0x2c; 0x32; 0x2c; 0x31; 0x35; 0x2c; 0x33; 0x2c; 0x31; 0x33; 0x2c; 0x33; 0x2c;
    0x66; 0x64; 0x66; 0x66; 0x33; 0x37; 0x66; 0x66; 0x2c; 0x65]%num.
Proof.
have H : sfp_ok sf_exp by split.
split; first exact: H. do 3 (split; first by []). split; first exact: mps_spec. split; first by [].
split; last by vm_compute.
have [H1 H2] : sfc_ok (sf_new sf_exp).1.1 /\ sfmt_ok (sf_new sf_exp).1.1 (sf_new sf_exp) by apply: C60_new.
apply: (@words_exist (sf_new sf_exp).1.1); first exact: H1.
exact: (@C60_seed _ (pt_seed 5) ((sf_new sf_exp).1.2, (sf_new sf_exp).2) H1).
Qed.

(** C81: the same for calc_period of dSFMTdc, started with the line for the
    parameters q (mexp = d at least 232).  W is the sequence of 128-bit words of an
    object with these parameters.  The program looks at the bits 0 to 51 and 64 to
    103 of an output; in start mode 1 bit p of the output is bit (p + 64) mod 128 of
    the words.  A line is printed exactly if bit 64 i of the words has the factor. *)
Theorem C81_calc_period : forall q, dsp_ok q -> (0 < d_sl1 q)%coqZ -> (232 <= d_mexp q < 2 ^ 31 - 128)%coqZ -> (0 <= d_pos1 q < 2 ^ 31)%coqZ ->
  forall M fuel junk, minpolyseq_spec M -> let d := Z.to_nat (d_mexp q) in (d + 104 < fuel)%N ->
  forall W, dsfmt_words (ds_seed (pt_seed junk) (ds_new q)) W ->
  forall tail, (d_fix q < 2 ^ 128)%num -> (d_parity q < 2 ^ 128)%num ->
  let bits := (List.seq 0 52 ++ List.seq 64 40)%N in
  exists out, [/\ ds_calc_period M fuel junk (ds_text q ++ tail) = Ret out, pt_text out = ds_text q,
    forall mu, (forall b, (b < 128)%N -> is_minpoly (bit_seq W b) (mu b)) -> mm_spec bits mu (pt_before out) &
    table_spec (fun m => large_bit d W (64 * Z.to_nat m.1))
      (fun x => row_spec d (forall p, List.In p bits -> large_bit d W ((p + 64 * Z.to_nat (row_start x)) %% 128)) x)
      [(0, 2); (0, 1); (1, 2); (1, 1)]%coqZ (pt_rows out) (pt_code out)].
Proof. exact ds_program. Qed.
(** All four lines are printed and 0 is returned exactly if the bits 0 and 64 have
    the factor. *)
Theorem C81_complete : forall q, dsp_ok q -> (0 < d_sl1 q)%coqZ -> (232 <= d_mexp q < 2 ^ 31 - 128)%coqZ -> (0 <= d_pos1 q < 2 ^ 31)%coqZ ->
  forall M fuel junk, minpolyseq_spec M -> (Z.to_nat (d_mexp q) + 104 < fuel)%N ->
  forall W, dsfmt_words (ds_seed (pt_seed junk) (ds_new q)) W ->
  forall tail, (d_fix q < 2 ^ 128)%num -> (d_parity q < 2 ^ 128)%num ->
  exists out, ds_calc_period M fuel junk (ds_text q ++ tail) = Ret out /\
    (pt_code out = 0%coqZ <-> large_bit (Z.to_nat (d_mexp q)) W 0 /\ large_bit (Z.to_nat (d_mexp q)) W 64) /\
    (pt_code out = 0%coqZ -> length (pt_rows out) = 4%N) /\ (pt_code out <> 0%coqZ -> pt_code out = (-1)%coqZ).
Proof. exact ds_complete. Qed.
(** A line with the minimum d says nothing of the bits 104 to 115, the upper 12 of
    the second half's 52: they are not among those looked at. *)
Theorem C81_bits : forall p, (104 <= p < 116)%N -> ~ List.In p ds_bits.
Proof. exact ds_bits_miss. Qed.
Theorem C81_text : forall q t, dsp_ok q -> (0 <= d_mexp q < 2 ^ 31)%coqZ -> (0 <= d_pos1 q < 2 ^ 31)%coqZ -> (d_fix q < 2 ^ 128)%num ->
  (d_parity q < 2 ^ 128)%num -> ds_parse (ds_text q ++ t) = Ret q.
Proof. exact ds_parseE. Qed.

(** The parameters of dSFMT521. *)
Example C81_case : dsp_ok ds_exp /\ (0 < d_sl1 ds_exp)%coqZ /\ (232 <= d_mexp ds_exp < 2 ^ 31 - 128)%coqZ /\ (0 <= d_pos1 ds_exp < 2 ^ 31)%coqZ /\
  minpolyseq_spec mps /\ (d_fix ds_exp < 2 ^ 128)%num /\ (d_parity ds_exp < 2 ^ 128)%num /\
  (exists W, dsfmt_words (ds_seed (pt_seed 5) (ds_new ds_exp)) W) /\
  firstn 20 (ds_text ds_exp) = [0x35; 0x32; 0x31; 0x2c; 0x33; 0x2c; 0x32; 0x35; 0x2c; 0x30; 0x30; 0x30; 0x66; 0x62; 0x66; 0x65; 0x66; 0x66; 0x66; 0x37]%num.
Proof.
have H : dsp_ok ds_exp by split.
split; first exact: H. do 3 (split; first by []). split; first exact: mps_spec. do 2 (split; first by []).
split; last by vm_compute.
have [H1 H2] : dsc_ok (ds_new ds_exp).1.1 /\ dsfmt_ok (ds_new ds_exp).1.1 (ds_new ds_exp) by apply: C65_new.
apply: (@ds_words_exist (ds_new ds_exp).1.1); first exact: H1.
exact: (@C65_seed _ (pt_seed 5) (ds_new ds_exp).1.2 (ds_new ds_exp).2 H1).
Qed.

Print Assumptions C80_test_period.
Print Assumptions C80_complete.
Print Assumptions C80_text.
Print Assumptions C80_short_refuted.
Print Assumptions C81_calc_period.
Print Assumptions C81_complete.
Print Assumptions C81_bits.
Print Assumptions C81_text.
