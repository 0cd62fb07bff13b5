(** Property C83: the programs calc_equidist of sfmtdc and of dSFMTdc. *)
From Coq Require Import NArith ZArith List Bool Lia.
From mathcomp Require Import all_ssreflect all_algebra.
From mathcomp Require Import zify.
From Verif Require Import Base UtilModel GenModel PolyF2 LinSpec PeriodModel PeriodSpec PolyAct ArrayModel W128Model W128Spec
  SfmtModel SfmtLin SfmtParity SfmtProps SimdSpec SearchSpec DsfmtModel DsfmtLin DsfmtProps PerTestModel
  EqMainModel EqMainSpec EqMainProg.
Import ListNotations.
Set Implicit Arguments.
Unset Strict Implicit.
Unset Printing Implicit Defensive.
Local Open Scope ring_scope.
Delimit Scope Z_scope with coqZ.

(** C83: calc_equidist of sfmtdc, started with the line of the parameters q (d = mexp
    at least 256) and whatever follows, with or without the option -r, with any seed
    and any contents of the arrays and of the half of the seed not initialised.  If
    the minimal polynomial of the lowest output bit of the seeded object has an
    irreducible factor f of degree d, the program prints the line again, and the
    three sums of defects and the three tables belong to dimensions of
    equidistribution: for 128 bits, those of the outputs (from the last bit with -r)
    in the component of f; for 32 and 64 bits, those of the sequence of words of any
    non-zero state of the component of f (from the last bit with -r), the greatest
    ones up to the restriction of C64.  Otherwise it prints nothing. *)
Theorem C83_sfmt q : sfp_ok q -> (256 <= f_mexp q < 2 ^ 31 - 128)%coqZ -> (0 <= f_pos1 q < 2 ^ 31)%coqZ ->
  (0 < f_pos1 q mod (f_mexp q / 128 + 1))%coqZ -> (f_parity q < 2 ^ 128)%num ->
  forall M pos fuel seed junk, minpolyseq_spec M -> pos_spec 128 pos ->
  let sz := Z.to_nat (f_mexp q / 128 + 1) in let d := Z.to_nat (f_mexp q) in
  ((sz * 512 + 194) * 129 <= fuel)%N ->
  let c := SFC q sz 0 4 false in let s0 := sf_seed (eq_seed seed junk) (sf_new q) in
  forall v128 v32 v64 reverse tail, (128 <= length v128)%N -> (32 <= length v32)%N -> (64 <= length v64)%N ->
  (exists f out q128 q32 q64, [/\ sf_equi_main M pos fuel seed junk v128 v32 v64 reverse (sf_text q ++ tail) = Ret (Some out),
      low_factor sf_ops s0 d f /\ f %| char_poly (sfmt_A c), eq_text out = sf_text q,
      eq_deltas out = [defect_sum d 32 q32; defect_sum d 64 q64; defect_sum d 128 q128] &
      exists t32 t64 t128, [/\ eq_tables out = [t32; t64; t128], table_of d 32 q32 t32, table_of d 64 q64 t64 & table_of d 128 q128 t128]] /\
    [/\ let cr := SFC q sz 0 4 reverse in comp_dims_of (sfmt_A cr) (sfmt_C cr) f 128 q128, exists W, sf_comp_words c f W &
      forall W, sf_comp_words c f W -> word_dims_from reverse 32 4 W q32 /\ word_dims_from reverse 64 2 W q64]) \/
  sf_equi_main M pos fuel seed junk v128 v32 v64 reverse (sf_text q ++ tail) = Ret None /\ forall f, ~ low_factor sf_ops s0 d f.
Proof. by move=> H1 H2 H3 H4 H5 M pos fuel seed junk H6 H7 sz d H8 c s0 v128 v32 v64 reverse tail; exact: sf_equi_thm. Qed.

(** C83: two runs with the same parameters and the same option -r that both print a
    line print the same line and the same sum and table for 128 bits: these depend
    neither on the seed nor on what is not initialised. *)
Theorem C83_same q : sfp_ok q -> (256 <= f_mexp q < 2 ^ 31 - 128)%coqZ -> (0 <= f_pos1 q < 2 ^ 31)%coqZ ->
  (0 < f_pos1 q mod (f_mexp q / 128 + 1))%coqZ -> (f_parity q < 2 ^ 128)%num ->
  forall M pos fuel M' pos' fuel' reverse, minpolyseq_spec M -> pos_spec 128 pos -> minpolyseq_spec M' -> pos_spec 128 pos' ->
  let sz := Z.to_nat (f_mexp q / 128 + 1) in ((sz * 512 + 194) * 129 <= fuel)%N -> ((sz * 512 + 194) * 129 <= fuel')%N ->
  forall seed junk v128 v32 v64 tail seed' junk' v128' v32' v64' tail' out out',
  (128 <= length v128)%N -> (32 <= length v32)%N -> (64 <= length v64)%N ->
  (128 <= length v128')%N -> (32 <= length v32')%N -> (64 <= length v64')%N ->
  sf_equi_main M pos fuel seed junk v128 v32 v64 reverse (sf_text q ++ tail) = Ret (Some out) ->
  sf_equi_main M' pos' fuel' seed' junk' v128' v32' v64' reverse (sf_text q ++ tail') = Ret (Some out') ->
  eq_text out = eq_text out' /\ List.nth 2 (eq_deltas out) 0%coqZ = List.nth 2 (eq_deltas out') 0%coqZ /\
  List.nth 2 (eq_tables out) [] = List.nth 2 (eq_tables out') [].
Proof. exact: sf_same. Qed.

(** C83: calc_equidist of dSFMTdc, likewise with the 52-bit words. *)
Theorem C83_dsfmt q : dsp_ok q -> (0 < d_sl1 q)%coqZ -> (232 <= d_mexp q < 2 ^ 31 - 128)%coqZ -> (0 <= d_pos1 q < 2 ^ 31)%coqZ ->
  (d_fix q < 2 ^ 128)%num -> (d_parity q < 2 ^ 128)%num ->
  forall M pos fuel seed junk, minpolyseq_spec M -> pos_spec 128 pos ->
  ((ds_words (d_mexp q) * 416 + 618) * 129 <= fuel)%N ->
  let d := Z.to_nat (d_mexp q) in let s0 := ds_seed (eq_seed seed junk) (ds_new q) in let c := s0.1.1 in
  forall v52 tail, (52 <= length v52)%N ->
  (exists f out q52, [/\ ds_equi_main M pos fuel seed junk v52 (ds_text q ++ tail) = Ret (Some out),
      low_factor ds_ops s0 d f /\ f %| char_poly (dsfmt_A c), eq_text out = ds_text q,
      eq_deltas out = [defect_sum d 52 q52] & exists2 t52, eq_tables out = [t52] & table_of d 52 q52 t52] /\
    (exists W, ds_comp_words c f W) /\ forall W, ds_comp_words c f W -> word_dims52 W q52) \/
  ds_equi_main M pos fuel seed junk v52 (ds_text q ++ tail) = Ret None /\ forall f, ~ low_factor ds_ops s0 d f.
Proof. by move=> H1 H2 H3 H4 H5 H6 M pos fuel seed junk H7 H8 H9 d s0 c v52 tail; exact: ds_equi_thm. Qed.

Example C83_case : (sfp_ok sf_exp /\ (256 <= f_mexp sf_exp < 2 ^ 31 - 128)%coqZ /\ (0 <= f_pos1 sf_exp < 2 ^ 31)%coqZ /\
  (0 < f_pos1 sf_exp mod (f_mexp sf_exp / 128 + 1))%coqZ /\ (f_parity sf_exp < 2 ^ 128)%num) /\
  (dsp_ok ds_exp /\ (0 < d_sl1 ds_exp)%coqZ /\ (232 <= d_mexp ds_exp < 2 ^ 31 - 128)%coqZ /\ (0 <= d_pos1 ds_exp < 2 ^ 31)%coqZ /\
  (d_fix ds_exp < 2 ^ 128)%num /\ (d_parity ds_exp < 2 ^ 128)%num) /\
  minpolyseq_spec mps /\ pos_spec 128 (fun x => Ret (w_calc_1pos_wrap (w_of x))) /\
  table_of 19 3 [18; 9; 5]%coqZ [(18, 1); (9, 0); (5, 1)]%coqZ /\
  eq_table 19 3 [18; 9; 5]%coqZ = [(18, 1); (9, 0); (5, 1)]%coqZ.
Proof.
split; first by split; [split|]. split; first by split; [split|].
split; first exact: mps_spec. split; first exact: pos_spec128. split; last by [].
by split=> // -[|[|[|[|]]]] //= _ k <-.
Qed.

Print Assumptions C83_sfmt.
Print Assumptions C83_same.
Print Assumptions C83_dsfmt.
