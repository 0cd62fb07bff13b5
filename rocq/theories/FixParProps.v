(** Property C82: the programs calc_fixpoint and calc_parity of dSFMTdc. *)
From Coq Require Import NArith ZArith List Bool Lia.
From mathcomp Require Import all_ssreflect all_algebra.
From mathcomp Require Import zify.
From Verif Require Import Base UtilModel GenModel PolyF2 LinSpec PeriodModel PeriodSpec PolyAct ArrayModel W128Model W128Spec SfmtModel SfmtParity ParitySpec ParityEx
  DsfmtModel DsfmtLin DsfmtFixModel DsfmtFixSpec DsfmtProps SearchProps PerTestModel FixParModel FixParSpec FixParProofs.
Import ListNotations.
Set Implicit Arguments.
Unset Strict Implicit.
Unset Printing Implicit Defensive.
Local Open Scope ring_scope.
Delimit Scope Z_scope with coqZ.

(** C82: calc_fixpoint, started with a line that begins with the five parameters of
    the recursion of q (mexp = d at least 232) and whatever follows.  If the minimal
    polynomial of the lowest output bit of the seeded object has an irreducible
    factor f of degree d, the program prints these parameters with a new fixed point
    and parity vector zero.  The fixed point is the lung of a state that, in the
    component of f, one step of the object in use (x |-> x A + C) leaves as it is.
    If there is no such factor it prints a message.  It never finds a remainder. *)
Theorem C82_calc_fixpoint : forall q, dsp_ok q -> (0 < d_sl1 q)%coqZ -> (232 <= d_mexp q < 2 ^ 31 - 128)%coqZ -> (0 <= d_pos1 q < 2 ^ 31)%coqZ ->
  forall M XGCD fuel, minpolyseq_spec M -> xgcd_spec XGCD -> (Z.to_nat (d_mexp q) + 104 < fuel)%N ->
  forall junk t, let p := base q 0 0 in let c := (ds_new p).1.1 in let d := Z.to_nat (d_mexp q) in
  let s0 := ds_seed (fp_seed junk) (ds_new p) in
  (exists f F cst, [/\ large_of s0 d f, dsfmt_ok c F, ds_setConst (ds_new p) = Ret cst,
     comp_fixed (dsfmt_A c) (dsfmt_vec c cst) f (dsfmt_vec c F) &
     fix_main M XGCD fuel junk (ds_text q ++ t) = Ret (FpLine (ds_text (base q (ds_lung F) 0)))]) \/
  ((forall f, ~ large_of s0 d f) /\ fix_main M XGCD fuel junk (ds_text q ++ t) = Ret FpNoFactor).
Proof. exact fix_program. Qed.
(** calc_parity, started with a line that begins with the parameters and the fixed
    point of q: it prints them with a parity vector v, which certifies for the
    component of f, and returns 0; without a factor of degree d it prints a message
    and returns -1. *)
Theorem C82_calc_parity : forall q, dsp_ok q -> (0 < d_sl1 q)%coqZ -> (232 <= d_mexp q < 2 ^ 31 - 128)%coqZ -> (0 <= d_pos1 q < 2 ^ 31)%coqZ ->
  forall M pos kernel fuel, minpolyseq_spec M -> pos_spec 128 pos -> kernel_spec kernel -> (Z.to_nat (d_mexp q) + 104 < fuel)%N ->
  forall junk junk2 t, (d_fix q < 2 ^ 128)%num ->
  let p := base q (d_fix q) 0 in let c := (ds_new p).1.1 in let d := Z.to_nat (d_mexp q) in
  let s0 := ds_seed (fp_seed junk) (ds_new p) in
  (exists f v, [/\ large_of s0 d f, (0 < v < 2 ^ 128)%num, certifies_lung c f v &
     par_main M pos kernel fuel junk junk2 (ds_text q ++ t) = Ret (FpLine (ds_text (base q (d_fix q) v)), 0%coqZ)]) \/
  ((forall f, ~ large_of s0 d f) /\ par_main M pos kernel fuel junk junk2 (ds_text q ++ t) = Ret (FpNoFactor, (-1)%coqZ)).
Proof. exact par_program. Qed.
(** The line that calc_fixpoint prints, given to calc_parity: if that prints a line
    as well, the parameters in it are those of q with a fixed point and a parity
    vector for which, if 2^d - 1 is prime, the period of every state of the object in
    use is a multiple of 2^d - 1 after periodCertification.  The second words of the
    seeds, which neither program initialises, need not agree. *)
Theorem C82_pipeline : forall q, dsp_ok q -> (0 < d_sl1 q)%coqZ -> (232 <= d_mexp q < 2 ^ 31 - 128)%coqZ -> (0 <= d_pos1 q < 2 ^ 31)%coqZ ->
  forall M XGCD pos kernel fuel, minpolyseq_spec M -> xgcd_spec XGCD -> pos_spec 128 pos -> kernel_spec kernel ->
  let d := Z.to_nat (d_mexp q) in (d + 104 < fuel)%N ->
  forall junk junk' junk2 t t' l1 l2 z, fix_main M XGCD fuel junk (ds_text q ++ t) = Ret (FpLine l1) ->
  par_main M pos kernel fuel junk' junk2 (l1 ++ t') = Ret (FpLine l2, z) ->
  exists fx v, [/\ (fx < 2 ^ 128)%num, (0 < v < 2 ^ 128)%num, z = 0%coqZ, l2 = ds_text (base q fx v) &
    prime (2 ^ d - 1) -> forall s, ds_live (ds_new (base q fx v)).1.1 s ->
      let s' := (ds_periodCertification false s).2 in
      [/\ ds_live (ds_new (base q fx v)).1.1 s', s'.1 = s.1 &
        forall k, exists2 g, ds_steps k s' = Ret g & (ds_equals s' g -> 2 ^ d - 1 %| k)%N]].
Proof. exact fp_pipeline. Qed.

(** The parameters of dSFMT521; the oracles have instances, and there are states of
    the object in use. *)
Example C82_case : dsp_ok ds_exp /\ (0 < d_sl1 ds_exp)%coqZ /\ (232 <= d_mexp ds_exp < 2 ^ 31 - 128)%coqZ /\ (0 <= d_pos1 ds_exp < 2 ^ 31)%coqZ /\
  minpolyseq_spec mps /\ xgcd_spec egcd_ex /\ pos_spec 128 (fun x => Ret (w_calc_1pos_wrap (w_of x))) /\ kernel_spec brute /\
  (d_fix ds_exp < 2 ^ 128)%num /\ fix_parse (ds_text ds_exp) = Ret (base ds_exp 0 0) /\
  (exists s, ds_live (ds_new (base ds_exp 3 5)).1.1 s).
Proof.
have H : dsp_ok ds_exp by split.
split; first exact: H. do 3 (split; first by []). split; first exact: mps_spec. split; first exact: egcd_ex_spec. split; first exact: pos_spec128.
split; first exact: brute_spec. split; first by []. split; first by vm_compute.
have O : dsp_ok (base ds_exp 3 5) by split.
have [H1 _] : dsc_ok (ds_new (base ds_exp 3 5)).1.1 /\ dsfmt_ok (ds_new (base ds_exp 3 5)).1.1 (ds_new (base ds_exp 3 5)) by apply: C65_new.
exists (ds_seed 1234 ((with_prefix 0x3ff0000000000000 (ds_new (base ds_exp 3 5)).1.1, RR 0 nil), (0, 0)%num)).
exact: C68_seed.
Qed.

Print Assumptions C82_calc_fixpoint.
Print Assumptions C82_calc_parity.
Print Assumptions C82_pipeline.
