(** Properties of the search programs sfmtdc (C73) and dSFMTdc (C74). *)
From Coq Require Import NArith ZArith List Bool Lia.
From mathcomp Require Import all_ssreflect all_algebra.
From mathcomp Require Import zify.
From Verif Require Import Base GenModel PolyF2 LinSpec ArrayModel PeriodModel PeriodSpec PolyAct PeriodProofs4 PeriodEx ParityModel ParitySpec ParityEx W128Model W128Spec
  SfmtModel SfmtLin SfmtParity SimdSpec DsfmtModel DsfmtLin DsfmtFixSpec UtilModel PrimeProps SearchModel SearchSpec SearchSfmt SearchDsfmt.
Set Implicit Arguments.
Unset Strict Implicit.
Unset Printing Implicit Defensive.
Local Open Scope ring_scope.
Delimit Scope Z_scope with coqZ.

(** C73: search() of sfmtdc returns 0.  Every line printed is a legal parameter set
    that means what it says ([sf_line_ok]).  It prints count lines, unless there
    are 100 * mexp parameter sets in a row, chosen by setUpParam with the values
    the parameter generator returns later on, that have no large factor of degree
    mexp. *)
Theorem C73_sfmtdc : forall B (next : B -> N * B) M kernel pos junk d fuel,
  (forall b, ((next b).1 < 2 ^ 32)%num) -> minpolyseq_spec M -> kernel_spec kernel -> pos_spec 128 pos ->
  (256 <= d)%N -> ~~ (128 %| d)%N -> (Z.of_nat d * 100 < 2 ^ 31)%coqZ ->
  let size := Z.to_nat (Z.of_nat d / 128 + 1) in
  ((size * 512 + 194) * 129 <= fuel)%N ->
  forall arr v128 v32 v64 count mt, (128 <= length v128)%N -> (32 <= length v32)%N -> (64 <= length v64)%N ->
  exists lines, [/\ sfmtdc_search next M kernel pos junk fuel arr v128 v32 v64 (Z.of_nat d) count mt = Ret (lines, 0%coqZ),
    (length lines <= Z.to_nat count)%N, (forall l, List.In l lines -> sf_line_ok d l) &
    length lines = Z.to_nat count \/
    exists r b, [/\ exists p, r.1.1 = SFC p size 0 4 false /\ f_mexp p = Z.of_nat d, later next mt b &
      failed sf_ops (sf_setUp next) d (size * 128) (100 * d) r b]].
Proof. exact sf_search_thm. Qed.

(** The exponents the program's help names meet the conditions on d. *)
Definition sfmtdc_mexps : seq nat :=
  [seq N.to_nat x | x <- [:: 607; 1279; 2281; 3217; 4253; 4423; 9689; 9941; 11213; 19937; 21701; 23209; 44497]%num].
Example C73_mexps : forall d, d \in sfmtdc_mexps -> [/\ (256 <= d)%N, ~~ (128 %| d)%N & (Z.of_nat d * 100 < 2 ^ 31)%coqZ].
Proof.
move=> d /mapP[x Hx ->]; rewrite N_nat_Z.
have H : all (fun x => [&& (256 <=? x)%num, ~~ (x mod 128 =? 0)%num & (Z.of_N x * 100 <? 2 ^ 31)%coqZ])
  [:: 607; 1279; 2281; 3217; 4253; 4423; 9689; 9941; 11213; 19937; 21701; 23209; 44497]%num by vm_compute.
have /and3P[/N.leb_le H1 H2 /Z.ltb_lt H3] := allP H x Hx; split=> //; first by lia.
apply: contra H2 => /dvdnP[q E]; apply/N.eqb_eq.
have -> : x = (N.of_nat q * 128)%num by lia.
exact: N.mod_mul.
Qed.
(** A case: mexp 607, a counter as parameter generator, two lines wanted. *)
Example C73_case : let next := fun b : N => ((b mod 2 ^ 32)%num, (b + 12345)%num) in
  let d := N.to_nat 607 in let fuel := N.to_nat 400000 in let pos := fun x => Ret (w_calc_1pos_wrap (w_of x)) in
  prime (2 ^ d - 1) /\ exists lines,
  [/\ sfmtdc_search next mps brute pos 0%num fuel nil (nseq 128 0%coqZ) (nseq 32 0%coqZ) (nseq 64 0%coqZ) (Z.of_nat d) 2 1%num = Ret (lines, 0%coqZ),
    (length lines <= 2)%N & forall l, List.In l lines -> sf_line_ok d l].
Proof.
move=> next d fuel pos; split; first by apply: C22_isMexp_sound_partial.
have [|||||lines [H1 H2 H3 _]] := @C73_sfmtdc N next mps brute pos 0%num d fuel _ mps_spec brute_spec pos_spec128 _ _ _ _
  nil (nseq 128 0%coqZ) (nseq 32 0%coqZ) (nseq 64 0%coqZ) 2%coqZ 1%num erefl erefl erefl; last by exists lines; split.
- by move=> b; apply: N.mod_lt.
- by [].
- by [].
- by [].
- have -> : Z.to_nat (Z.of_nat d / 128 + 1) = 5%N by [].
  by rewrite /fuel; lia.
Qed.

(** C74: search() of dSFMTdc returns 0.  Every line printed is a legal parameter set
    with fixed point and parity vector that means what it says ([ds_line_ok]).  It
    prints count lines, unless there are 100 * mexp parameter sets in a row, chosen
    by setUpParam with the values the parameter generator returns later on, that
    have no large factor of degree mexp.  [fixed] is the value of the option, an
    sl1 from 1 to 63. *)
Theorem C74_dsfmtdc : forall B (next : B -> N * B) M kernel XGCD pos junk d fuel fixed, (forall b, ((next b).1 < 2 ^ 64)%num) ->
  minpolyseq_spec M -> kernel_spec kernel -> xgcd_spec XGCD -> pos_spec 128 pos ->
  (336 <= d)%N -> (Z.of_nat d * 100 < 2 ^ 31)%coqZ -> (if fixed is Some sl then (0 < sl < 64)%coqZ else True) ->
  let size := ds_words (Z.of_nat d) in
  let fix_sl1 := if fixed is Some _ then true else false in let sl := if fixed is Some x then x else 0%coqZ in
  ((size * 416 + 618) * 129 <= fuel)%N ->
  forall arr v52 count mt, (52 <= length v52)%N ->
  exists lines, [/\ dsfmtdc_search next M kernel XGCD pos junk fuel arr v52 (Z.of_nat d) count fixed mt = Ret (lines, 0%coqZ),
    (length lines <= Z.to_nat count)%N, (forall l, List.In l lines -> ds_line_ok fix_sl1 sl d l) &
    length lines = Z.to_nat count \/
    exists r b, [/\ exists p, r.1.1 = DSC p size 0 2 0 fix_sl1 sl /\ d_mexp p = Z.of_nat d, later next mt b &
      failed ds_ops (ds_setUp next) d (size * 104 + 128) (100 * d) r b]].
Proof. exact ds_search_thm. Qed.
Definition dsfmtdc_mexps : seq nat := [seq N.to_nat x | x <- [:: 521; 1279; 2203; 4253; 11213; 19937; 44497]%num].
Example C74_mexps : forall d, d \in dsfmtdc_mexps -> (336 <= d)%N /\ (Z.of_nat d * 100 < 2 ^ 31)%coqZ.
Proof.
move=> d /mapP[x Hx ->]; rewrite N_nat_Z.
have H : all (fun x => (336 <=? x)%num && (Z.of_N x * 100 <? 2 ^ 31)%coqZ) [:: 521; 1279; 2203; 4253; 11213; 19937; 44497]%num by vm_compute.
by have /andP[/N.leb_le H1 /Z.ltb_lt H2] := allP H x Hx; split=> //; lia.
Qed.
(** A case: mexp 521, sl1 fixed to 19. *)
Definition egcd_ex (f g : f2x) : f2x * f2x * f2x := let u := egcdp f g in (u.1 * f + u.2 * g, u.1, u.2).
Lemma egcd_ex_spec : xgcd_spec egcd_ex.
Proof.
move=> x y e a b [<- <- <-]; have E := egcdpE x y; split=> //; first by rewrite -(eqp_dvdl _ E) dvdp_gcdl.
by rewrite -(eqp_dvdl _ E) dvdp_gcdr.
Qed.
Example C74_case : let next := fun b : N => ((b mod 2 ^ 64)%num, (b + 12345)%num) in
  let d := N.to_nat 521 in let fuel := N.to_nat 400000 in let pos := fun x => Ret (w_calc_1pos_wrap (w_of x)) in
  prime (2 ^ d - 1) /\ exists lines,
  [/\ dsfmtdc_search next mps brute egcd_ex pos 0%num fuel nil (nseq 52 0%coqZ) (Z.of_nat d) 2 (Some 19%coqZ) 1%num = Ret (lines, 0%coqZ),
    (length lines <= 2)%N & forall l, List.In l lines -> ds_line_ok true 19 d l].
Proof.
move=> next d fuel pos; split; first by apply: C22_isMexp_sound_partial.
have [|||||lines [H1 H2 H3 _]] := @C74_dsfmtdc N next mps brute egcd_ex pos 0%num d fuel (Some 19%coqZ) _ mps_spec brute_spec egcd_ex_spec pos_spec128 _ _ _ _
  nil (nseq 52 0%coqZ) 2%coqZ 1%num erefl; last by exists lines; split.
- by move=> b; apply: N.mod_lt.
- by [].
- by [].
- by [].
- have -> : ds_words (Z.of_nat d) = 4%N by [].
  by rewrite /fuel; lia.
Qed.

Print Assumptions C73_sfmtdc.
Print Assumptions C74_dsfmtdc.
