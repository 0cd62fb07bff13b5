(** Property C78: the program rmt64dc. *)
From Coq Require Import NArith ZArith Lia List Bool.
From mathcomp Require Import all_ssreflect all_algebra.
From mathcomp Require Import zify.
From Verif Require Import Base WordLemmas UtilModel GenModel PolyF2 LinSpec PeriodSpec EquiEx PeriodProofs4 PeriodProofs7 ParitySpec PrimeProps ParityEx EquiProofs6 PolyAct
  TemperSpec RecTemperSpec ArrayModel RmtModel RmtLin RmtProofs Mt2Spec RmtDcModel RmtDcSpec RmtDcProofs.
Set Implicit Arguments.
Unset Strict Implicit.
Unset Printing Implicit Defensive.
Import GRing.Theory.
Local Open Scope ring_scope.
Delimit Scope Z_scope with coqZ.

(** When rmt64dc (without verbose) ends without undefined behaviour, the lines
    printed are those of RmtDcSpec: the random numbers are taken two at a time, the
    recursions without the large factor are left out, each of the others gets a
    line.  The line has its position and mata and, if the recursion is
    invertible, a parity vector that certifies the period, and, if this vector has
    an odd number of ones, the masks of two searches by windows of six bits and
    the sum of n / v - k(v) for the large component.  Uninitialised members have
    no influence.  The first test is made with the masks of the line before. *)
Theorem C78_lines : forall d, Nat.modulo d 64 <> 0%N -> (64 < d)%N -> prime (2 ^ d - 1) ->
  forall B (next : B -> N * B), (forall b, ((next b).1 < 2 ^ 64)%num) ->
  forall M kernel pos junk efuel sfuel ffuel veq0, minpolyseq_spec M -> kernel_spec kernel -> pos_spec 64 pos ->
  ((4 * ((d / 64 + 1)%nat * 64) + 2) * 65 <= efuel)%N -> (63 < sfuel)%N -> (64 <= length veq0)%N ->
  forall upos umata count b lines,
  rd_main next M kernel pos junk efuel sfuel ffuel veq0 d upos umata count b = Ret lines ->
  rd_listing d next b 0 0 (Z.to_nat count) lines.
Proof.
move=> d H1 H2 Hp B next Hn M kernel pos junk ef sf ff veq HM HK HP He Hs Hv upos umata count b lines E.
by have := loop_spec H1 H2 Hn HM HK HP He Hs Hv Hp _ E; apply; exists false, upos, umata, 0%num, 0%num, 0%num.
Qed.
(** There are count lines. *)
Theorem C78_count : forall d B (next : B -> N * B) b mb mc k lines, rd_listing d next b mb mc k lines -> length lines = k.
Proof. by move=> d B next b mb mc k lines; elim=> // {b mb mc lines} b mb mc c l ls _ _ /= ->. Qed.
(** With more than 32 bits beside the large component (most of the exponents
    that the program offers), no line is for an invertible recursion: the low
    bits lose information in every line with a position other than 0. *)
Theorem C78_singular : forall d B (next : B -> N * B), (d + 32 < (d / 64 + 1)%nat * 64)%N -> (forall b, ((next b).1 < 2 ^ 64)%num) ->
  forall b mb mc k lines, rd_listing d next b mb mc k lines ->
  forall l, List.In l lines -> (0 < rl_pos l)%N -> N.testbit (rl_mata l) 63 = false.
Proof.
move=> d B next Hd Hn b mb mc k lines; elim=> // {b mb mc k lines} b mb mc k l ls [[P1 P2] _ [f [_ _ U]]] _ IH l' [<-|]; last exact: IH.
move=> Hpos; apply/negP => T.
have UA : rd_A d (number next 0 b) (number next 1 b) \in unitmx.
  have Hp : rmtp_ok (rd_gen d (number next 0 b) (number next 1 b) 0 0).
    split; [by cbn [rd_gen r_size]; rewrite addn1|exact: pos_range|split; [exact: Hn|by []|by []]].
  by apply/(rmt_unit Hp); cbn [rd_gen r_pos r_mata]; rewrite -?P1 -?P2.
by have [L _ _ _] := U UA; move: Hd L; clear; generalize ((d / 64 + 1)%nat * 64)%N; lia.
Qed.
(** The exponents that the program offers. *)
Definition rd_mexps : seq N := [:: 521; 607; 1279; 2203; 2281; 3217; 4253; 4423; 9689; 9941; 11213; 19937; 21701; 23209; 44497]%num.
Example C78_mexps : List.Forall (fun x => let d := N.to_nat x in Nat.modulo d 64 <> 0%N /\ (64 < d)%N) rd_mexps /\
  [seq x <- rd_mexps | (x + 32 <? (x / 64 + 1) * 64)%num] = [:: 521; 607; 2203; 3217; 4253; 4423; 9689; 9941; 11213; 21701; 44497]%num.
Proof. by split; [rewrite /rd_mexps; repeat constructor; vm_compute|]. Qed.
(** The hypotheses hold together for mexp = 1279, with numbers 1, 2, 3, ... *)
Example C78_1279 : let d := N.to_nat 1279 in let next := fun b : N => ((b mod 2 ^ 64)%num, (b + 1)%num) in
  forall lines, rd_main next mps brute (fun x => Ret (calc_1pos64_wrap x)) 7 (N.to_nat 340000) 64 1 (List.repeat 0%coqZ 64) d 5 6 2 1%num = Ret lines ->
  rd_listing d next 1%num 0 0 2 lines /\ length lines = 2%N.
Proof.
move=> d next lines.
have Hn b : ((next b).1 < 2 ^ 64)%num by apply: N.mod_lt.
have d1 : Nat.modulo d 64 <> 0%N by vm_compute.
have d2 : (64 < d)%N by vm_compute.
have He : ((4 * ((d / 64 + 1)%nat * 64) + 2) * 65 <= N.to_nat 340000)%N.
  by have -> : (d / 64 + 1)%nat = 20%N by vm_compute.
have Hp : prime (2 ^ d - 1) by apply: C22_isMexp_sound_partial.
move=> /(@C78_lines d d1 d2 Hp N next Hn mps brute (fun x => Ret (calc_1pos64_wrap x)) 7%num (N.to_nat 340000) 64 1 (List.repeat 0%coqZ 64) mps_spec brute_spec pos_spec64 He isT isT) H.
by split; [exact: H|exact: (C78_count H)].
Qed.
(** Position and mata of two numbers. *)
Example C78_pos : rd_pos (N.to_nat 1279) 0x123456789abcdef0 = 0%N.
Proof. by vm_compute. Qed.

Print Assumptions C78_lines.
Print Assumptions C78_count.
Print Assumptions C78_singular.
