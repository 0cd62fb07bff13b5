(** Property C75: the program mt2 of samples/MTDC. *)
From Coq Require Import NArith ZArith List Bool Lia.
From mathcomp Require Import all_ssreflect all_algebra.
From mathcomp Require Import zify.
From Verif Require Import Base GenModel PolyF2 LinSpec PeriodModel PeriodSpec EquiModel EquiEx PolyAct PeriodProofs4 SampleSpec MtdcModel MtdcLin MtdcProofs MtdcEx TinyDcProofs TinyPeriod TinyEx Mt2Ex
  PrimeProps Mt2Model Mt2Spec Mt2Proofs.
Set Implicit Arguments.
Unset Strict Implicit.
Unset Printing Implicit Defensive.
Import GRing.Theory.
Local Open Scope ring_scope.
Delimit Scope Z_scope with coqZ.

(** C75: mt2 takes the numbers of its parameter generator two at a time, gives
    every recursion of maximal period among them its best masks and its defect,
    and prints those with a defect of at most max_delta, in order, until there
    are count lines; then it returns 0.  It has no other outcome: if the fuel
    does not suffice, then there were ffuel * 1000 * mexp recursions in a row that
    are not maximal, or [loops] maximal recursions with less than count small
    defects among them.  Uninitialised members have no influence. *)
Theorem C75_mt2 : forall d id, (64 <= d)%N -> Nat.modulo d 32 <> 0%N -> (1000 * N.of_nat d < 2 ^ 31)%num -> (0 <= id < 2 ^ 16)%coqZ ->
  forall B (next : B -> N * B), (forall b, ((next b).1 < 2 ^ 32)%num) ->
  forall M pos efuel ffuel veq0, minpolyseq_spec M -> pos_spec 32 pos -> ((4 * d + 2) * 33 <= efuel)%N -> (32 <= length veq0)%N ->
  prime (2 ^ d - 1) ->
  forall loops jpos jmata max_delta verbose count b,
  let out := mt2_main next M pos efuel ffuel veq0 loops d id jpos jmata max_delta verbose count b in
  (exists lines, out = Ret (lines, 0%coqZ) /\ mt2_listing d id next max_delta b (Z.to_nat count) lines) \/
  out = NoFuel /\ (mt2_poor d id next max_delta b loops (Z.to_nat count) \/
     exists j, mt2_barren d id next (ffuel * (1000 * d)) (after next (2 * j) b)).
Proof. by move=> d id d64 d32 dmax Hid B next Hnext M pos efuel ffuel veq0 HM Hpos He Hv Hp; apply: main_spec => //; move: dmax; clear; lia. Qed.
(** Each line has the form the program's users rely on: a position from 2 to
    size - 1, the id in the low half of mata, maximal period, and a delta that is
    the total defect of exactly the generator printed. *)
Theorem C75_line : forall d id, (64 <= d)%N -> Nat.modulo d 32 <> 0%N -> (N.of_nat d < 2 ^ 31)%num -> (0 <= id < 2 ^ 16)%coqZ ->
  forall B (next : B -> N * B), (forall b, ((next b).1 < 2 ^ 32)%num) ->
  forall max_delta b k lines, mt2_listing d id next max_delta b k lines ->
  length lines = k /\ forall l, List.In l lines ->
    [/\ (2 <= ml_pos l < mt32_size d)%N, N.land (ml_mata l) 0xffff = Z.to_N id, N.testbit (ml_mata l) 31, (ml_delta l <= max_delta)%coqZ &
        let p := mt32_par d id (ml_pos l) (ml_mata l) (ml_maskb l) (ml_maskc l) in
        [/\ mtp_ok p, maximal_period (mtg_A p) & total_defect (mtg_A p) (mtg_C p) 32 (ml_delta l)]].
Proof. exact listing_lines. Qed.
(** The exponents that the program accepts meet the conditions on the size. *)
Definition mt2_mexps : seq nat :=
  [seq N.to_nat x | x <- [:: 521; 607; 1279; 2203; 2281; 3217; 4253; 4423; 9689; 9941; 11213; 19937; 21701; 23209; 44497]%num].
Example C75_mexps : forall d, d \in mt2_mexps -> [/\ (64 <= d)%N, Nat.modulo d 32 <> 0%N & (1000 * N.of_nat d < 2 ^ 31)%num].
Proof.
move=> d /mapP[x Hx ->].
have H : all (fun x => [&& (64 <=? x)%num, ~~ (x mod 32 =? 0)%num & (1000 * x <? 2 ^ 31)%num])
  [:: 521; 607; 1279; 2203; 2281; 3217; 4253; 4423; 9689; 9941; 11213; 19937; 21701; 23209; 44497]%num by vm_compute.
have /and3P[/N.leb_le H1 H2 /N.ltb_lt H3] := allP H x Hx; split; [by lia| |by rewrite N2Nat.id].
move/eqP: H2; apply: contra_not => E; apply/N.eqb_eq.
have := Nat.div_mod (N.to_nat x) 32 ltac:(lia); rewrite E => E2.
have -> : x = (N.of_nat (Nat.div (N.to_nat x) 32) * 32)%num by lia.
by rewrite N.mod_mul.
Qed.
Example C75_521 : prime (2 ^ N.to_nat 521 - 1).
Proof. by apply: C22_isMexp_sound_partial. Qed.
(** A run with 127 bits that prints a line. *)
Example C75_case : let next := fun b : N => ((if N.even b then 0 else 0x83a90000)%num, (b + 1)%num) in
  exists l, mt2_main next mps pos32 (N.to_nat 17000) 1 (List.repeat 0%coqZ 32) 1 (N.to_nat 127) 0x895d 0 0 (2 ^ 31 - 1) false 1 0%num = Ret ([:: l], 0%coqZ) /\
    ml_pos l = 2%N /\ ml_mata l = 0x83a9895d%num.
Proof. exact mt2_case. Qed.

Print Assumptions C75_mt2.
Print Assumptions C75_line.
