(** Property C76: the program MTGP32dc. *)
From Coq Require Import NArith ZArith List Bool Lia.
From mathcomp Require Import all_ssreflect all_algebra.
From mathcomp Require Import zify.
From Verif Require Import Base GenModel PolyF2 LinSpec PeriodModel PeriodSpec EquiModel EquiEx PolyAct PeriodProofs4 SampleSpec TinyPeriod
  PrimeProps MtgpModel MtgpLin MtgpProofs Mt2Spec MtgpDcModel MtgpDcSpec MtgpDcProofs.
Set Implicit Arguments.
Unset Strict Implicit.
Unset Printing Implicit Defensive.
Import GRing.Theory.
Local Open Scope ring_scope.
Delimit Scope Z_scope with coqZ.

(** C76: MTGP32dc prints exactly count lines and returns 0.  Line i is for the
    id + i (modulo 2^32); it belongs to the first maximal recursion among those
    that the numbers of the generator stand for, five at a time, starting again
    with the first number for every line.  It has no other outcome: if the fuel
    does not suffice, then there is an id for which ffuel * 1000 * mexp recursions
    in a row are not maximal; in particular "search failed" is never printed.
    Uninitialised members have no influence. *)
Theorem C76_mtgp32dc : forall d, Nat.modulo d 32 <> 0%N -> (1000 * N.of_nat d < 2 ^ 31)%num -> (3 <= gp_last (d / 32 + 1)%nat)%coqZ ->
  forall B (next : B -> N * B), (forall b, ((next b).1 < 2 ^ 32)%num) ->
  forall M pos efuel sfuel ffuel veq0, minpolyseq_spec M -> pos_spec 32 pos -> ((4 * d + 2) * 33 <= efuel)%N -> (23 < sfuel)%N -> (32 <= length veq0)%N ->
  prime (2 ^ d - 1) ->
  forall id junk verbose count b, (id < 2 ^ 32)%num ->
  let out := gpd_main next M pos efuel sfuel ffuel veq0 d id junk verbose count b in
  (exists lines, [/\ out = Ret (lines, 0%coqZ), length lines = Z.to_nat count &
     forall i l, List.nth_error lines i = Some l -> gpd_first d ((id + N.of_nat i) mod 2 ^ 32) next b l]) \/
  out = NoFuel /\ exists i, (i < Z.to_nat count)%N /\ gpd_barren d ((id + N.of_nat i) mod 2 ^ 32) next (ffuel * (1000 * d)) b.
Proof.
move=> d d32 dmax Hl B next Hn M pos ef sf ff veq HM HP Hef Hsf Hv Hp id junk verbose count b Hid.
by apply: main_spec => //; move: dmax; clear; lia.
Qed.
(** Each line has the form that the users of the parameters rely on: position
    3 to gp_last, the id in tbl[2] and tbl[3], maximal period 2^mexp - 1, and a
    delta that is the total defect of exactly the generator printed. *)
Theorem C76_line : forall d id, Nat.modulo d 32 <> 0%N -> (3 <= gp_last (d / 32 + 1)%nat)%coqZ -> (id < 2 ^ 32)%num ->
  forall B (next : B -> N * B), (forall b, ((next b).1 < 2 ^ 32)%num) ->
  forall b l, gpd_first d id next b l ->
  [/\ gl_id l = id, (3 <= Z.of_nat (gl_pos l) <= gp_last (d / 32 + 1)%nat)%coqZ,
      N.lor (N.land (N.shiftr (List.nth 2 (gl_tbl l) 0%num) 4) 0xffff) (N.land (List.nth 3 (gl_tbl l) 0%num) 0xffff0000) = id &
      let p := gpd_par d id false 0 (gl_pos l) (gl_tbl l) (gl_tmp l) in
      [/\ gpp_ok p, maximal_period (gpu_A p) & total_defect (gpu_A p) (gpu_C p) 32 (gl_delta l)]].
Proof. exact first_line. Qed.
(** Two lines of one run are never for the same recursion. *)
Theorem C76_distinct : forall d id, Nat.modulo d 32 <> 0%N -> (3 <= gp_last (d / 32 + 1)%nat)%coqZ ->
  forall B (next : B -> N * B), (forall b, ((next b).1 < 2 ^ 32)%num) ->
  forall b lines, (forall i l, List.nth_error lines i = Some l -> gpd_first d ((id + N.of_nat i) mod 2 ^ 32) next b l) ->
  forall i j li lj, (i < j)%N -> (N.of_nat j < 2 ^ 32)%num -> List.nth_error lines i = Some li -> List.nth_error lines j = Some lj ->
  gl_tbl li <> gl_tbl lj.
Proof. exact lines_distinct. Qed.

(** The exponents that the program accepts meet the conditions on the size. *)
Definition gpd_mexps : seq N := [:: 3217; 4423; 11213; 23209; 44497; 110503; 216091]%num.
Example C76_mexps : forall x, x \in gpd_mexps -> let d := N.to_nat x in
  [/\ Nat.modulo d 32 <> 0%N, (1000 * N.of_nat d < 2 ^ 31)%num & (3 <= gp_last (d / 32 + 1)%nat)%coqZ].
Proof. by move=> x; rewrite !inE => /or4P[/eqP->|/eqP->|/eqP->|/or4P[/eqP->|/eqP->|/eqP->|/eqP->]]; split; vm_compute. Qed.
(** The hypotheses hold together for mexp = 521, with numbers 1, 2, 3, ... *)
Example C76_521 : let d := N.to_nat 521 in let next := fun b : N => ((b mod 2 ^ 32)%num, (b + 1)%num) in
  let out := gpd_main next mps pos32 (N.to_nat 70000) 24 1 (List.repeat 0%coqZ 32) d 0xffffffff (fun _ => GJ 0 0 0 0) false 2 1%num in
  (exists l0 l1, [/\ out = Ret ([:: l0; l1], 0%coqZ), gpd_first d 0xffffffff next 1%num l0 & gpd_first d 0 next 1%num l1]) \/
  out = NoFuel /\ exists id, gpd_barren d id next (1 * (1000 * d)) 1%num.
Proof.
move=> d next; cbv zeta.
have Hn b : ((next b).1 < 2 ^ 32)%num by apply: N.mod_lt.
have d32 : Nat.modulo d 32 <> 0%N by vm_compute.
have dm : (1000 * N.of_nat d < 2 ^ 31)%num by vm_compute.
have Hl : (3 <= gp_last (d / 32 + 1)%nat)%coqZ by vm_compute.
have He : ((4 * d + 2) * 33 <= N.to_nat 70000)%N by rewrite /d; lia.
have Hp : prime (2 ^ d - 1) by apply: C22_isMexp_sound_partial.
have := @C76_mtgp32dc d d32 dm Hl N next Hn mps pos32 (N.to_nat 70000) 24 1 (List.repeat 0%coqZ 32) mps_spec pos32_ok He isT isT Hp
  0xffffffff%num (fun _ => GJ 0 0 0 0) false 2%coqZ 1%num erefl.
clear Hp He Hl dm d32; generalize (gpd_main next mps pos32 (N.to_nat 70000) 24 1 (List.repeat 0%coqZ 32) d 0xffffffff (fun _ => GJ 0 0 0 0) false 2 1%num) => out.
cbv zeta; case=> [[lines [E L H]]|[E [i [_ H]]]]; last by right; split; [exact: E|eexists; exact: H].
case: lines E L H => [|l0 [|l1 [|l2 l]]] E L H; [discriminate L|discriminate L| |discriminate L].
by left; exists l0, l1; split; [exact: E|exact: (H 0%N l0 erefl)|exact: (H 1%N l1 erefl)].
Qed.
(** What five numbers stand for: position 3 + 12345 mod 5; the low bits 0001 of the
    first table word become 0000; the id 0x1234abcd. *)
Example C76_words : let u := fun k => List.nth k [:: 12345; 0x11111111; 0x22222227; 0x33333333; 0x44444444]%num 0%num in
  gpd_pos (N.to_nat 521) (u 0%N) = 3%N /\ gpd_tbl 0x1234abcd%num u = [:: 0x11111110; 0x22222227; 0x333abcd3; 0x12344444]%num.
Proof. by []. Qed.

Print Assumptions C76_mtgp32dc.
Print Assumptions C76_line.
Print Assumptions C76_distinct.
