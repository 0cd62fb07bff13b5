(** Property C79: the programs calc_period and calc_equidist for RMT. *)
From Coq Require Import NArith ZArith Lia List Bool.
From mathcomp Require Import all_ssreflect all_algebra.
From mathcomp Require Import zify.
From Verif Require Import Base UtilModel GenModel PolyF2 PolyAct LinSpec PeriodSpec PeriodModel EquiEx PeriodProofs7 ParitySpec EquiProofs6 RecTemperSpec PrimeProps SearchLin
  ArrayModel RmtModel RmtLin RmtProofs RmtDcModel RmtDcSpec RmtDcProofs RmtCalcModel RmtCalcSpec RmtCalcRead RmtCalcProofs.
Set Implicit Arguments.
Unset Strict Implicit.
Unset Printing Implicit Defensive.
Import GRing.Theory.
Local Open Scope ring_scope.
Delimit Scope Z_scope with coqZ.

(** A parameter line, with or without something after it, is read back. *)
Theorem C79_reads : forall p t, rc_legal p -> rc_tail t ->
  rc_parse (rmt_text p ++ t) = Ret (RCA (Z.of_nat (r_mexp p)) (Z.of_nat (r_pos p)) (r_mata p) (r_par p) (r_maskb p) (r_maskc p)).
Proof. exact: parse_text. Qed.
(** calc_period on a parameter line: it prints the line with cleaned masks and says
    that it found the factor if and only if there is one; then the period that it
    announces is a divisor of every period of the lowest bits after seed(1234),
    even of those that begin later. *)
Theorem C79_period : forall M, minpolyseq_spec M -> forall p, rc_legal p -> forall ffuel, (r_size p * 64 < ffuel)%N -> forall t, rc_tail t ->
  exists r, calc_period M ffuel (rmt_text p ++ t) = Ret r /\
  [/\ rp_text r = rmt_text (rc_clean p), rp_found r = true <-> exists f, rc_factor p f &
    rp_found r -> rp_deg r = Z.of_nat (r_mexp p) /\
      (prime (2 ^ r_mexp p - 1) -> forall k, rc_repeats p k -> (2 ^ r_mexp p - 1 %| k)%N)].
Proof. by move=> M HM p Hl ffuel Hf t Ht; exact: period_thm. Qed.
(** calc_equidist on a parameter line: None if there is no factor f of degree
    mexp; otherwise k(v) is the dimension of equidistribution of the component of f
    with v bits, at most mexp / v, d(v) is mexp / v - k(v) and delta the sum of
    these, also if the recursion is not invertible. *)
Theorem C79_equidist : forall M Pos ffuel efuel veq0, minpolyseq_spec M -> forall p, rc_legal p -> (r_size p * 64 < ffuel)%N -> forall t, rc_tail t ->
  (64 <= length veq0)%N -> pos_spec 64 Pos -> (64 < r_mexp p)%N -> ((4 * (r_size p * 64) + 2) * 65 <= efuel)%N ->
  exists r, calc_equidist M Pos ffuel efuel veq0 (rmt_text p ++ t) = Ret r /\
  match r with
  | None => forall f, ~ rc_factor p f
  | Some r => exists f, [/\ rc_factor p f, f %| char_poly (rmt_A p), re_text r = rmt_text (rc_clean p) &
      exists dims, [/\ forall v, (1 <= v <= 64)%N -> comp_dim (rmt_A p) (rmt_C p) f v (dims v) /\ (dims v * v <= r_mexp p)%N,
        re_k r = List.map (fun v => Z.of_nat (dims v)) (List.seq 1 64),
        re_d r = List.map (fun v => Z.of_nat (r_mexp p %/ v)%N - Z.of_nat (dims v))%coqZ (List.seq 1 64) &
        re_delta r = defects (r_mexp p) 64 dims]]
  end.
Proof. by move=> M Pos ff ef veq0 HM p Hl Hf t Ht Hv HP d64 He; exact: equidist_thm. Qed.
Lemma fold_add (F1 F2 : nat -> Z) s : List.fold_right Z.add 0%coqZ (List.map (fun v => F1 v + F2 v)%coqZ s) =
  (List.fold_right Z.add 0 (List.map F1 s) + List.fold_right Z.add 0 (List.map F2 s))%coqZ.
Proof. by elim: s => [//|v s IH]; cbn [List.map List.fold_right]; rewrite IH; clear; lia. Qed.
(** A line of rmt64dc given to calc_equidist: delta is not the same number, the
    line counts from the size of the state.  The difference is the same for all
    lines. *)
Theorem C79_agrees : forall d, (64 < d)%N -> (N.of_nat d < 2 ^ 31)%num -> forall u1 u2 b0 c0 l, (u2 < 2 ^ 64)%num ->
  rd_line_for d u1 u2 b0 c0 l -> rd_A d u1 u2 \in unitmx -> inner 64 (rl_parity l) (rl_parity l) = 1 ->
  forall M Pos ffuel efuel veq0, minpolyseq_spec M -> pos_spec 64 Pos -> (64 <= length veq0)%N ->
  ((d / 64 + 1)%nat * 64 < ffuel)%N -> ((4 * ((d / 64 + 1)%nat * 64) + 2) * 65 <= efuel)%N -> forall t, rc_tail t ->
  forall r, calc_equidist M Pos ffuel efuel veq0
    (rmt_text (RMTP d (d / 64 + 1)%nat false (rl_pos l) (rl_mata l) (rl_parity l) (rl_maskb l) (rl_maskc l)) ++ t) = Ret (Some r) ->
  rl_delta l = (re_delta r + defects ((d / 64 + 1)%nat * 64) 64 (fun v => d %/ v)%N)%coqZ.
Proof.
move=> d d64 dlt u1 u2 b0 c0 l Hu [[Ep Em] [L1 L2 L3] [f [[mu _ [If sf _]] fc U]]] UA Ho M Pos ffuel efuel veq0 HM HP Hv Hff Hef t Ht r E.
have [_ _ _ /(_ Ho) [[dims [Hd Edelta]] _]] := U UA.
set p := RMTP _ _ _ _ _ _ _ _ in E.
have Hl : rc_legal p by split=> //; [rewrite [r_pos p]Ep; exact: pos_range|split=> //; rewrite [r_mata p]Em].
have [r' [E' H]] := C79_equidist HM Hl Hff Ht Hv HP d64 Hef.
move: E'; rewrite E => Er'.
have Er : r' = Some r by have := f_equal (fun z => match z with Ret y => y | _ => None end) Er'; move=> /= <-.
move: H; rewrite Er => -[f' [[mu' _ [If' sf' _]] fc' _ [dims' [Hd' _ _ ->]]]].
have EA : rmt_A p = rd_A d u1 u2 :> 'M_((d / 64 + 1)%nat * 64) by rewrite /p Ep Em; exact: A_rec.
have Ef : f' = f.
  by apply: (large_unique If' If sf' sf (nn Hl d64) fc'); rewrite EA.
subst f'; rewrite Edelta /defects.
have Ev v : (1 <= v <= 64)%N -> dims v = dims' v.
  move=> Hv1; have [[G1 G2] _] := Hd' v Hv1; have [G3 G4] := Hd v Hv1.
  have EC k : comp_equidist (rmt_A p) (rmt_C p) f v k <-> comp_equidist (rmt_A (rd_gen d u1 u2 (rl_maskb l) (rl_maskc l))) (rmt_C (rd_gen d u1 u2 (rl_maskb l) (rl_maskc l))) f v k.
    have EA2 : rmt_A p = rmt_A (rd_gen d u1 u2 (rl_maskb l) (rl_maskc l)) :> 'M_((d / 64 + 1)%nat * 64) by rewrite /p Ep Em; exact: A_rec.
    have EC2 j : rmt_C p j = rmt_C (rd_gen d u1 u2 (rl_maskb l) (rl_maskc l)) j :> 'cV_((d / 64 + 1)%nat * 64) by rewrite /p Ep Em; exact: C_rec.
    rewrite EA2; split=> H y; have [x [Hx Hy]] := H y; exists x; split=> // i j Hi Hj; rewrite -(Hy i j Hi Hj) /obit EC2 //.
  by apply/eqP; rewrite eqn_leq (G2 _ (proj2 (EC _) G3)) (G4 _ (proj1 (EC _) G1)).
have Ea : List.map (fun v => Z.of_nat ((d / 64 + 1)%nat * 64 %/ v)%N - Z.of_nat (dims v))%coqZ (List.seq 1 64) =
    List.map (fun v => (Z.of_nat (d %/ v)%N - Z.of_nat (dims' v)) + (Z.of_nat ((d / 64 + 1)%nat * 64 %/ v)%N - Z.of_nat (d %/ v)%N))%coqZ (List.seq 1 64).
  apply: List.map_ext_in => v /List.in_seq Hv1; rewrite Ev; last by move: Hv1; clear; lia.
  by move: (_ %/ v)%N (_ %/ v)%N (dims' v); clear; lia.
rewrite Ea; exact: fold_add.
Qed.
(** The usage message of both programs names another order (mskb, mskc, parity
    at the end); a text in that order is read as other parameters. *)
Theorem C79_usage_order_refuted : exists p a, rc_legal p /\
  rc_parse (rmt_text (RMTP (r_mexp p) (r_size p) false (r_pos p) (r_mata p) (r_maskb p) (r_maskc p) (r_par p))) = Ret a /\
  (ra_parity a <> r_par p /\ ra_mskb a <> r_maskb p).
Proof.
exists (RMTP 521 9 false 3 0xd5b14cca7f2b1a2c 1 2 4)%num; eexists; split; first by split.
by split; first by vm_compute; reflexivity.
Qed.

(** The text of a parameter line, and what is read from it. *)
Definition ex_p : rmtp := RMTP 521 9 false 3 0xd5b14cca7f2b1a2c 0x1b00000000000021 0x6e8b9f2d00020000 0xfffe400000000000.
Example C79_text : rmt_text ex_p =
  [:: 53; 50; 49; 44; 51; 44]%num ++
  [:: 100; 53; 98; 49; 52; 99; 99; 97; 55; 102; 50; 98; 49; 97; 50; 99; 44]%num ++
  [:: 49; 98; 48; 48; 48; 48; 48; 48; 48; 48; 48; 48; 48; 48; 50; 49; 44]%num ++
  [:: 54; 101; 56; 98; 57; 102; 50; 100; 48; 48; 48; 50; 48; 48; 48; 48; 44]%num ++
  [:: 102; 102; 102; 101; 52; 48; 48; 48; 48; 48; 48; 48; 48; 48; 48; 48]%num.
Proof. by vm_compute. Qed.
Example C79_parsed : rc_parse (rmt_text ex_p ++ [:: 44; 49; 51]%num) = Ret (RCA 521 3 0xd5b14cca7f2b1a2c 0x1b00000000000021 0x6e8b9f2d00020000 0xfffe400000000000).
Proof. by vm_compute. Qed.
(** Blanks, a sign, 0x and capital letters are understood; too many digits give
    the largest number; without the last number the program reads past the text. *)
Example C79_other_texts : strtoull 16 [:: 32; 48; 120; 65; 70; 59]%num = (0xaf, [:: 59])%num /\
  strtoull 10 [:: 45; 49]%num = ((2 ^ 64 - 1)%num, [::]) /\
  strtoull 16 (nseq 17 102%num) = ((2 ^ 64 - 1)%num, [::]) /\
  rc_parse [:: 53; 50; 49; 44; 51]%num = Undef.
Proof. by vm_compute. Qed.
(** The hypotheses of C79_period and C79_equidist hold together. *)
Example C79_521 : exists r, calc_period mps 600 (rmt_text ex_p) = Ret r /\
  (rp_found r -> forall k, rc_repeats ex_p k -> (2 ^ 521 - 1 %| k)%N).
Proof.
have Hl : rc_legal ex_p by split.
have Hp : prime (2 ^ 521 - 1) by exact: (@C22_isMexp_sound_partial 521).
have [r [E [_ _ H]]] := @C79_period mps mps_spec ex_p Hl 600 isT nil I.
by exists r; split; [rewrite -E cats0|move=> /H [_ /(_ Hp)]].
Qed.
Example C79_521_equidist : exists r, calc_equidist mps (fun x => Ret (calc_1pos64_wrap x)) 600 (N.to_nat 160000) (List.repeat 7%coqZ 64) (rmt_text ex_p) = Ret r /\
  (r = None -> forall f, ~ rc_factor ex_p f).
Proof.
have Hl : rc_legal ex_p by split.
have Hf : ((4 * (r_size ex_p * 64) + 2) * 65 <= N.to_nat 160000)%N.
  by move: (Nat2N.id ((4 * (r_size ex_p * 64) + 2) * 65)) => <-; vm_compute.
have [r [E H]] := @C79_equidist mps (fun x => Ret (calc_1pos64_wrap x)) 600 (N.to_nat 160000) (List.repeat 7%coqZ 64) mps_spec ex_p Hl isT nil I isT pos_spec64 isT Hf.
by exists r; split; [rewrite -E cats0|move=> Er; rewrite Er in H].
Qed.
(** The difference of the two sums for mexp = 521 *)
Example C79_difference : defects 576 64 (fun v => 521 %/ v)%N = 270%coqZ.
Proof. by vm_compute. Qed.

Print Assumptions C79_reads.
Print Assumptions C79_period.
Print Assumptions C79_equidist.
Print Assumptions C79_agrees.
Print Assumptions C79_usage_order_refuted.
