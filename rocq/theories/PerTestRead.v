(** The texts of the parameters of sfmt and dsfmt are read back. *)
From Coq Require Import NArith ZArith Lia List Bool.
From mathcomp Require Import all_ssreflect all_algebra.
From mathcomp Require Import zify.
From Verif Require Import Base UtilModel GenModel PolyF2 PeriodModel ArrayModel RmtModel RmtCalcModel RmtCalcSpec RmtCalcRead
  WordLemmas W128Model W128Spec W128Proofs W128Cert SfmtModel SfmtLin DsfmtModel DsfmtLin PerTestModel.
Import ListNotations.
Set Implicit Arguments.
Unset Strict Implicit.
Unset Printing Implicit Defensive.
Local Open Scope N_scope.
Delimit Scope Z_scope with coqZ.

(** A text in a base. *)
Definition reads (b : N) (x : list N) (v : N) : Prop := forall t, strtoull b (x ++ chr_comma :: t) = (v, chr_comma :: t).
Fixpoint all_read (bs : list N) (xs : list (list N)) (vs : list N) : Prop :=
  match bs, xs, vs with
  | [], [], [] => True
  | b :: bs, x :: xs, v :: vs => reads b x v /\ all_read bs xs vs
  | _, _, _ => False
  end.
Lemma read_fieldsE bs xs vs t : all_read bs xs vs -> read_fields bs (fields xs ++ t) = Ret vs.
Proof.
elim: bs xs vs => [|b bs IH] [|x xs] [|v vs] //= [Hx H].
case: bs IH H => [|b' bs] IH H.
  case: xs H {IH} => [|? ?] //; case: vs => [|? ?] // _. by rewrite -catA cat_cons Hx.
by rewrite -catA cat_cons Hx; cbn [para_next bind]; rewrite (IH _ _ H).
Qed.
Lemma comma_tail t : rc_tail (chr_comma :: t).
Proof. by rewrite /=. Qed.
Lemma reads_dec z : (0 <= z < 2 ^ 64)%coqZ -> reads 10 (long_chars z) (Z.to_N z).
Proof.
move=> H t. have := @strtoull_dec (Z.to_N z) (chr_comma :: t). rewrite Z2N.id; last by case: H.
apply; last exact: comma_tail. by move: H; clear; lia.
Qed.
Lemma reads_hex16 x : x < 2 ^ 64 -> reads 16 (hex16 x) x.
Proof. by move=> H t; apply: strtoull_hex => //; exact: comma_tail. Qed.
Lemma reads_hex8 x : x < 2 ^ 32 -> reads 16 (hex8 x) x.
Proof.
move=> Hx t; have Ht := comma_tail t; rewrite /hex8.
have Hl := @digits_hex 8 x (chr_comma :: t) 0 Ht; rewrite N.mul_0_l N.add_0_l N.mod_small // in Hl.
have [c [r [Ec [Hc Hr]]]] : exists c r, hex_digits 8 x = hex_chr c :: hex_chr r :: hex_digits 6 x /\ c < 16 /\ r < 16.
  by eexists; eexists; split; [reflexivity|split; exact: N.mod_lt].
have Hh y : y < 16 -> 48 <= hex_chr y <= 57 \/ 97 <= hex_chr y <= 102 by rewrite /hex_chr => Hy; case: N.ltb_spec; lia.
have H1 := Hh _ Hc; have H2 := Hh _ Hr; rewrite Ec in Hl *.
have Hx' : x < 2 ^ 64 by apply: N.lt_trans Hx _.
apply: (strtoull_std _ (hex_digit Hc) _ Hl Hx'); first by move: H1; clear; lia.
by rewrite andTb; move: H2; clear; lia.
Qed.
Lemma rc_intZ z : (0 <= z < 2 ^ 31)%coqZ -> rc_int (Z.to_N z) = z.
Proof. by move=> H; rewrite rc_intE ?Z2N.id //; move: H; clear; lia. Qed.
Lemma trunc32 x : x < 2 ^ 32 -> trunc 32 x = x.
Proof. exact: N.mod_small. Qed.

Lemma of32_w32 x : wok x -> w_of32 (w32 x 0) (w32 x 1) (w32 x 2) (w32 x 3) = x.
Proof.
move=> Wx; have [W0 W1] := Wx. have := of32_halves _ _ W0 W1.
have L k : (k < 4)%N -> w32 x k < 2 ^ 32 by move=> Hk; exact: w32_lt.
rewrite -[wshr (u0 x) 32]/(w32 x 1) -[wshr (u1 x) 32]/(w32 x 3) (trunc32 (L 1%N isT)) (trunc32 (L 3%N isT)) => ->.
by case: x {Wx W0 W1 L}.
Qed.
Lemma sf_parseE q t : sfp_ok q -> (0 <= f_mexp q < 2 ^ 31)%coqZ -> (0 <= f_pos1 q < 2 ^ 31)%coqZ -> f_parity q < 2 ^ 128 ->
  sf_parse (sf_text q ++ t) = Ret q.
Proof.
move=> Hq Hm Hp Hpar. have [W V] := w_of_ok Hpar.
have L k : (k < 4)%N -> w32 (w_of (f_parity q)) k < 2 ^ 32 by move=> Hk; exact: w32_lt.
have [q1 q2 q3 q4 q5 q6 q7 q8] := Hq.
have B z : (0 <= z < 2 ^ 31)%coqZ -> (0 <= z < 2 ^ 64)%coqZ by clear; lia.
have S1 : (0 <= f_sl1 q < 2 ^ 31)%coqZ by move: q1; clear; lia.
have S2 : (0 <= f_sl2 q < 2 ^ 31)%coqZ by move: q2; clear; lia.
have S3 : (0 <= f_sr1 q < 2 ^ 31)%coqZ by move: q3; clear; lia.
have S4 : (0 <= f_sr2 q < 2 ^ 31)%coqZ by move: q4; clear; lia.
pose vs := [Z.to_N (f_mexp q); Z.to_N (f_pos1 q); Z.to_N (f_sl1 q); Z.to_N (f_sl2 q); Z.to_N (f_sr1 q); Z.to_N (f_sr2 q);
  f_msk1 q; f_msk2 q; f_msk3 q; f_msk4 q; w32 (w_of (f_parity q)) 0; w32 (w_of (f_parity q)) 1; w32 (w_of (f_parity q)) 2; w32 (w_of (f_parity q)) 3].
rewrite /sf_parse (@read_fieldsE sf_bases _ vs t).
  rewrite /vs; cbn [bind List.nth].
  rewrite (rc_intZ Hm) (rc_intZ Hp) (rc_intZ S1) (rc_intZ S2) (rc_intZ S3) (rc_intZ S4) (trunc32 q5) (trunc32 q6) (trunc32 q7) (trunc32 q8).
  rewrite (trunc32 (L 0%N isT)) (trunc32 (L 1%N isT)) (trunc32 (L 2%N isT)) (trunc32 (L 3%N isT)).
  rewrite (_ : wval _ = f_parity q); first by clear; case: q.
  by rewrite -[RHS]V; congr wval; exact: of32_w32.
by do 6 (split; first by apply: reads_dec; apply: B); do 4 (split; first exact: reads_hex8); do 4 (split; first by apply: reads_hex8; exact: L).
Qed.
Lemma ds_parseE q t : dsp_ok q -> (0 <= d_mexp q < 2 ^ 31)%coqZ -> (0 <= d_pos1 q < 2 ^ 31)%coqZ -> d_fix q < 2 ^ 128 -> d_parity q < 2 ^ 128 ->
  ds_parse (ds_text q ++ t) = Ret q.
Proof.
move=> Hq Hm Hp Hf Hpar. have [q1 q2 q3] := Hq.
have B z : (0 <= z < 2 ^ 31)%coqZ -> (0 <= z < 2 ^ 64)%coqZ by clear; lia.
have S1 : (0 <= d_sl1 q < 2 ^ 31)%coqZ by move: q1; clear; lia.
have C x : x < 2 ^ 52 -> x < 2 ^ 64 by move=> Hx; apply: N.lt_trans Hx _.
pose vs := [Z.to_N (d_mexp q); Z.to_N (d_pos1 q); Z.to_N (d_sl1 q); d_msk1 q; d_msk2 q;
  lo64 (d_fix q); hi64 (d_fix q); lo64 (d_parity q); hi64 (d_parity q)].
rewrite /ds_parse (@read_fieldsE ds_bases _ vs t).
  rewrite /vs; cbn [bind List.nth]. rewrite (rc_intZ Hm) (rc_intZ Hp) (rc_intZ S1) !join_lohi. by clear; case: q.
do 3 (split; first by apply: reads_dec; apply: B); do 2 (split; first by apply: reads_hex16; exact: C).
by split; [apply: reads_hex16; exact: lo64_lt|split; [apply: reads_hex16; exact: hi64_lt|split; [apply: reads_hex16; exact: lo64_lt|split; [apply: reads_hex16; exact: hi64_lt|]]]].
Qed.
