(** The text of the parameters is read back. *)
From Coq Require Import NArith ZArith Lia List Bool DecimalPos.
From mathcomp Require Import all_ssreflect all_algebra.
From mathcomp Require Import zify.
From Verif Require Import Base UtilModel GenModel PolyF2 PeriodModel ArrayModel RmtModel RmtCalcModel RmtCalcSpec.
Import ListNotations.
Set Implicit Arguments.
Unset Strict Implicit.
Unset Printing Implicit Defensive.
Local Open Scope N_scope.

(** * Digits *)
Lemma digit_dec c : 48 <= c <= 57 -> digit_of 10 c = Some (c - 48) /\ digit_of 16 c = Some (c - 48).
Proof.
move=> H; rewrite /digit_of; have -> : (48 <=? c) && (c <=? 57) by lia.
by have [-> ->] : c - 48 <? 10 /\ c - 48 <? 16 by lia.
Qed.
Lemma digit_none base t : rc_tail t -> match t with nil => True | cons c _ => digit_of base c = None end.
Proof.
case: t => [|c t] //=; rewrite /digit_of => H.
have -> : (48 <=? c) && (c <=? 57) = false by lia.
have -> : (97 <=? c) && (c <=? 122) = false by lia.
by have -> : (65 <=? c) && (c <=? 90) = false by lia.
Qed.
Lemma digits_tail base t acc : rc_tail t -> digits base t acc = (acc, t).
Proof. by case: t => [|c t] //= /(digit_none base (t := c :: t)) ->. Qed.
(** decimal *)
Fixpoint uval (u : Decimal.uint) (acc : N) : N :=
  match u with
  | Decimal.Nil => acc
  | Decimal.D0 r => uval r (acc * 10 + 0) | Decimal.D1 r => uval r (acc * 10 + 1) | Decimal.D2 r => uval r (acc * 10 + 2)
  | Decimal.D3 r => uval r (acc * 10 + 3) | Decimal.D4 r => uval r (acc * 10 + 4) | Decimal.D5 r => uval r (acc * 10 + 5)
  | Decimal.D6 r => uval r (acc * 10 + 6) | Decimal.D7 r => uval r (acc * 10 + 7) | Decimal.D8 r => uval r (acc * 10 + 8)
  | Decimal.D9 r => uval r (acc * 10 + 9)
  end.
Lemma digits_uint u t acc : rc_tail t -> digits 10 (uint_chars u ++ t) acc = (uval u acc, t).
Proof. by move=> Ht; elim: u acc => [|u IH|u IH|u IH|u IH|u IH|u IH|u IH|u IH|u IH|u IH] acc /=; rewrite ?IH // digits_tail. Qed.
Lemma uval_pos u p : uval u (Npos p) = Npos (Pos.of_uint_acc u p).
Proof. by elim: u p => [|u IH|u IH|u IH|u IH|u IH|u IH|u IH|u IH|u IH|u IH] p //; cbn [uval Pos.of_uint_acc]; rewrite -IH; apply: f_equal; lia. Qed.
Lemma uval0 u : uval u 0 = Pos.of_uint u.
Proof. by elim: u => [|u IH|u IH|u IH|u IH|u IH|u IH|u IH|u IH|u IH|u IH] //=; rewrite -?uval_pos. Qed.
Lemma uval_to p : uval (Pos.to_uint p) 0 = Npos p.
Proof. by rewrite uval0 DecimalPos.Unsigned.of_to. Qed.
Lemma uint_head u : u <> Decimal.Nil -> exists c r, uint_chars u = c :: r /\ 48 <= c <= 57.
Proof. by case: u => [|u|u|u|u|u|u|u|u|u|u] // _; eexists; eexists; (split; first by reflexivity); split; lia. Qed.
Lemma strtoull_std base c l v w r : (48 <= c)%num -> digit_of base c = Some v ->
  match l with nil => True | cons x _ => (base =? 16) && ((x =? 120) || (x =? 88)) = false end ->
  digits base (c :: l) 0 = (w, r) -> w < 2 ^ 64 -> strtoull base (c :: l) = (w, r).
Proof.
move=> Hc Hd Hx Hw Lw; rewrite /strtoull.
have -> : c_skip (c :: l) = c :: l by rewrite /= /c_space; have -> : ((c =? 32) || (9 <=? c) && (c <=? 13)) = false by lia.
have -> : (c =? 45) = false by lia.
have -> : (c =? 43) = false by lia.
have -> : match l with
   | [] => c :: l
   | [x] => c :: l
   | x :: (c0 :: r0) => if (base =? 16) && (c =? 48) && ((x =? 120) || (x =? 88)) then match digit_of 16 c0 with Some _ => c0 :: r0 | None => c :: l end else c :: l
   end = c :: l.
  by case: l Hx {Hw} => [|x [|c0 r0]] // Hx; rewrite -andbA [(c =? 48) && _]andbC andbA Hx.
rewrite Hd Hw; have -> // : (2 ^ 64 <=? w) = false by apply/N.leb_gt.
Qed.
Lemma strtoull_dec n t : (n < 2 ^ 64) -> rc_tail t -> strtoull 10 (long_chars (Z.of_N n) ++ t) = (n, t).
Proof.
move=> Hn Ht.
have [u [E1 [E2 E3]]] : exists u, long_chars (Z.of_N n) = uint_chars u /\ u <> Decimal.Nil /\ uval u 0 = n.
  case: n Hn => [|p] Hn; first by exists (Decimal.D0 Decimal.Nil).
  exists (Pos.to_uint p); split=> //; split; last exact: uval_to.
  by move=> E; have := uval_to p; rewrite E.
have [c [r [Ec Hc]]] := uint_head E2.
have := digits_uint u 0 Ht; rewrite E1 E3 Ec => Hd.
have [Hv _] := digit_dec Hc.
apply: (strtoull_std (v := c - 48) _ _ _ Hd) => //; first by case: Hc.
by set l := (X in match X with nil => _ | _ => _ end); case: l.
Qed.
(** hexadecimal *)
Lemma hex_digit x : x < 16 -> digit_of 16 (hex_chr x) = Some x.
Proof.
move=> H; rewrite /hex_chr; case: N.ltb_spec => Hx.
  by have [_ ->] := @digit_dec (48 + x) ltac:(lia); congr Some; lia.
rewrite /digit_of.
have -> : (48 <=? 87 + x) && (87 + x <=? 57) = false by lia.
have -> : (97 <=? 87 + x) && (87 + x <=? 122) by lia.
have -> : 87 + x - 87 = x by lia.
by have -> : x <? 16 by lia.
Qed.
Lemma digits_hex k x t acc : rc_tail t -> digits 16 (hex_digits k x ++ t) acc = (acc * 16 ^ N.of_nat k + x mod 16 ^ N.of_nat k, t).
Proof.
move=> Ht; elim: k acc => [|k IH] acc; first by rewrite [digits _ _ _]digits_tail // N.mod_1_r; apply: f_equal2 => //; lia.
rewrite [hex_digits _ _]/= [digits _ _ _]/= hex_digit; last by apply: N.mod_lt.
rewrite IH; apply: f_equal2 => //; rewrite Nat2N.inj_succ N.pow_succ_r'.
have P : 16 ^ N.of_nat k <> 0 by apply: N.pow_nonzero.
move: P; move: (16 ^ N.of_nat k) => q P.
by rewrite (N.mul_comm 16 q) N.mod_mul_r //; move: (x / q mod 16) (x mod q); clear; lia.
Qed.
Lemma strtoull_hex x t : x < 2 ^ 64 -> rc_tail t -> strtoull 16 (hex16 x ++ t) = (x, t).
Proof.
move=> Hx Ht; rewrite /hex16.
have Hl := @digits_hex 16 x t 0 Ht; rewrite N.mul_0_l N.add_0_l N.mod_small // in Hl.
have [c [r [Ec [Hc Hr]]]] : exists c r, hex_digits 16 x = hex_chr c :: hex_chr r :: hex_digits 14 x /\ c < 16 /\ r < 16.
  by eexists; eexists; split; [reflexivity|split; exact: N.mod_lt].
have Hh y : y < 16 -> 48 <= hex_chr y <= 57 \/ 97 <= hex_chr y <= 102 by rewrite /hex_chr => Hy; case: N.ltb_spec; lia.
have H1 := Hh _ Hc; have H2 := Hh _ Hr; rewrite Ec in Hl *.
apply: (strtoull_std _ (hex_digit Hc) _ Hl Hx); first by move: H1; clear; lia.
by rewrite andTb; move: H2; clear; lia.
Qed.
Lemma rc_intE n : n < 2 ^ 31 -> rc_int n = Z.of_N n.
Proof.
move=> Hn; rewrite /rc_int N.mod_small; last by apply: N.lt_trans Hn _.
by rewrite /to_signed; have -> : (n <? 2 ^ (32 - 1)) by apply/N.ltb_lt.
Qed.
Lemma parse_text p t : rc_legal p -> rc_tail t ->
  rc_parse (rmt_text p ++ t) = Ret (RCA (Z.of_nat (r_mexp p)) (Z.of_nat (r_pos p)) (r_mata p) (r_par p) (r_maskb p) (r_maskc p)).
Proof.
case: p => mexp size rev pos mata par mb mc [H1 H2 H3 _ [H4 H5 H6 H7]] Ht; cbn [r_mexp r_size r_pos r_mata r_par r_maskb r_maskc] in *.
have H8 : N.of_nat pos < 2 ^ 31.
  apply: N.le_lt_trans H1; have : (pos <= Nat.div mexp 64)%coq_nat by move: H3; rewrite H2; clear; lia.
  have := Nat.div_le_upper_bound mexp 64 mexp; clear; lia.
rewrite /rmt_text /rc_parse; cbn [r_mexp r_size r_pos r_mata r_par r_maskb r_maskc].
have L x : x < 2 ^ 31 -> x < 2 ^ 64 by move=> Hx; apply: N.lt_trans Hx _.
have R a : rc_tail (chr_comma :: a) by rewrite /=.
rewrite -!nat_N_Z; do 6 rewrite -?catA ?cat_cons.
rewrite strtoull_dec //; last exact: L. cbn [para_next bind].
rewrite strtoull_dec //; last exact: L. cbn [para_next bind].
rewrite strtoull_hex //; cbn [para_next bind].
rewrite strtoull_hex //; cbn [para_next bind].
rewrite strtoull_hex //; cbn [para_next bind].
rewrite strtoull_hex //; cbn [para_next bind].
by rewrite !rc_intE.
Qed.
