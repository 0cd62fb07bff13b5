(** The xorshift generators meet the contract of the toolbox. *)
From Coq Require Import NArith ZArith Lia Bool.
From mathcomp Require Import all_ssreflect all_algebra.
From mathcomp Require Import zify.
From Verif Require Import Base WordLemmas WordVec GenModel LinSpec LinLemmas LinInst
  XorshiftModel XorshiftSpec XorshiftProofs.
Set Implicit Arguments.
Unset Strict Implicit.
Unset Printing Implicit Defensive.
Local Open Scope N_scope.
Delimit Scope Z_scope with coqZ.

(** Bit i (0 <= i < 128) of the state: x is bits 0..31, y 32..63, z, w. *)
Definition xs_bits (s : xs) (i : nat) : bool :=
  if (i < 32)%N then N.testbit (xs_x s) (N.of_nat i)
  else if (i < 64)%N then N.testbit (xs_y s) (N.of_nat (i - 32))
  else if (i < 96)%N then N.testbit (xs_z s) (N.of_nat (i - 64))
  else N.testbit (xs_w s) (N.of_nat (i - 96)).
Definition xs_mk (f : nat -> bool) : xs :=
  XS (mkw 32 f) (mkw 32 (fun i => f (i + 32)%N)) (mkw 32 (fun i => f (i + 64)%N))
     (mkw 32 (fun i => f (i + 96)%N)).

Lemma xs_mk_ok f : xs_okw (xs_mk f).
Proof. by split; [|split; [|split]]; exact: mkw_lt. Qed.
Lemma xs_bits_mk f i : (i < 128)%N -> xs_bits (xs_mk f) i = f i.
Proof.
move=> Hi. rewrite /xs_bits /xs_mk !mkw_bit.
case: ifP => H1. by have -> : (Nat.ltb i 32) = true by lia.
case: ifP => H2. have -> : (Nat.ltb (i - 32) 32) = true by lia.
  by rewrite /= subnK //; lia.
case: ifP => H3. have -> : (Nat.ltb (i - 64) 32) = true by lia.
  by rewrite /= subnK //; lia.
have -> : (Nat.ltb (i - 96) 32) = true by lia.
by rewrite /= subnK //; lia.
Qed.
Lemma xs_add_ok s t : xs_okw s -> xs_okw t -> xs_okw (xs_add s t).
Proof.
by move=> [S1 [S2 [S3 S4]]] [T1 [T2 [T3 T4]]]; split; [|split; [|split]]; apply: lxor_lt.
Qed.
Lemma xs_bits_add s t i : xs_bits (xs_add s t) i = xorb (xs_bits s i) (xs_bits t i).
Proof. by rewrite /xs_bits /xs_add !N.lxor_spec; case: ifP => // _; case: ifP => // _; case: ifP. Qed.
(** Two states with the same 128 bits are equal. *)
Lemma xs_bits_inj s t : xs_okw s -> xs_okw t ->
  (forall i, (i < 128)%N -> xs_bits s i = xs_bits t i) -> s = t.
Proof.
case: s => x1 y1 z1 w1; case: t => x2 y2 z2 w2 [/= S1 [S2 [S3 S4]]] [/= T1 [T2 [T3 T4]]] H.
have E k i : (k < 4)%N -> i < 32 ->
    xs_bits (XS x1 y1 z1 w1) (k * 32 + N.to_nat i) = xs_bits (XS x2 y2 z2 w2) (k * 32 + N.to_nat i).
  by move=> Hk Hi; apply: H; lia.
congr XS; apply: (@word_ext 32) => // i Hi.
- have := E 0%N i isT Hi. rewrite /xs_bits mul0n add0n. have -> : (N.to_nat i < 32)%N by lia.
  by rewrite N2Nat.id.
- have := E 1%N i isT Hi. rewrite /xs_bits mul1n. have -> : (32 + N.to_nat i < 32)%N = false by lia.
  have -> : (32 + N.to_nat i < 64)%N by lia. by rewrite addKn N2Nat.id.
- have := E 2%N i isT Hi. rewrite /xs_bits -/(64)%N. have -> : (64 + N.to_nat i < 32)%N = false by lia.
  have -> : (64 + N.to_nat i < 64)%N = false by lia. have -> : (64 + N.to_nat i < 96)%N by lia.
  by rewrite addKn N2Nat.id.
- have := E 3%N i isT Hi. rewrite /xs_bits -/(96)%N. have -> : (96 + N.to_nat i < 32)%N = false by lia.
  have -> : (96 + N.to_nat i < 64)%N = false by lia. have -> : (96 + N.to_nat i < 96)%N = false by lia.
  by rewrite addKn N2Nat.id.
Qed.
Definition xs_zero := XS 0 0 0 0.
Lemma xs_zero_ok : xs_okw xs_zero. Proof. by []. Qed.
Lemma xs_bits_zero i : xs_bits xs_zero i = false.
Proof. by rewrite /xs_bits !N.bits_0; case: ifP => // _; case: ifP => // _; case: ifP. Qed.
Lemma xs_bits_eq0 s : xs_okw s -> (forall i, (i < 128)%N -> xs_bits s i = false) -> s = xs_zero.
Proof. by move=> Hs H; apply: xs_bits_inj => // i Hi; rewrite H // xs_bits_zero. Qed.

(** Vector, transition matrix and output columns of a xorshift generator. *)
Definition xs_vec : xs -> 'rV['F_2]_128 := vec_of 128 xs_bits.
Definition xs_A (gen : xs -> N * xs) : 'M['F_2]_128 := trans_mat 128 xs_bits xs_mk (xs_ops gen).
Definition xs_ob (gen : xs -> N * xs) (s : xs) (j : nat) : bool := N.testbit (gen s).1 (31 - N.of_nat j).
Definition xs_C (gen : xs -> N * xs) : nat -> 'cV['F_2]_128 := out_col 128 xs_mk (xs_ob gen).

Lemma xs_vec_inj s t : xs_okw s -> xs_okw t -> xs_vec s = xs_vec t -> s = t.
Proof.
move=> Hs Ht /matrixP E. apply: xs_bits_inj => // i Hi.
have := E ord0 (Ordinal Hi). by rewrite !mxE => /f2_inj.
Qed.

Section Shape.
Variables (g h : N -> N).
Hypothesis Lg : wlin g.
Hypothesis Lh : wlin h.
Notation gen := (xs_shape g h).

Lemma shape_add s t : gen (xs_add s t) =
  (N.lxor (gen s).1 (gen t).1, xs_add (gen s).2 (gen t).2).
Proof.
have [Ag _] := Lg; have [Ah _] := Lh.
by rewrite /xs_shape /xs_add /= Ag Ah lxor_swap.
Qed.
Lemma shape_zero : gen xs_zero = (0, xs_zero).
Proof. by rewrite /xs_shape /= (wlin0 _ Lg) (wlin0 _ Lh). Qed.

Lemma xs_shape_lin : linear_gen (xs_ops gen) xs_okw xs_vec (xs_A gen) (xs_C gen).
Proof.
apply: (@linear_gen_intro xs 128 xs_okw xs_bits xs_mk xs_add).
- exact: xs_mk_ok.
- exact: xs_bits_mk.
- exact: xs_add_ok.
- by move=> *; exact: xs_bits_add.
- by [].
- by move=> s; exact: shape_ok.
- by move=> s t i Hs Ht Hi; rewrite [g_generate _]/= shape_add xs_bits_add.
- move=> s Hs H i Hi. rewrite (xs_bits_eq0 Hs H) [g_generate _]/= shape_zero. exact: xs_bits_zero.
- by move=> s t j _ _ _; rewrite /xs_ob shape_add N.lxor_spec.
- by move=> s Hs H j _; rewrite (xs_bits_eq0 Hs H) /xs_ob shape_zero N.bits_0.
- by move=> v s _ _; rewrite /= /xs_generate_len; case: (gen s).
- move=> v s Hs _. have := shape_ok _ _ _ Lg Lh Hs. case=> [_ [_ [_ H]]]. exact: (land_lt 32 _ _ H).
- move=> v s j Hs Hv Hj. rewrite [g_generate_len _]/= /xs_generate_len /xs_ob.
  case E : (gen s) => [r s']. rewrite [in LHS]/fst [in RHS]/fst.
  exact: (@top_mask_land 32 v r j).
- by [].
- by move=> s i _ _; exact: xs_bits_zero.
Qed.
Lemma xs_shape_isZero s : xs_okw s -> g_isZero (xs_ops gen) s <-> xs_vec s = 0%R.
Proof.
move=> Hs. rewrite [g_isZero _ _]/= /xs_isZero. split.
  case: s Hs => x y z w _ /=. case: (N.eqb_spec x 0) => //= ->. case: (N.eqb_spec y 0) => //= ->.
  case: (N.eqb_spec z 0) => //= ->. case: (N.eqb_spec w 0) => //= -> _.
  by apply/vec_zero => i _; exact: xs_bits_zero.
by move/vec_zero/(xs_bits_eq0 Hs) => ->.
Qed.
Lemma xs_shape_unit : bijective_on xs_okw (fun s => (gen s).2) -> xs_A gen \in unitmx.
Proof.
rewrite -(@trans_unit xs 128 xs_okw xs_bits xs_mk xs_add xs_mk_ok xs_bits_mk xs_add_ok
  (fun s t i _ _ _ => xs_bits_add s t i) (xs_ops gen)); last 2 first.
- by move=> s t i Hs Ht Hi; rewrite [g_generate _]/= shape_add xs_bits_add.
- move=> s Hs H i Hi. rewrite (xs_bits_eq0 Hs H) [g_generate _]/= shape_zero. exact: xs_bits_zero.
move=> [_ [I _]] s Hs /(xs_bits_eq0 (shape_ok _ _ _ Lg Lh Hs)) E i _.
have -> : s = xs_zero by apply: I => //; rewrite shape_zero.
exact: xs_bits_zero.
Qed.
End Shape.
