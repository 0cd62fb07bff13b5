(** Single vectors of AlgorithmEquidistribution as sequences. *)
From Coq Require Import NArith ZArith Lia.
From mathcomp Require Import all_ssreflect all_algebra.
From mathcomp Require Import zify.
From Verif Require Import Base GenModel LinSpec LinLemmas EquiModel EquiLattice.
Set Implicit Arguments.
Unset Strict Implicit.
Unset Printing Implicit Defensive.
Import GRing.Theory.
Local Open Scope ring_scope.
Delimit Scope Z_scope with coqZ.

Section Vec.
Variables (S : Type) (G : gen_ops S) (n : nat) (ok : S -> Prop).
Variables (abs : S -> 'rV['F_2]_n) (A : 'M['F_2]_n) (C : nat -> 'cV['F_2]_n).
Hypothesis LG : linear_gen G ok abs A C.
Notation w := (g_width G).
Notation lvec := (lvec S).

(** The sequence that a vector stands for. *)
Definition seqf (b : lvec) : sq := fun z j =>
  if (z <? lv_count b)%coqZ then 0
  else if (z =? lv_count b)%coqZ then msb w (lv_next b) j
  else obit C (st A (Z.to_nat (z - lv_count b - 1)) (abs (lv_rand b))) j.

Lemma seqf_low b z j : (z < lv_count b)%coqZ -> seqf b z j = 0.
Proof. by rewrite /seqf; case: Z.ltb_spec => //; lia. Qed.
Lemma seqf_at b j : seqf b (lv_count b) j = msb w (lv_next b) j.
Proof. by rewrite /seqf Z.ltb_irrefl Z.eqb_refl. Qed.
Lemma seqf_high b i j : seqf b (lv_count b + 1 + Z.of_nat i)%coqZ j = obit C (st A i (abs (lv_rand b))) j.
Proof.
rewrite /seqf; case: Z.ltb_spec => H; first lia. case: Z.eqb_spec => H2; first lia.
by congr (obit _ (st _ _ _) _); lia.
Qed.

Lemma seqf_add a b z j : ok (lv_rand a) -> ok (lv_rand b) -> (lv_count a <= lv_count b)%coqZ ->
  seqf (lv_add G a b) z j = seqf a z j + seqf b (z + (lv_count b - lv_count a))%coqZ j.
Proof.
move=> Ha Hb Hc. rewrite /seqf /=.
case: (Z.ltb_spec z (lv_count a)) => H1.
  by case: Z.ltb_spec => H2; [rewrite addr0|lia].
case: (Z.eqb_spec z (lv_count a)) => H2.
  case: Z.ltb_spec => H3; first lia. case: Z.eqb_spec => H4; last lia.
  exact: msb_xor.
case: Z.ltb_spec => H3; first lia. case: Z.eqb_spec => H4; first lia.
rewrite (lin_add_abs LG) // stD obitD. congr (_ + obit _ (st _ _ _) _). lia.
Qed.

(** Well-formed vectors with v-bit accuracy. *)
Definition goodv (v : nat) (b : lvec) : Prop :=
  [/\ ok (lv_rand b), (0 <= lv_count b)%coqZ, (lv_next b < 2 ^ w)%num &
      forall j, (v <= j)%N -> (N.of_nat j < w)%num -> msb w (lv_next b) j = 0].

Section V.
Variable v : nat.
Hypothesis Hv1 : (1 <= v)%N.
Hypothesis Hvw : (N.of_nat v <= w)%num.
Notation vz := (Z.of_nat v).

Lemma goodv_zero b : goodv v b -> (forall j, (j < v)%N -> msb w (lv_next b) j = 0) -> lv_next b = 0%num.
Proof.
move=> [_ _ Hlt Hhi] Hlo. apply: (msb_inj0 Hlt) => j Hj.
by case: (ltnP j v) => H; [exact: Hlo | exact: Hhi].
Qed.
Lemma step_good b : goodv v b -> goodv v (lv_step G vz b).
Proof.
move=> [Ho Hc Hlt Hhi]. rewrite /lv_step. case E: (g_generate_len G vz (lv_rand b)) => [x r].
have E1 : x = (g_generate_len G vz (lv_rand b)).1 by rewrite E.
have E2 : r = (g_generate_len G vz (lv_rand b)).2 by rewrite E.
have Hr : (1 <= vz <= Z.of_N w)%coqZ by lia.
split=> /=; [by rewrite E2; exact: (lin_len_ok LG) | lia | by rewrite E1; exact: (lin_len_lt LG) |].
move=> j Hj Hjw. rewrite E1 (lin_len_out LG) //; last lia.
by case: Z.ltb_spec => //; lia.
Qed.
Lemma step_seqf b : goodv v b -> lv_next b = 0%num ->
  forall z j, (j < v)%N -> seqf (lv_step G vz b) z j = seqf b z j.
Proof.
move=> [Ho Hc Hlt Hhi] H0 z j Hj. rewrite /lv_step.
case E: (g_generate_len G vz (lv_rand b)) => [x r].
have E1 : x = (g_generate_len G vz (lv_rand b)).1 by rewrite E.
have E2 : r = (g_generate_len G vz (lv_rand b)).2 by rewrite E.
have Hr : (1 <= vz <= Z.of_N w)%coqZ by lia.
rewrite /seqf /= H0.
case: (Z.ltb_spec z (lv_count b)) => H1.
  by case: Z.ltb_spec => //; lia.
case: (Z.ltb_spec z (lv_count b + 1)) => H2.
  by case: Z.eqb_spec => H3; [rewrite msb0|lia].
case: (Z.eqb_spec z (lv_count b)) => H3; first lia.
case: (Z.eqb_spec z (lv_count b + 1)) => H4.
  rewrite E1 (lin_len_out LG) //; last lia. case: Z.ltb_spec => H5; last lia.
  by have -> : Z.to_nat (z - lv_count b - 1) = 0%N by lia.
rewrite E2 (lin_len_abs LG) // -stSr. congr (obit _ (st _ _ _) _). lia.
Qed.

Lemma ns_loop_spec rem b : goodv v b -> lv_zero b = false ->
  let b' := ns_loop G vz rem b in
  [/\ goodv v b', forall z j, (j < v)%N -> seqf b' z j = seqf b z j,
      (lv_count b <= lv_count b' <= lv_count b + Z.of_nat rem)%coqZ,
      lv_zero b' = false -> lv_next b' <> 0%num &
      lv_zero b' = true -> lv_next b' = 0%num /\
        forall z j, (z <= lv_count b + Z.of_nat rem)%coqZ -> (j < v)%N -> seqf b z j = 0].
Proof.
elim: rem b => [|rem IH] b Hg Hz /=; case: N.eqb_spec => H0.
- split=> //=; try lia. move=> _; split=> // z j Hle Hj.
  case: (Z.eq_dec z (lv_count b)) => [->|Hne]; first by rewrite seqf_at H0 msb0.
  by rewrite seqf_low //; lia.
- by split=> //; try lia; rewrite Hz.
- have Hg1 := step_good Hg. have Hs := step_seqf Hg H0.
  have Hz1 : lv_zero (lv_step G vz b) = false.
    by rewrite /lv_step; case: (g_generate_len G vz (lv_rand b)).
  have Hc1 : (lv_count (lv_step G vz b) = lv_count b + 1)%coqZ.
    by rewrite /lv_step; case: (g_generate_len G vz (lv_rand b)).
  have [P1 P2 P3 P4 P5] := IH _ Hg1 Hz1. split=> //.
  + by move=> z j Hj; rewrite P2 // Hs.
  + lia.
  + move=> /P5 [Q1 Q2]; split=> // z j Hle Hj. rewrite -Hs //. apply: Q2 => //. lia.
- by split=> //; try lia; rewrite Hz.
Qed.

Variable nb : nat.
Hypothesis Hnb : forall s, ok s -> g_bitSize G s = nb.
Hypothesis Hn : (n <= 2 * nb + 1)%N.
Lemma next_state_spec b : goodv v b -> lv_zero b = false -> lv_next b = 0%num ->
  let b' := next_state G vz b in
  [/\ goodv v b', forall z j, (j < v)%N -> seqf b' z j = seqf b z j,
      (lv_count b + 1 <= lv_count b' <= lv_count b + 1 + 2 * Z.of_nat nb)%coqZ,
      lv_zero b' = false -> lv_next b' <> 0%num &
      lv_zero b' = true -> lv_next b' = 0%num /\ forall z j, (j < v)%N -> seqf b z j = 0].
Proof.
move=> Hg Hz H0. rewrite /next_state Hz.
have Hg1 := step_good Hg. have Hs := step_seqf Hg H0.
have Hz1 : lv_zero (lv_step G vz b) = false.
  by rewrite /lv_step; case: (g_generate_len G vz (lv_rand b)).
have Hc1 : (lv_count (lv_step G vz b) = lv_count b + 1)%coqZ.
  by rewrite /lv_step; case: (g_generate_len G vz (lv_rand b)).
have [Ho Hc _ _] := Hg. rewrite (Hnb Ho) -[Nat.mul 2 nb]/(2 * nb)%N.
have [P1 P2 P3 P4 P5] := ns_loop_spec (2 * nb) Hg1 Hz1. split=> //.
- by move=> z j Hj; rewrite P2 // Hs.
- lia.
- move=> /P5 [Q1 Q2]; split=> // z j Hj.
  have Q3 : forall i, obit C (st A i (abs (lv_rand b))) j = 0.
    apply: zero_outputs => i Hi. rewrite -seqf_high -Hs //. apply: Q2 => //. lia.
  case: (Z.lt_trichotomy z (lv_count b)) => [H|[->|H]].
  + exact: seqf_low.
  + by rewrite seqf_at H0 msb0.
  + have -> : (z = lv_count b + 1 + Z.of_nat (Z.to_nat (z - lv_count b - 1)))%coqZ by lia.
    by rewrite seqf_high.
Qed.
End V.
End Vec.
