(** A run of mt2 that prints a line. *)
From Coq Require Import NArith ZArith List Bool Lia.
From mathcomp Require Import all_ssreflect all_algebra.
From mathcomp Require Import zify.
From Verif Require Import Base GenModel PolyF2 LinSpec PeriodModel PeriodSpec EquiModel EquiProofs6 EquiEx PolyAct PeriodProofs4 SampleSpec MtdcModel MtdcLin MtdcProofs MtdcEx TinyDcProofs TinyPeriod
  Mt2Model Mt2Spec Mt2Proofs.
Set Implicit Arguments.
Unset Strict Implicit.
Unset Printing Implicit Defensive.
Import GRing.Theory.
Local Open Scope ring_scope.
Delimit Scope Z_scope with coqZ.

Lemma total_le n (A : 'M['F_2]_n) C L delta : total_defect A C L delta -> (delta <= Z.of_nat n * Z.of_nat L)%coqZ.
Proof.
case=> k [_ ->]; have -> : Z.of_nat L = Z.of_nat (length (List.seq 1 L)) by rewrite List.seq_length.
elim: (List.seq 1 L) => [|v l IH]; first by rewrite /=; lia.
cbn [List.map List.fold_right length].
have : (Z.of_nat (n %/ v) <= Z.of_nat n)%coqZ by have := leq_div n v; lia.
move: IH; generalize (List.fold_right Z.add 0%coqZ (List.map (fun v => Z.of_nat (n %/ v)%N - Z.of_nat (k v))%coqZ l)) (n %/ v)%N => x y; lia.
Qed.
Lemma poor_lt d id B (next : B -> N * B) max b m k : mt2_poor d id next max b m k -> (0 < k)%N.
Proof. by elim. Qed.
Definition ex_next (b : N) : N * N := ((if N.even b then 0 else 0x83a90000)%num, (b + 1)%num).
Lemma ex_max b : N.even b -> mt2_maximal (N.to_nat 127) 0x895d (number ex_next 0 b) (number ex_next 1 b).
Proof.
move=> Hb; have E0 : number ex_next 0 b = 0%num by rewrite /number /after /ex_next /= Hb.
have E1 : number ex_next 1 b = 0x83a90000%num by rewrite /number /after /ex_next /= N.even_add Hb.
rewrite E0 E1 /mt2_maximal.
have -> : mt2_pos (N.to_nat 127) 0 = 2%N by vm_compute.
have -> : mt2_mata 0x895d 0x83a90000 = 0x83a9895d%num by vm_compute.
exact: mt127_max.
Qed.
Lemma ex_line l : mt2_line_for (N.to_nat 127) 0x895d (number ex_next 0 0%num) (number ex_next 1 0%num) l ->
  [/\ (ml_delta l <= 2 ^ 31 - 1)%coqZ, ml_pos l = 2%N & ml_mata l = 0x83a9895d%num].
Proof.
have E0 : number ex_next 0 0%num = 0%num by [].
have E1 : number ex_next 1 0%num = 0x83a90000%num by [].
rewrite E0 E1 => -[[-> ->] _ Ht _]; split.
- move: (total_le Ht); clear; generalize (ml_delta l) => z.
  by change (m_mexp _) with (N.to_nat 127); rewrite N_nat_Z; lia.
- by vm_compute.
- by vm_compute.
Qed.
Lemma listing1 d id B (next : B -> N * B) max b lines : mt2_maximal d id (number next 0 b) (number next 1 b) ->
  (forall l, mt2_line_for d id (number next 0 b) (number next 1 b) l -> (ml_delta l <= max)%coqZ) ->
  mt2_listing d id next max b 1 lines -> exists l, lines = [:: l] /\ mt2_line_for d id (number next 0 b) (number next 1 b) l.
Proof.
move=> Hm Hl; move E : 1%N => k H; case: H E Hm Hl => {k b lines} [b|b k ls Nm _ _|b k l ls _ HL Hd _ _|b k l ls _ HL Hd H].
- by [].
- by move=> Hm _; case: Nm.
- by move=> _ /(_ _ HL); move: Hd; clear; generalize (ml_delta l) => z; lia.
- by case=> E _ _; exists l; split=> //; move: H; rewrite -E => H; inversion H.
Qed.
Lemma poor1 d id B (next : B -> N * B) max b m k : m = 1%N -> k = 1%N -> mt2_maximal d id (number next 0 b) (number next 1 b) ->
  (forall l, mt2_line_for d id (number next 0 b) (number next 1 b) l -> (ml_delta l <= max)%coqZ) ->
  ~ mt2_poor d id next max b m k.
Proof.
move=> Em Ek Hm Hl H; case: H Em Ek Hm Hl => {m k b} [b k|b m k Nm _|b m k l _ HL Hd _|b m k l _ HL Hd H].
- by [].
- by move=> _ _ Hm _; case: Nm.
- by move=> _ _ _ /(_ _ HL); move: Hd; clear; generalize (ml_delta l) => z; lia.
- by move=> _ [Ek] _ _; move: (poor_lt H); rewrite Ek.
Qed.
Lemma ex_after k b : after ex_next k b = (N.of_nat k + b)%num.
Proof. by elim: k => [|k IH] //; rewrite /after iterS; change (iter k _ b) with (after ex_next k b); rewrite IH; cbn [ex_next snd]; lia. Qed.
Lemma mt2_case : let next := fun b : N => ((if N.even b then 0 else 0x83a90000)%num, (b + 1)%num) in
  exists l, mt2_main next mps pos32 (N.to_nat 17000) 1 (List.repeat 0%coqZ 32) 1 (N.to_nat 127) 0x895d 0 0 (2 ^ 31 - 1) false 1 0%num = Ret ([:: l], 0%coqZ) /\
    ml_pos l = 2%N /\ ml_mata l = 0x83a9895d%num.
Proof.
cbv zeta.
have Hd : N.to_nat 127 = 127%N by lia.
have H1 : (64 <= N.to_nat 127)%N by lia.
have H2 : Nat.modulo (N.to_nat 127) 32 <> 0%N by rewrite Hd.
have H3 : (N.of_nat (N.to_nat 127) < 2 ^ 31)%num by rewrite N2Nat.id.
have H4 : (0 <= 0x895d < 2 ^ 16)%coqZ by [].
have H5 b : ((ex_next b).1 < 2 ^ 32)%num by rewrite /ex_next; case: (N.even b).
have H6 : ((4 * N.to_nat 127 + 2) * 33 <= N.to_nat 17000)%N by lia.
have H8 : (32 <= length (List.repeat 0%coqZ 32))%N by [].
have Hm := ex_max (b := 0%num) isT.
have Hl l (H : mt2_line_for (N.to_nat 127) 0x895d (number ex_next 0 0%num) (number ex_next 1 0%num) l) : (ml_delta l <= 2 ^ 31 - 1)%coqZ.
  by case: (ex_line H).
have Hb j : ~ mt2_barren (N.to_nat 127) 0x895d ex_next (1 * (1000 * N.to_nat 127)) (after ex_next (2 * j) 0%num).
  move=> Hb; have Hev : N.even (after ex_next (2 * j) 0%num).
    by rewrite ex_after N.add_0_r Nat2N.inj_mul N.even_mul.
  have P0 : (0 < 1 * (1000 * N.to_nat 127))%N by rewrite Hd mul1n muln_gt0.
  by case: (Hb 0%N P0); exact: (ex_max Hev).
have H7 : prime (2 ^ N.to_nat 127 - 1) by rewrite Hd; exact: m127_prime.
case: (main_spec H1 H2 H3 H4 H5 1 mps_spec pos32_ok H6 H8 H7 1 0%N 0%num (2 ^ 31 - 1)%coqZ false 1%coqZ 0%num).
- clear H7; case=> lines [E /(listing1 Hm Hl) [l [El /ex_line [_ P1 P2]]]].
  exists l; split; last by split.
  by rewrite -El; exact: E.
- clear H7; case=> _ [Hp|[j Hj]]; first by case: (poor1 erefl erefl Hm Hl Hp).
  by case: (Hb j Hj).
Qed.
