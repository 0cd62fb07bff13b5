(** searchParity: the vector that is returned. *)
From Coq Require Import NArith ZArith List Bool Lia.
From mathcomp Require Import all_ssreflect all_algebra.
From mathcomp Require Import zify.
From Verif Require Import Base UtilModel WordLemmas UtilProofs UtilProofs2 GenModel PolyF2 LinSpec LinLemmas PeriodModel PeriodSpec PolyAct.
From Verif Require Import PeriodProofs PeriodProofs2 PeriodProofs3 PeriodProofs4 PeriodProofs5 PeriodProofs6 PeriodProofs7.
From Verif Require Import ParityModel ParitySpec ParityProofs ParityProofs2.
Set Implicit Arguments.
Unset Strict Implicit.
Unset Printing Implicit Defensive.
Import GRing.Theory.
Local Open Scope ring_scope.
Delimit Scope Z_scope with coqZ.

Lemma inner_msb w x y : inner w x y = \sum_(j < N.to_nat w) msb w x j * msb w y j.
Proof.
rewrite /inner (reindex_inj rev_ord_inj); apply: eq_bigr => i _ /=; rewrite /msb.
have -> : N.of_nat (N.to_nat w - i.+1) = (w - 1 - N.of_nat i)%num by have := ltn_ord i; lia.
by case: (N.testbit x _); case: (N.testbit y _); rewrite ?mulr0 ?mul0r ?mulr1.
Qed.

Lemma sbp_low junk w k : (k < w)%num -> sbp (Some junk) w 0 (Z.of_N k) 1 = Ret (2 ^ k)%num.
Proof. by move=> H; rewrite /sbp /setBitOfPos_junk setBitOfPos_zero. Qed.

Section Rows.
Variables (S : Type) (G : gen_ops S) (junk : N).
Notation w := (g_width G).
Lemma rows_spec (cols : list N) : forall cnt mask, (N.of_nat cnt <= w)%num ->
  ((0 < cnt)%N -> mask = (2 ^ (N.of_nat cnt - 1))%num) ->
  exists mx, matrix_rows G (Some junk) cnt (Z.of_nat cnt - 1)%coqZ mask cols = Ret mx /\
    forall i j, (i < cnt)%N ->
      List.nth j (List.nth i mx nil) false = N.testbit (List.nth j cols 0%num) (N.of_nat (cnt - 1 - i)).
Proof.
elim=> [|cnt IH] mask Hc Hm; first by exists nil.
rewrite [matrix_rows _ _ _ _ _ _]/= (_ : (Z.of_nat cnt.+1 - 1 - 1)%coqZ = (Z.of_nat cnt - 1)%coqZ); last by lia.
have Hc' : (N.of_nat cnt <= w)%num by lia.
set m' := setBitOfPos_junk _ _ _ _ _.
have Hm' : (0 < cnt)%N -> m' = (2 ^ (N.of_nat cnt - 1))%num.
  move=> c0; have := @sbp_low junk w (N.of_nat cnt - 1)%num; rewrite /sbp.
  rewrite (_ : Z.of_N (N.of_nat cnt - 1) = (Z.of_nat cnt - 1)%coqZ); last by lia.
  by move=> H; have [<-] := H ltac:(lia).
have [mx [E H]] := IH m' Hc' Hm'; rewrite -/m' E; eexists; split; first reflexivity.
move=> [|i] j Hi.
  rewrite [List.nth 0 _ _]/= (_ : false = negb (N.land mask 0 =? 0)%num); last by rewrite N.land_0_r.
  rewrite (List.map_nth (fun x => negb (N.land mask x =? 0)%num) cols 0%num j) Hm // N.land_comm.
  rewrite (_ : (N.of_nat cnt.+1 - 1)%num = N.of_nat cnt); last by lia.
  rewrite land_pow2_testbit subn0 (_ : (cnt.+1 - 1)%N = cnt) //; lia.
rewrite [List.nth i.+1 _ _]/= H //; congr (N.testbit _ _); lia.
Qed.
End Rows.

Section Par.
Variables (S : Type) (G : gen_ops S) (P : par_ops S) (pos : N -> res Z).
Variable kernel : nat -> nat -> (nat -> nat -> bool) -> list (list bool).
Variables (n : nat) (ok : S -> Prop) (abs : S -> 'rV['F_2]_n) (A : 'M['F_2]_n) (C : nat -> 'cV['F_2]_n).
Variables (nb : nat) (e : nat -> 'rV['F_2]_n) (Q : nat -> 'cV['F_2]_n) (d : nat) (f : f2x).
Hypothesis LG : linear_gen G ok abs A C.
Hypothesis PG : parity_gen G P ok abs nb e Q.
Hypothesis Hpos : pos_spec (g_width G) pos.
Hypothesis HK : kernel_spec kernel.
Hypothesis Au : A \in unitmx.
Hypothesis I : irreducible_poly f.
Hypothesis sf : size f = d.+1.
Hypothesis D1 : f %| char_poly A.
Hypothesis D2 : ~~ (f ^+ 2 %| char_poly A).
Variable junk : N.
Hypothesis w0 : (0 < g_width G)%num.
Notation w := (g_width G).
Notation W := (N.to_nat (g_width G)).
Notation V := (poly_mx A f).
Notation bgood := (bases_good G P ok abs A f).
Notation Bmx := (Bm (S := S) G).
Notation PM := (Pm G Q).

Local Ltac flia := clear LG PG Hpos HK Au I sf D1 D2; lia.

(** Every row of the basis matrix is zero or a column of the matrix given to
    the kernel computation, and conversely. *)
Lemma in_nonzero (bs : list (internal_state S)) b : List.In b bs -> is_next b <> 0%num ->
  exists2 j, (j < length (List.map is_next (nonzero bs)))%N & List.nth j (List.map is_next (nonzero bs)) 0%num = is_next b.
Proof.
move=> Hb nz; have : List.In (is_next b) (List.map is_next (nonzero bs)).
  by apply: List.in_map; apply/List.filter_In; split=> //; case: N.eqb_spec.
by case/(List.In_nth _ _ 0%num) => j [Hj Ej]; exists j => //; flia.
Qed.

Definition check_matrix (bs : list (internal_state S)) (mx : list (list bool)) : Prop :=
  forall i j, (i < W)%N -> List.nth j (List.nth i mx nil) false =
    N.testbit (List.nth j (List.map is_next (nonzero bs)) 0%num) (N.of_nat (W - 1 - i)).

Lemma bitE (x : N) (i : 'I_W) : (N.testbit x (N.of_nat (W - 1 - i)))%:R = msb w x i.
Proof. by rewrite /msb; congr (N.testbit _ _)%:R; have := ltn_ord i; lia. Qed.

Lemma check_orth bs mx c (y : nat -> bool) : bgood bs -> check_matrix bs mx ->
  (length (List.map is_next (nonzero bs)) <= c)%N ->
  (forall j, (j < c)%N -> dot_col W (fun i j => List.nth j (List.nth i mx nil) false) y j = 0) ->
  (\row_(i < W) (y i)%:R) *m (Bmx bs)^T = 0.
Proof.
move=> [Hl Hb] Hmx Hc Hy; apply/rowP => k; rewrite [LHS]mxE [RHS]mxE.
have [b Eb] := nth_some k Hl; have Ek j : (Bmx bs)^T j k = msb w (is_next b) j.
  by rewrite mxE; have /rowP/(_ j) := row_Bm Eb; rewrite !mxE.
case: (N.eqb_spec (is_next b) 0) => [b0|nz].
  by rewrite big1 // => j _; rewrite Ek b0 msb0 mulr0.
have [j Hj Ej] := in_nonzero (List.nth_error_In _ _ Eb) nz.
apply: etrans (Hy j (leq_trans Hj Hc)); rewrite /dot_col; apply: eq_bigr => i _.
rewrite Hmx // Ej Ek mxE -bitE; case: (y i); case: (N.testbit _ _); by rewrite /= ?mulr0 ?mul0r ?mulr1.
Qed.
Lemma check_orth_inv bs mx c (y : nat -> bool) : bgood bs -> check_matrix bs mx ->
  (\row_(i < W) (y i)%:R) *m (Bmx bs)^T = 0 ->
  forall j, (j < c)%N -> dot_col W (fun i j => List.nth j (List.nth i mx nil) false) y j = 0.
Proof.
move=> [Hl Hb] Hmx /rowP Hy j _; rewrite /dot_col.
case: (ltnP j (length (List.map is_next (nonzero bs)))) => Hj; last first.
  by rewrite big1 // => i _; rewrite Hmx // List.nth_overflow ?N.bits_0 ?andbF //; apply/leP.
set x := List.nth j (List.map is_next (nonzero bs)) 0%num.
have : List.In x (List.map is_next (nonzero bs)) by apply: List.nth_In; apply/ltP.
case/List.in_map_iff => b [xE /List.filter_In [Hin _]].
have [k Ek] := List.In_nth_error _ _ Hin.
have kW : (k < W)%N.
  by rewrite -Hl; apply/ltP/List.nth_error_Some; rewrite Ek.
have := Hy (Ordinal kW); rewrite [in LHS]mxE [in RHS]mxE; apply: etrans; apply: eq_bigr => i _.
rewrite Hmx // -/x [in RHS]mxE [_^T _ _]mxE.
have /rowP/(_ i) := @row_Bm S G bs (Ordinal kW) b Ek; rewrite !mxE => ->.
rewrite xE -bitE; case: (y i); case: (N.testbit _ _); by rewrite /= ?mulr0 ?mul0r ?mulr1.
Qed.

Lemma check_spec bs : complete G P ok abs A Q f bs -> (length (nonzero bs) <= nb - d)%N -> (d <= nb)%N ->
  match search_parity_check_vector G kernel (Some junk) bs (Z.of_nat nb - Z.of_nat d)%coqZ with
  | Ret v => [/\ (0 < v)%num, (v < 2 ^ w)%num & forall x : 'rV['F_2]_n, (x <= V)%MS -> \sum_(j < W) msb w v j * obit Q x j = 0]
  | Throw => forall v, (0 < v < 2 ^ w)%num -> exists2 x : 'rV['F_2]_n, (x <= V)%MS & \sum_(j < W) msb w v j * obit Q x j = 1
  | _ => False
  end.
Proof.
move=> [Hbs Hcomp] Hle Hdn; rewrite /search_parity_check_vector List.map_length.
have -> : (Z.of_nat nb - Z.of_nat d <? Z.of_nat (length (nonzero bs)))%coqZ = false.
  by move: Hle Hdn; clear; lia.
have Wp : (0 < W)%N by move: w0; clear; lia.
rewrite (_ : (Z.of_N w - 1)%coqZ = Z.of_N (w - 1)); last by move: w0; clear; lia.
rewrite sbp_low; last by move: w0; clear; lia.
rewrite [bind (Ret _) _]/=.
rewrite (_ : Z.of_N (w - 1) = (Z.of_nat W - 1)%coqZ); last by move: w0; clear; lia.
have [|_|mx [E Hmx]] := @rows_spec S G junk (List.map is_next (nonzero bs)) W (2 ^ (w - 1))%num.
- by clear; lia.
- by congr (2 ^ _)%num; clear; lia.
rewrite E [bind (Ret _) _]/= (_ : Z.to_nat (Z.of_nat nb - Z.of_nat d) = (nb - d)%N); last by clear; lia.
set m := fun i j => _; have [Hin Hnil] := HK W (nb - d)%N m.
have Hle' : (length (List.map is_next (nonzero bs)) <= nb - d)%N by rewrite List.map_length.
have dotE (v : N) x : \sum_(j < W) msb w v j * obit Q x j = (wv G v *m (x *m PM)^T) 0 0.
  by rewrite mxE; apply: eq_bigr => j _; rewrite mxE [_^T _ _]mxE (obit_par (G := G)).
case Ek: (kernel _ _ _) => [|y ys].
  move=> v [v0 vw]; have Bf : row_full (Bmx bs).
    rewrite /row_full -mxrank_tr -/(row_free _) -kermx_eq0; apply/eqP/row_matrixP => i.
    rewrite row0; set z := row i _.
    have zB : z *m (Bmx bs)^T = 0 by apply/sub_kermxP; apply: row_sub.
    pose yf (k : nat) := if insub k is Some o then z 0 (o : 'I_W) != 0 else false.
    have zE : \row_(k < W) (yf k)%:R = z.
      apply/rowP => k; rewrite mxE /yf valK; case: (eqVneq (z 0 k) 0) => [->//|/f2_neq0 ->//].
    have := Hnil Ek yf; rewrite -zE in zB; move/(_ (check_orth_inv Hbs Hmx zB)) => Y0.
    by rewrite -zE; apply/rowP => k; rewrite !mxE Y0.
  have vz : wv G v != 0 by apply/eqP => /(wv_inj0 vw) E0; rewrite E0 in v0.
  have [k vk] : exists k, wv G v 0 k != 0.
    by apply/existsP; apply: contraNT vz; rewrite negb_exists => /forallP Z; apply/eqP/rowP => k; rewrite [RHS]mxE; apply/eqP; have := Z k; rewrite negbK.
  have : ((delta_mx 0 k : 'rV['F_2]_W) <= V *m PM)%MS.
    by apply: submx_trans (Bm_sub PG Hbs); apply: submx_full.
  case/submxP => u uE; exists (u *m V); first exact: submxMl.
  rewrite dotE -mulmxA -uE mxE (bigD1 k) //= big1 => [|l Hl]; last by rewrite !mxE (negbTE Hl) andbF mulr0.
  by rewrite addr0 [_^T _ _]mxE [delta_mx _ _ _ _]mxE !eqxx mulr1; apply: f2_neq0.
have yin : List.In y (kernel W (nb - d)%N m) by rewrite Ek; left.
have [ly y0 [i iW yi]] := Hin y yin.
have [v [Ev [vw Vy]]] := to_from_GF2Vec junk w y w0 ly; rewrite /fgv Ev.
have yE (j : 'I_W) : (List.nth j y false)%:R = msb w v j.
  have jl : (j < W)%coq_nat by apply/ltP.
  have := toGF2Vec_nth w v j jl; rewrite Vy => K; by rewrite (List.nth_error_nth y j false K).
split=> //.
  have vi := yE (Ordinal iW); rewrite /= yi in vi.
  case: (N.eqb_spec v 0) => [v0|]; last by clear; lia.
  by move: vi; rewrite v0 msb0 => /eqP; rewrite oner_eq0.
move=> x xV; have := check_orth Hbs Hmx Hle' y0.
rewrite (_ : \row_(k < W) _ = wv G v); last by apply/rowP=> k; rewrite !mxE yE.
move=> vB; rewrite dotE; have /submxP[u uE] : (x *m PM <= Bmx bs)%MS by apply: submx_trans Hcomp; apply: submxMr.
by rewrite uE trmx_mul mulmxA vB mul0mx mxE.
Qed.

(** * searchParity *)
Notation q := (char_poly A %/ f).
Lemma search_spec fuel g : ok g -> p_getMexp P g = Z.of_nat d ->
  match searchParity G P pos kernel (Some junk) fuel g f with
  | Ret (v, g') => [/\ (0 < v)%num, (v < 2 ^ w)%num, g' = p_setParityValue P v g &
      forall s, ok s -> inner w v (p_getParityValue P s) = 1 -> pact A q (abs s) != 0]
  | Throw => forall v, (0 < v < 2 ^ w)%num -> exists2 x, pact A q x = 0 & \sum_(j < W) msb w v j * obit Q x j = 1
  | Undef => badbit P ok nb
  | NoFuel => ~ enough G A Q fuel
  | Exit => False
  end.
Proof.
move=> H Em; rewrite /searchParity Em (pg_bitSize PG) //.
have := search_bases LG PG Hpos Au I sf D1 D2 fuel H.
rewrite /safe; case: search_loop => [bs Hc|Hb|//|//|Hb]; [|exact: Hb..].
rewrite [bind (Ret _) _]/=.
have le := count_le PG I sf D1 D2 (proj1 Hc).
have dn : (d <= nb)%N by apply: leq_trans (dim_le sf D1) (n_le_nb PG).
have := check_spec Hc le dn; case: search_parity_check_vector => //= [v [v0 vw Hv]|Hv].
  split=> // s oks odd; apply/eqP => /(image_ker I D1 D2) sV; move: odd; rewrite inner_msb.
  rewrite (eq_bigr (fun j : 'I_W => msb w v j * obit Q (abs s) j)) => [|j _].
    by rewrite Hv // => /eqP; rewrite eq_sym oner_eq0.
  by rewrite (pg_parity PG) //; apply: ltW.
by move=> v /Hv[x xV E]; exists x => //; apply/(image_ker I D1 D2).
Qed.
End Par.

(** With the stray shifts of the C++ standard there is never a result. *)
Lemma rows_strict (S : Type) (G : gen_ops S) cols : forall cnt mask mx,
  matrix_rows G None cnt.+1 (Z.of_nat cnt) mask cols <> Ret mx.
Proof.
elim=> [|cnt IH] mask mx; first by [].
have -> : matrix_rows G None cnt.+2 (Z.of_nat cnt.+1) mask cols =
  do mask' <- sbp None (g_width G) 0 (Z.of_nat cnt.+1 - 1)%coqZ 1;
  do rows <- matrix_rows G None cnt.+1 (Z.of_nat cnt.+1 - 1)%coqZ mask' cols;
  Ret (List.map (fun x => negb (N.land mask x =? 0)%num) cols :: rows) by [].
rewrite (_ : (Z.of_nat cnt.+1 - 1)%coqZ = Z.of_nat cnt); last by lia.
case: (sbp _ _ _ _ _) => // m'; cbn [bind]; have := IH m'.
set M := matrix_rows G None cnt.+1 _ _ _; case: M => // rows K; by have := K rows.
Qed.
Lemma search_strict (S : Type) (G : gen_ops S) P pos kernel fuel g f r : (0 < g_width G)%num ->
  searchParity G P pos kernel None fuel g f <> Ret r.
Proof.
move=> w0; rewrite /searchParity; case: search_loop => // bs; cbn [bind].
rewrite /search_parity_check_vector; case: ifP => // _.
have [k Ek] : exists k, N.to_nat (g_width G) = k.+1 by exists (N.to_nat (g_width G)).-1; lia.
rewrite (_ : (Z.of_N (g_width G) - 1)%coqZ = Z.of_nat k); last by lia.
case: (sbp _ _ _ _ _) => // m; cbn [bind]; rewrite Ek.
have := @rows_strict S G (List.map is_next (nonzero bs)) k m.
set M := matrix_rows G None k.+1 _ _ _; case: M => // rows K; by have := K rows.
Qed.
