(** minpoly, annihilate and calcCharacteristicPolynomial of linear generators. *)
From Coq Require Import NArith ZArith List Bool Lia.
From mathcomp Require Import all_ssreflect all_algebra.
From mathcomp Require Import zify.
From Verif Require Import Base UtilModel GenModel PolyF2 LinSpec LinLemmas PeriodModel PeriodSpec PolyAct.
From Verif Require Import PeriodProofs PeriodProofs2 EquiProofs5.
Set Implicit Arguments.
Unset Strict Implicit.
Unset Printing Implicit Defensive.
Import GRing.Theory.
Local Open Scope ring_scope.
Delimit Scope Z_scope with coqZ.

Lemma mkseq_cons (T : Type) (f : nat -> T) k : mkseq f k.+1 = f 0%N :: mkseq (fun i => f i.+1) k.
Proof. by rewrite /mkseq /= -[1%N]/(1 + 0)%N iotaDl -map_comp. Qed.

Section Lin.
Variables (S : Type) (G : gen_ops S) (n : nat) (ok : S -> Prop) (abs : S -> 'rV['F_2]_n)
  (A : 'M['F_2]_n) (C D : nat -> 'cV['F_2]_n).
Hypothesis LG : linear_gen G ok abs A C.
Hypothesis LO : linear_out G ok abs D.
Variable M : seq 'F_2 -> nat -> f2x.
Hypothesis HM : minpolyseq_spec M.

(** The state after k calls of generate(). *)
Definition run (k : nat) (s : S) : S := iter k (fun s => (g_generate G s).2) s.

Lemma run_ok k s : ok s -> ok (run k s).
Proof. by move=> H; elim: k => //= k IH; apply: (lin_generate_ok LG). Qed.
Lemma run_abs k s : ok s -> abs (run k s) = st A k (abs s).
Proof.
move=> H; elim: k => //= k IH; rewrite (lin_generate_abs LG) ?IH //.
exact: run_ok.
Qed.
Lemma runSr k s : run k.+1 s = run k (g_generate G s).2.
Proof. by rewrite /run iterSr. Qed.

Lemma bit_spec w x p : (p < w)%num -> getBitOfPos w x (Z.of_N p) = Ret (if N.testbit x p then 1 else 0)%num.
Proof.
move=> pw; rewrite /getBitOfPos.
have -> : ((0 <=? Z.of_N p) && (Z.of_N p <? Z.of_N w))%coqZ by lia.
congr Ret; rewrite N2Z.id /wshr.
rewrite -[1%num]/(N.ones 1) N.land_ones -N.bit0_mod N.shiftr_spec' N.add_0_l.
by case: N.testbit.
Qed.

Lemma record_spec cnt p s : ok s -> (N.of_nat p < g_width G)%num ->
  record_bits G cnt (Z.of_nat p) s = Ret (mkseq (out_seq A D (abs s) p) cnt, run cnt s).
Proof.
move=> H pw; elim: cnt s H => [|cnt IH] s H; first by [].
rewrite [record_bits _ _ _ _]/=; case E: (g_generate G s) => [x s'].
rewrite -nat_N_Z bit_spec // [bind _ _]/= nat_N_Z.
have s'E : s' = (g_generate G s).2 by rewrite E.
have xE : x = (g_generate G s).1 by rewrite E.
rewrite IH; last by rewrite s'E; apply: (lin_generate_ok LG).
rewrite [bind _ _]/= runSr -s'E mkseq_cons; congr (Ret (_ :: _, _)).
  rewrite /out_seq /= -LO // -xE; by case: N.testbit.
rewrite s'E (lin_generate_abs LG) //.
by apply: eq_map => i /=; rewrite /out_seq -stSr.
Qed.

Lemma record_undef cnt pos s : ~ (0 <= pos < Z.of_N (g_width G))%coqZ ->
  record_bits G cnt.+1 pos s = Undef.
Proof.
move=> H; rewrite /=; case: (g_generate G s) => x s'; rewrite /getBitOfPos.
by have -> : ((0 <=? pos) && (pos <? Z.of_N (g_width G)))%coqZ = false by lia.
Qed.

Definition mp_size (s : S) (stateSize : Z) : nat :=
  if (stateSize <=? 0)%coqZ then g_bitSize G s else Z.to_nat stateSize.

Lemma minpoly_spec s p stateSize : ok s -> (N.of_nat p < g_width G)%num -> (n <= mp_size s stateSize)%N ->
  exists mu, minpoly G M s (Z.of_nat p) stateSize = Ret (mu, run (2 * mp_size s stateSize) s) /\
             is_minpoly (out_seq A D (abs s) p) mu.
Proof.
move=> H pw sz; rewrite /minpoly -/(mp_size s stateSize) record_spec //.
eexists; split; first by reflexivity.
apply: (HM (h := char_poly A)); first exact: char_neq0.
  by rewrite size_char_poly.
exact: out_char.
Qed.

(** * annihilate *)
Lemma ann_loop_spec p cnt i rg other x : ok rg -> ok other -> abs other = st A i x ->
  ok (annihilate_loop G cnt i p rg other) /\
  abs (annihilate_loop G cnt i p rg other) = abs rg + \sum_(j < cnt) p`_(i + j) *: st A (i + j) x.
Proof.
elim: cnt i rg other => [|cnt IH] i rg other H1 H2 E.
  by split=> //; rewrite big_ord0 addr0.
rewrite [annihilate_loop _ _ _ _ _ _]/=; set rg' := if _ then _ else _.
have ok' : ok rg' by rewrite /rg'; case: (_ == _) => //; apply: (lin_add_ok LG).
have abs' : abs rg' = abs rg + p`_i *: st A i x.
  rewrite /rg'; have [->|/f2_neq0 ->] := eqVneq (p`_i) 0; first by rewrite scale0r addr0.
  by rewrite (lin_add_abs LG) // E scale1r.
have ao : abs (g_generate G other).2 = st A i.+1 x by rewrite (lin_generate_abs LG) // E stS.
have [K1 K2] := IH i.+1 rg' _ ok' (lin_generate_ok LG H2) ao.
split=> //; rewrite K2 abs' big_ord_recl addn0 addrA; congr (_ + _).
by apply: eq_bigr => j _; rewrite lift0 addSnnS.
Qed.

Lemma annihilate_spec s p : ok s -> ok (annihilate G s p) /\ abs (annihilate G s p) = pact A p (abs s).
Proof.
move=> H; have [K1 K2] := @ann_loop_spec p (size p) 0 (g_setZero G s) s (abs s) (lin_zero_ok LG H) H erefl.
rewrite /annihilate (_ : Z.to_nat (deg p + 1) = size p); last by rewrite /deg; lia.
by split=> //; rewrite K2 (lin_zero_abs LG) // add0r.
Qed.

(** * calcCharacteristicPolynomial *)
Variable nb : nat.
Hypothesis Hnb : forall s, ok s -> g_bitSize G s = nb.
Hypothesis n_nb : (n <= nb)%N.

Lemma out_shift s k p h : ok s -> generates h (out_seq A D (abs s) p) ->
  generates h (out_seq A D (abs (run k s)) p).
Proof.
move=> H g; apply/out_generates => i; rewrite run_abs // pact_st -st_add.
by move/out_generates: g; apply.
Qed.

Lemma lcm_ret x y l : LCM x y = Ret l -> x != 0 ->
  [/\ x %| l, y %| l, l != 0 \/ y = 0 & forall c, x %| c -> y %| c -> l %| c].
Proof.
move=> E x0; have [|l' [E' [D1 D2 D3]]] := @LCM_spec x y; first by rewrite (negPf x0).
move: E; rewrite E' => -[<-]; split=> //.
have [->|y0] := eqVneq y 0; [by right | left].
apply: contraTneq (D3 (x * y) (dvdp_mulr _ (dvdpp _)) (dvdp_mull _ (dvdpp _))) => ->.
by rewrite dvd0p mulf_neq0.
Qed.

Lemma ccp_loop_spec cnt i s L : ok s -> L != 0 -> (N.of_nat (i + cnt) <= g_width G)%num ->
  (forall p, (p < i)%N -> generates L (out_seq A D (abs s) p)) ->
  exists L' k, [/\ ccp_loop G M cnt i nb s L = Ret (L', run k s), L %| L', L' != 0,
    L %| char_poly A -> L' %| char_poly A &
    (L %| char_poly A -> forall p, (p < i + cnt)%N -> generates L' (out_seq A D (abs (run k s)) p)) /\
    (forall c, L %| c -> (forall p, (N.of_nat p < g_width G)%num -> generates c (out_seq A D (abs s) p)) -> L' %| c)].
Proof.
elim: cnt i s L => [|cnt IH] i s L H L0 lew Hg.
  exists L, 0%N; split=> //; split=> // _ p; rewrite addn0; exact: Hg.
rewrite [ccp_loop _ _ _ _ _ _ _]/= degZ_eq; case: eqP => [sL|_].
  exists L, 0%N; split=> //; split=> // Dc p _.
  have -> : L = char_poly A; last exact: out_char.
  apply: size_eq_dvd => //; apply/eqP; rewrite eqn_leq dvd_size ?char_neq0 //=.
  by rewrite sL size_char_poly ltnS.
have pw : (N.of_nat i < g_width G)%num by lia.
have szE : mp_size s 0 = nb by rewrite /mp_size /= Hnb.
have [|mu [E Hmu]] := @minpoly_spec s i 0 H pw; first by rewrite szE.
rewrite E [bind _ _]/= szE; set s' := run (2 * nb) s.
have ok' : ok s' by apply: run_ok.
have [mu0 gmu Hmin] := Hmu.
have [|l [El [D1 D2 D3]]] := @LCM_spec L mu; first by rewrite (negPf L0).
rewrite El [bind _ _]/=.
have [_ _ lz _] := lcm_ret El L0; have l0 : l != 0 by case: lz => // Z; rewrite Z eqxx in mu0.
have lew' : (N.of_nat (i.+1 + cnt) <= g_width G)%num by rewrite addSnnS.
have Hg' p : (p < i.+1)%N -> generates l (out_seq A D (abs s') p).
  rewrite ltnS leq_eqVlt => /orP[/eqP ->|lt].
    by apply: out_shift => //; apply: gen_dvd gmu.
  by apply: out_shift => //; apply: gen_dvd (Hg p lt).
have [L' [k [K1 K2 K3 K4 [K5 K6]]]] := IH i.+1 s' l ok' l0 lew' Hg'.
exists L', (k + 2 * nb)%N.
have rE : run (k + 2 * nb) s = run k s' by rewrite /run iterD.
rewrite rE; split=> //.
- exact: dvdp_trans D1 K2.
- by move=> Dc; apply: K4; apply: D3 => //; apply: minpoly_char Hmu.
- split=> [Dc p|c Lc Hc]; last first.
    apply: K6 => [|p pw']; last by apply: out_shift => //; apply: Hc.
    by apply: D3 => //; apply: Hmin; apply: Hc.
  rewrite -addSnnS; apply: K5.
  by apply: D3 => //; apply: minpoly_char Hmu.
Qed.

Lemma ccp_spec s L : ok s -> L != 0 ->
  exists L' k, [/\ calcCharacteristicPolynomial G M s L = Ret (L', run k s), L %| L', L' != 0,
    L %| char_poly A -> L' %| char_poly A &
    (L %| char_poly A -> forall p, (N.of_nat p < g_width G)%num -> generates L' (out_seq A D (abs (run k s)) p)) /\
    (forall c, L %| c -> (forall p, (N.of_nat p < g_width G)%num -> generates c (out_seq A D (abs s) p)) -> L' %| c)].
Proof.
move=> H L0; have lew : (N.of_nat (0 + N.to_nat (g_width G)) <= g_width G)%num by rewrite add0n; lia.
have [//|L' [k [K1 K2 K3 K4 [K5 K6]]]] := @ccp_loop_spec (N.to_nat (g_width G)) 0 s L H L0 lew.
exists L', k; split=> //; first by rewrite /calcCharacteristicPolynomial Hnb.
by split=> // Dc p pw; apply: K5 => //; rewrite add0n; lia.
Qed.

Lemma ccp_full L : L %| char_poly A -> size L = n.+1 -> L = char_poly A.
Proof. by move=> Dc sL; apply: size_eq_dvd => //; rewrite size_char_poly. Qed.

(** For an invertible transition the sequences from the initial state are
    annihilated too. *)
Lemma out_back k x p h : A \in unitmx -> generates h (out_seq A D (st A k x) p) -> generates h (out_seq A D x p).
Proof.
move=> U g; apply/out_generates.
have [K [a xE]] := @orbit_back n A k x U.
move=> i; rewrite {1}xE.
have -> : pact A h (\sum_(j < K) a j *: st A j (st A k x)) = \sum_(j < K) a j *: st A j (pact A h (st A k x)).
  rewrite -[LHS]/(pact A h _) -pact_sum; apply: eq_bigr => j _; by rewrite pact_vZ pact_st.
rewrite st_sum mulmx_suml summxE big1 // => j _.
rewrite stZ -st_add -scalemxAl mxE; move/out_generates: g => ->.
by rewrite mulr0.
Qed.
End Lin.
