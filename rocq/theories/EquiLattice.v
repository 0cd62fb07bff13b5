(** The lattice argument behind AlgorithmEquidistribution, independent of the
    model: sequences Z -> F_2^v, their span under shifts, reduced bases. *)
From Coq Require Import NArith ZArith Lia.
From mathcomp Require Import all_ssreflect all_algebra.
From mathcomp Require Import zify.
From Verif Require Import LinSpec LinLemmas.
Set Implicit Arguments.
Unset Strict Implicit.
Unset Printing Implicit Defensive.
Import GRing.Theory.
Local Open Scope ring_scope.
Delimit Scope Z_scope with coqZ.

Definition sq := Z -> nat -> 'F_2.

(** Closure of a set of sequences under sums and shifts; only the first v
    coordinates count. *)
Inductive spn (v : nat) (B : sq -> Prop) : sq -> Prop :=
| spn0 f : (forall z j, (j < v)%N -> f z j = 0) -> spn v B f
| spnB b f : B b -> (forall z j, (j < v)%N -> f z j = b z j) -> spn v B f
| spnD f g h : spn v B f -> spn v B g ->
    (forall z j, (j < v)%N -> h z j = f z j + g z j) -> spn v B h
| spnT f h : spn v B f -> (forall z j, (j < v)%N -> h z j = f (z + 1)%coqZ j) -> spn v B h.

Lemma spn_eq v B f g : spn v B f -> (forall z j, (j < v)%N -> g z j = f z j) -> spn v B g.
Proof.
move=> H E. apply: (spnD H (spn0 B (f := fun _ _ => 0) _)) => // z j Hj.
by rewrite addr0 E.
Qed.
Lemma spn_trans v (B B' : sq -> Prop) f : (forall b, B b -> spn v B' b) -> spn v B f -> spn v B' f.
Proof.
move=> H; elim=> {f}.
- by move=> f Hf; apply: spn0.
- by move=> b f Hb E; apply: spn_eq (H _ Hb) E.
- by move=> f g h _ IHf _ IHg E; apply: spnD IHf IHg E.
- by move=> f h _ IH E; apply: spnT IH E.
Qed.
Lemma spn_shift v B f k : spn v B f -> spn v B (fun z j => f (z + Z.of_nat k)%coqZ j).
Proof.
move=> H; elim: k => [|k IH].
  by apply: spn_eq H _ => z j _; rewrite Z.add_0_r.
by apply: spnT IH _ => z j _; congr (f _ j); lia.
Qed.
Lemma spn_scale v B f (a : 'F_2) : spn v B f -> spn v B (fun z j => a * f z j).
Proof.
move=> H. case: (F2_cases a) => ->.
  by apply: spn0 => z j _; rewrite mul0r.
by apply: spn_eq H _ => z j _; rewrite mul1r.
Qed.
Lemma spn_sum v B (I : Type) (r : seq I) (P : pred I) (F : I -> sq) :
  (forall i, P i -> spn v B (F i)) -> spn v B (fun z j => \sum_(i <- r | P i) F i z j).
Proof.
move=> H. elim: r => [|i r IH].
  by apply: spn0 => z j _; rewrite big_nil.
case Pi: (P i); last by apply: spn_eq IH _ => z j _; rewrite big_cons Pi.
by apply: (spnD (H _ Pi) IH) => z j _; rewrite big_cons Pi.
Qed.
Lemma spn_proj v v' (B : sq -> Prop) f : (v' <= v)%N -> spn v B f -> spn v' B f.
Proof.
move=> Hv; elim=> {f}.
- by move=> f Hf; apply: spn0 => z j Hj; apply: Hf; lia.
- by move=> b f Hb E; apply: (spnB Hb) => z j Hj; apply: E; lia.
- by move=> f g h _ IHf _ IHg E; apply: (spnD IHf IHg) => z j Hj; apply: E; lia.
- by move=> f h _ IH E; apply: (spnT IH) => z j Hj; apply: E; lia.
Qed.

(** The i-th unit vector at index 0. *)
Definition unit_sq (i : nat) : sq := fun z j => if (z =? 0)%coqZ && (j == i) then 1 else 0.

Lemma sum_pick (K : nat) (q : nat) (F : nat -> 'F_2) :
  \sum_(k < K) (if (k : nat) == q then F k else 0) = if (q < K)%N then F q else 0.
Proof.
case: ltnP => Hq.
  rewrite (bigD1 (Ordinal Hq)) //= eqxx big1 ?addr0 // => i Hi.
  by case: eqP => // E; move: Hi; rewrite -(inj_eq val_inj) /= E eqxx.
by rewrite big1 // => i _; case: eqP => // E; have := ltn_ord i; lia.
Qed.

Section Reduced.
Variables (n : nat) (A : 'M['F_2]_n) (C : nat -> 'cV['F_2]_n) (x0 : 'rV['F_2]_n).
Variable v : nat.
Variable b : 'I_v -> sq.
Variable c : 'I_v -> nat.
Hypothesis Hlow : forall i z j, (z < Z.of_nat (c i))%coqZ -> (j < v)%N -> b i z j = 0.
Hypothesis Hdiag : forall i : 'I_v, b i (Z.of_nat (c i)) i = 1.
Hypothesis Htri : forall (i : 'I_v) j, (i < j)%N -> (j < v)%N -> b i (Z.of_nat (c i)) j = 0.
Hypothesis Hmem : forall i, exists x, in_orbit_span A x0 x /\
  forall z j, (1 <= z)%coqZ -> (j < v)%N -> b i z j = obit C (st A (Z.to_nat (z - 1)) x) j.

Definition lead : 'M['F_2]_v := \matrix_(i, j) b i (Z.of_nat (c i)) j.

Lemma lead_unit : lead \in unitmx.
Proof.
rewrite unitmxE det_trig.
  by rewrite big1 ?unitr1 // => i _; rewrite mxE Hdiag.
by apply/is_trig_mxP => i j Hij; rewrite mxE Htri.
Qed.
Lemma lead_inj (be : 'I_v -> 'F_2) :
  (forall j, (j < v)%N -> \sum_i be i * b i (Z.of_nat (c i)) j = 0) -> forall i, be i = 0.
Proof.
move=> H i. have E : (\row_k be k) *m lead = 0.
  apply/rowP => j. rewrite !mxE -[RHS](H j (ltn_ord j)). by apply: eq_bigr => k _; rewrite !mxE.
have : (\row_k be k) = 0 by rewrite -(mulmxK lead_unit (\row_k be k)) E mul0mx.
by move/rowP/(_ i); rewrite !mxE.
Qed.
Lemma lead_surj (u : nat -> 'F_2) : exists be : 'I_v -> 'F_2,
  forall j, (j < v)%N -> \sum_i be i * b i (Z.of_nat (c i)) j = u j.
Proof.
exists (fun i => ((\row_k u k) *m invmx lead) 0 i) => j Hj.
have /rowP/(_ (Ordinal Hj)) := mulmxKV lead_unit (\row_k u k).
by rewrite [RHS]mxE /= => <-; rewrite [RHS]mxE; apply: eq_bigr => k _; rewrite [lead _ _]mxE.
Qed.

(** A combination of shifts that vanishes below k0 has no term that starts
    below k0. *)
Lemma lead_zero (al : 'I_v -> nat -> 'F_2) (K : nat) (k0 : Z) :
  (forall z j, (z < k0)%coqZ -> (j < v)%N ->
     \sum_i \sum_(k < K) al i k * b i (z + Z.of_nat k)%coqZ j = 0) ->
  forall i k, (k < K)%N -> (Z.of_nat (c i) - Z.of_nat k < k0)%coqZ -> al i k = 0.
Proof.
move=> H.
suff Q : forall N i k, (k < K)%N -> (Z.of_nat (c i) - Z.of_nat k < k0)%coqZ ->
   (Z.of_nat (c i) - Z.of_nat k + Z.of_nat K < Z.of_nat N)%coqZ -> al i k = 0.
  by move=> i k Hk Hc; apply: (Q (c i + K).+1) => //; lia.
elim=> [|N IH] i k Hk Hc HN; first lia.
pose m := (Z.of_nat (c i) - Z.of_nat k)%coqZ.
pose be i' := if (m <=? Z.of_nat (c i'))%coqZ && (Z.to_nat (Z.of_nat (c i') - m) < K)%N
              then al i' (Z.to_nat (Z.of_nat (c i') - m)) else 0.
have Hbe : forall i', be i' = 0.
  apply: lead_inj => j Hj. rewrite -[RHS](H m j) //. apply: eq_bigr => i' _.
  rewrite /be. case: (Z.leb_spec m (Z.of_nat (c i'))) => Hm /=; last first.
    rewrite mul0r big1 // => k' _. rewrite (IH i' k') ?mul0r //; rewrite /m in Hm *; lia.
  have -> : (if (Z.to_nat (Z.of_nat (c i') - m) < K)%N then al i' (Z.to_nat (Z.of_nat (c i') - m)) else 0)
      * b i' (Z.of_nat (c i')) j =
     if (Z.to_nat (Z.of_nat (c i') - m) < K)%N then
      (fun q => al i' q * b i' (Z.of_nat (c i')) j) (Z.to_nat (Z.of_nat (c i') - m)) else 0.
    by case: ifP; rewrite ?mul0r.
  rewrite -(sum_pick K _ (fun q => al i' q * b i' (Z.of_nat (c i')) j)). apply: eq_bigr => k' _.
  case: eqP => E; first by congr (_ * b _ _ _); lia.
  case: (Z.lt_ge_cases (m + Z.of_nat k') (Z.of_nat (c i'))) => Hlt; first by rewrite Hlow ?mulr0.
  rewrite (IH i' k') ?mul0r //; rewrite /m in Hm E Hlt *; lia.
have := Hbe i. rewrite /be /m. 
have -> : Z.to_nat (Z.of_nat (c i) - (Z.of_nat (c i) - Z.of_nat k)) = k by lia.
by rewrite Hk; case: Z.leb_spec => //= ?; lia.
Qed.

(** The sum of the counts is at most the dimension of the orbit. *)
Lemma count_sum : (\sum_i c i <= \rank (krylov A x0))%N.
Proof.
have [X HX] : exists X : 'I_v -> 'rV['F_2]_n, forall i, in_orbit_span A x0 (X i) /\
  forall z j, (1 <= z)%coqZ -> (j < v)%N -> b i z j = obit C (st A (Z.to_nat (z - 1)) (X i)) j.
  exact: (fin_all_exists Hmem).
pose M := \matrix_(t < #|{: {i : 'I_v & 'I_(c i)}}|) 
   st A (tagged (enum_val t)) (X (tag (enum_val t))).
have HM : (M <= krylov A x0)%MS.
  apply/row_subP => t. rewrite rowK. apply/orb_krylov/orb_st. by case: (HX (tag (enum_val t))).
suff Hf : row_free M.
  rewrite -tagnat.card. move/eqP: Hf => <-. exact: mxrankS.
apply: inj_row_free => a Ha.
pose al (i : 'I_v) (k : nat) : 'F_2 :=
  if insub k is Some o then a 0 (enum_rank (Tagged (fun i => 'I_(c i)) (o : 'I_(c i)))) else 0.
pose K := (\max_i c i)%N.
have HK i : (c i <= K)%N by rewrite /K; apply: (leq_bigmax_cond (F := c)).
have E : forall z j, (j < v)%N -> \sum_i \sum_(k < K) al i k * b i (z + Z.of_nat k)%coqZ j = 0.
  move=> z j Hj.
  have -> : \sum_i \sum_(k < K) al i k * b i (z + Z.of_nat k)%coqZ j =
      \sum_i \sum_(k < c i) al i k * b i (z + Z.of_nat k)%coqZ j.
    apply: eq_bigr => i _.
    rewrite [RHS](big_ord_widen K (fun k => al i k * b i (z + Z.of_nat k)%coqZ j) (HK i)).
    rewrite [RHS]big_mkcond /=. apply: eq_bigr => k _. case: ifP => // Hk.
    by rewrite /al insubF ?mul0r // Hk.
  case: (Z.lt_ge_cases z 1) => Hz.
    rewrite big1 // => i _. rewrite big1 // => k _. rewrite Hlow ?mulr0 //. have := ltn_ord k. lia.
  have := congr1 (fun M => obit C (st A (Z.to_nat (z - 1)) M) j) Ha.
  rewrite st0 obit0 mulmx_sum_row st_sum obit_sum => E2. apply: etrans E2.
  rewrite sig_big_dep /=.
  rewrite (reindex (@enum_val [finType of {i : 'I_v & 'I_(c i)}] predT)) /=; last exact/onW_bij/enum_val_bij.
  apply: eq_bigr => t _. rewrite rowK stZ obitZ -st_add.
  case: (HX (tag (enum_val t))) => _ /(_ (z + Z.of_nat (tagged (enum_val t)))%coqZ j ltac:(lia) Hj) ->.
  have -> : Z.to_nat (z + Z.of_nat (tagged (enum_val t)) - 1) = (Z.to_nat (z - 1) + tagged (enum_val t))%N by lia.
  congr (_ * _).
  rewrite /al valK. congr (a 0 _). by rewrite -[RHS]enum_valK; congr enum_rank; case: (enum_val t).
apply/rowP => t; rewrite mxE.
have := lead_zero (al := al) (K := K) (k0 := (Z.of_nat (c (tag (enum_val t))) + 1)%coqZ)
   (fun z j _ Hj => E z j Hj) (i := tag (enum_val t)) (k := tagged (enum_val t)).
move=> /(_ ltac:(have := HK (tag (enum_val t)); have := ltn_ord (tagged (enum_val t)); lia) ltac:(lia)).
rewrite /al valK => <-. congr (a 0 _).
by rewrite -[LHS]enum_valK; congr enum_rank; case: (enum_val t).
Qed.

(** All counts >= k: the outputs are k-equidistributed. *)
Lemma equi_ge k : (forall i, (k <= c i)%N) -> equidistributed A C x0 v k.
Proof.
move=> Hk y.
suff Q : forall k', (k' <= k)%N -> exists x, in_orbit_span A x0 x /\
    forall i j, (i < k')%N -> (j < v)%N -> obit C (st A i x) j = y i j.
  exact: Q.
have [X HX] : exists X : 'I_v -> 'rV['F_2]_n, forall i, in_orbit_span A x0 (X i) /\
  forall z j, (1 <= z)%coqZ -> (j < v)%N -> b i z j = obit C (st A (Z.to_nat (z - 1)) (X i)) j.
  exact: (fin_all_exists Hmem).
elim=> [|k' IH] Hk'; first by exists 0; split=> //; exact: orb0.
have [x [Ox Hx]] := IH (ltnW Hk').
have [be Hbe] := lead_surj (fun j => y k' j + obit C (st A k' x) j).
exists (x + \sum_i be i *: st A (c i - k'.+1)%N (X i)); split.
  apply: orbD => //. apply: orb_sum => i _. apply/orbZ/orb_st. by case: (HX i).
move=> i j Hi Hj. rewrite stD obitD st_sum obit_sum.
have T i' : obit C (st A i (be i' *: st A (c i' - k'.+1) (X i'))) j =
   be i' * b i' (Z.of_nat (i + c i' - k')) j.
  rewrite stZ obitZ -st_add. case: (HX i') => _ H2. have Hc := Hk i'.
  case: (leqP k' i) => Hki.
    rewrite H2; [|lia|done]. by congr (_ * obit _ (st _ _ _) _); lia.
  case: (posnP (i + c i' - k')) => Hp.
    have := Hk i'. lia.
  rewrite H2; [|lia|done]. by congr (_ * obit _ (st _ _ _) _); lia.
rewrite (eq_bigr _ (fun i' _ => T i')).
case: (ltnP i k') => Hik.
  rewrite big1 ?addr0; first exact: Hx.
  move=> i' _. rewrite Hlow ?mulr0 //. have := Hk i'. lia.
have -> : i = k' by lia.
have -> : \sum_i0 be i0 * b i0 (Z.of_nat (k' + c i0 - k')) j = y k' j + obit C (st A k' x) j.
  rewrite -Hbe //. apply: eq_bigr => i' _. by congr (_ * b _ (Z.of_nat _) _); lia.
by rewrite addrC F2_addK.
Qed.

(** Expansion of the span of the basis. *)
Lemma spn_expand f : spn v (fun g => exists i, g = b i) f ->
  exists (K : nat) (al : 'I_v -> nat -> 'F_2), (forall i k, (K <= k)%N -> al i k = 0) /\
    forall z j, (j < v)%N -> f z j = \sum_i \sum_(k < K) al i k * b i (z + Z.of_nat k)%coqZ j.
Proof.
have wid : forall (al : 'I_v -> nat -> 'F_2) K K' z j, (K <= K')%N ->
    (forall i k, (K <= k)%N -> al i k = 0) ->
    \sum_i \sum_(k < K) al i k * b i (z + Z.of_nat k)%coqZ j =
    \sum_i \sum_(k < K') al i k * b i (z + Z.of_nat k)%coqZ j.
  move=> al K K' z j HK H0. apply: eq_bigr => i _.
  rewrite (big_ord_widen K' (fun k => al i k * b i (z + Z.of_nat k)%coqZ j) HK) big_mkcond /=.
  by apply: eq_bigr => k _; case: ifP => // Hk; rewrite H0 ?mul0r //; lia.
elim=> {f}.
- move=> f Hf. exists 0%N, (fun _ _ => 0); split=> // z j Hj. rewrite Hf //.
  by rewrite big1 // => i _; rewrite big_ord0.
- move=> g f [i ->] E. exists 1%N, (fun i' k => if (i' == i) && (k == 0)%N then 1 else 0); split.
    by move=> i' k Hk; case: andP => // [[_ /eqP]]; lia.
  move=> z j Hj. rewrite E // (bigD1 i) //= big_ord1 eqxx mul1r big1 ?addr0.
    by congr (b _ _ _); rewrite /=; lia.
  by move=> i' /negbTE Hi'; rewrite big_ord1 Hi' mul0r.
- move=> f g h _ [K [al [Ha Ef]]] _ [L [be [Hb Eg]]] E.
  exists (maxn K L), (fun i k => al i k + be i k); split.
    by move=> i k Hk; rewrite Ha ?Hb ?addr0 //; lia.
  move=> z j Hj. rewrite E // Ef // Eg //.
  rewrite (wid al K (maxn K L)) ?leq_maxl // (wid be L (maxn K L)) ?leq_maxr //.
  rewrite -big_split /=. apply: eq_bigr => i _. rewrite -big_split /=.
  by apply: eq_bigr => k _; rewrite mulrDl.
- move=> f h _ [K [al [Ha Ef]]] E.
  exists K.+1, (fun i k => if k is k'.+1 then al i k' else 0); split.
    by move=> i [//|k] Hk; apply: Ha; lia.
  move=> z j Hj. rewrite E // Ef //. apply: eq_bigr => i _. rewrite big_ord_recl mul0r add0r.
  by apply: eq_bigr => k _; congr (_ * b _ _ _); rewrite /= /bump /=; lia.
Qed.

(** The sequence of outputs of x0, at the indices 1, 2, ... *)
Definition out_sq : sq := fun z j =>
  if (z <? 1)%coqZ then 0 else obit C (st A (Z.to_nat (z - 1)) x0) j.
Hypothesis Hunit : forall i, (i < v)%N -> spn v (fun g => exists i, g = b i) (unit_sq i).
Hypothesis Hout : spn v (fun g => exists i, g = b i) out_sq.

(** Outputs of a state in the orbit span, as a member of the lattice. *)
Lemma orbit_spn x : in_orbit_span A x0 x ->
  spn v (fun g => exists i, g = b i)
    (fun z j => if (z <? 1)%coqZ then 0 else obit C (st A (Z.to_nat (z - 1)) x) j).
Proof.
move=> [K [a ->]].
pose f : sq := fun z j => \sum_(k < K) a k * out_sq (z + Z.of_nat k)%coqZ j.
have Hf : spn v (fun g => exists i, g = b i) f.
  by apply: spn_sum => k _; apply: spn_scale; exact: spn_shift.
(* remove the part of f at indices <= 0 *)
pose g : sq := fun z j => \sum_(k < K) \sum_(i < v) f (- Z.of_nat k)%coqZ i * unit_sq i (z + Z.of_nat k)%coqZ j.
have Hg : spn v (fun g => exists i, g = b i) g.
  apply: spn_sum => k _. apply: spn_sum => i _.
  apply: (@spn_scale v _ (fun z j => unit_sq i (z + Z.of_nat k)%coqZ j)).
  by apply: spn_shift; apply: Hunit.
apply: (spnD Hf Hg) => z j Hj.
have gE : g z j = \sum_(k < K) (if (z + Z.of_nat k =? 0)%coqZ then f (- Z.of_nat k)%coqZ j else 0).
  rewrite /g. apply: eq_bigr => k _. rewrite (bigD1 (Ordinal Hj)) //= /unit_sq eqxx andbT.
  rewrite [X in _ + X]big1 ?addr0; first by case: ifP; rewrite ?mulr1 ?mulr0.
  move=> i Hi. rewrite (_ : (j == i) = false) ?andbF ?mulr0 //.
  by apply/negP => /eqP E; move: Hi; rewrite -(inj_eq val_inj) /= E eqxx.
rewrite gE. case: Z.ltb_spec => Hz.
- case: (Z.lt_ge_cases (- Z.of_nat K)%coqZ z) => HzK.
  + have Hk : (Z.to_nat (- z) < K)%N by lia.
    rewrite (bigD1 (Ordinal Hk)) //= big1 ?addr0.
      have -> : (z + Z.of_nat (Z.to_nat (- z)) =? 0)%coqZ = true by apply/Z.eqb_eq; lia.
      have -> : (- Z.of_nat (Z.to_nat (- z)) = z)%coqZ by lia.
      by rewrite F2_addxx.
    move=> k Hne. case: Z.eqb_spec => // E. move: Hne; rewrite -(inj_eq val_inj) /=.
    have -> : (k : nat) = Z.to_nat (- z) by lia.
    by rewrite eqxx.
  + rewrite [X in _ + X]big1 ?addr0.
      rewrite /f big1 // => k _. rewrite /out_sq. case: Z.ltb_spec; rewrite ?mulr0 // => H.
      have := ltn_ord k. lia.
    move=> k _. case: Z.eqb_spec => // E. have := ltn_ord k. lia.
- rewrite [X in _ + X]big1 ?addr0; last by move=> k _; case: Z.eqb_spec => // E; lia.
  rewrite /f st_sum obit_sum. apply: eq_bigr => k _. rewrite stZ obitZ -st_add /out_sq.
  case: Z.ltb_spec => H; first lia.
  by congr (_ * obit _ (st _ _ _) _); lia.
Qed.

Lemma equi_le k : equidistributed A C x0 v k -> forall i, (k <= c i)%N.
Proof.
move=> H i. rewrite leqNgt. apply/negP => Hlt.
case: k H Hlt => [//|k] H Hlt.
have [x [Ox Hx]] := H (fun i' j => if i' == k then b i (Z.of_nat (c i)) j else 0).
have [K [al [Hal E]]] := spn_expand (orbit_spn Ox).
have Z0 : forall z j, (z < Z.of_nat k.+1)%coqZ -> (j < v)%N ->
    \sum_i \sum_(k < K) al i k * b i (z + Z.of_nat k)%coqZ j = 0.
  move=> z j Hz Hj. rewrite -E //. case: Z.ltb_spec => // Hz1. rewrite Hx //; last lia.
  by case: eqP => // E2; lia.
have L := lead_zero Z0.
(* coefficients of the leading terms at index k+1 *)
pose be i' := if (k.+1 <= c i')%N then al i' (c i' - k.+1)%N else 0.
have Ebe : forall j, (j < v)%N -> \sum_i' (be i' + (if i' == i then 1 else 0)) * b i' (Z.of_nat (c i')) j = 0.
  move=> j Hj.
  have := E (Z.of_nat k.+1) j Hj. case: Z.ltb_spec => Hk; first lia.
  have -> : Z.to_nat (Z.of_nat k.+1 - 1) = k by lia.
  rewrite Hx // eqxx => E1.
  have E2 : \sum_i' be i' * b i' (Z.of_nat (c i')) j = b i (Z.of_nat (c i)) j.
    rewrite E1. apply: eq_bigr => i' _. rewrite /be.
    case: (boolP (k.+1 <= c i')%N) => Hc.
      have -> : al i' (c i' - k.+1)%N * b i' (Z.of_nat (c i')) j =
        if (c i' - k.+1 < K)%N then (fun q => al i' q * b i' (Z.of_nat (c i')) j) (c i' - k.+1)%N else 0.
        by case: ltnP => // Hge; rewrite Hal ?mul0r //; lia.
      rewrite -(sum_pick K _ (fun q => al i' q * b i' (Z.of_nat (c i')) j)). apply: eq_bigr => q _.
      case: eqP => Eq; first by congr (_ * b _ _ _); lia.
      case: (ltnP q (c i' - k.+1)) => Hq; first by rewrite Hlow ?mulr0 //; lia.
      by rewrite (L i' q) ?mul0r //; lia.
    rewrite mul0r big1 // => q _. by rewrite (L i' q) ?mul0r //; lia.
  rewrite (eq_bigr (fun i' => be i' * b i' (Z.of_nat (c i')) j +
      (if i' == i then 1 else 0) * b i' (Z.of_nat (c i')) j)); last by move=> i' _; rewrite mulrDl.
  rewrite big_split /= E2 (bigD1 i) //= eqxx mul1r big1 ?addr0 ?F2_addxx //.
  by move=> i' /negbTE ->; rewrite mul0r.
have := lead_inj Ebe i. rewrite eqxx /be. case: (boolP (k.+1 <= c i)%N) => // Hc; lia.
Qed.

(** The minimum of the counts is the dimension of equidistribution. *)
Lemma reduced_dim k : (forall i, (k <= c i)%N) -> (exists i, c i = k) -> equidist_dim A C x0 v k.
Proof.
move=> Hk [i Hi]; split; first exact: equi_ge.
by move=> k' /equi_le/(_ i); rewrite Hi.
Qed.
End Reduced.
