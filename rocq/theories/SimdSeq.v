(** Facts about [equid]; the connection with the vectors of a linear generator. *)
From Coq Require Import NArith ZArith Lia Bool.
From mathcomp Require Import all_ssreflect all_algebra.
From mathcomp Require Import zify.
From Verif Require Import Base GenModel LinSpec LinLemmas LinInst PeriodSpec SimdSpec.
Set Implicit Arguments.
Unset Strict Implicit.
Unset Printing Implicit Defensive.
Import GRing.Theory.
Local Open Scope nat_scope.

Lemma xsum_ext K f g : (forall j, j < K -> f j = g j) -> xsum K f = xsum K g.
Proof. elim: K => //= K IH E. rewrite IH ?E // => j Hj. apply: E. lia. Qed.
Lemma xsum_xor K f g : xsum K (fun j => xorb (f j) (g j)) = xorb (xsum K f) (xsum K g).
Proof. elim: K => //= K ->. by case: (xsum K f); case: (xsum K g); case: (f K); case: (g K). Qed.
Lemma xsum_0 K : xsum K (fun=> false) = false.
Proof. by elim: K => //= K ->. Qed.
Lemma xsum_swap K M f : xsum K (fun i => xsum M (f i)) = xsum M (fun j => xsum K (fun i => f i j)).
Proof.
elim: K => /= [|K IH]; first by rewrite xsum_0. rewrite IH -xsum_xor. exact: xsum_ext.
Qed.
Lemma xsum_scale K b f : b && xsum K f = xsum K (fun j => b && f j).
Proof. by elim: K => /= [|K <-]; [rewrite andb_false_r|case: b (f K) (xsum K f) => -[] []]. Qed.
(** A sum over more indices with zeros in front. *)
Lemma xsum_shift M K (a : nat -> bool) f : xsum (M + K) (fun j => (M <= j) && a (j - M) && f j) = xsum K (fun j => a j && f (M + j)).
Proof.
elim: K => [|K IH]; last by rewrite addnS /= IH; congr xorb; rewrite leq_addr addKn.
rewrite addn0 /= (@xsum_ext _ _ (fun=> false)) ?xsum_0 // => j Hj. by rewrite leqNgt Hj.
Qed.

Section Equid.
Variables (lsb : bool) (ew L : nat) (W : nat -> N).
Hypothesis L0 : 0 < L.
Notation bit := (seqbit lsb ew L W).
Notation equid := (equid lsb ew L W).

Lemma equid_0 phi v : equid phi v 0.
Proof. move=> y. exists 0, (fun=> false) => i b Hi. lia. Qed.
Lemma equid_le phi v k k' : k' <= k -> equid phi v k -> equid phi v k'.
Proof.
move=> Hk E y. have [K [a H]] := E y. exists K, a => i b Hi Hb. apply: H; lia.
Qed.
Lemma equid_sub phi v i k : equid phi v (i + k) -> equid (phi + i) v k.
Proof.
move=> E y. have [K [a H]] := E (fun j b => y (j - i) b). exists K, a => j b Hj Hb.
have := H (i + j) b. rewrite (_ : Nat.add i j - i = j); last lia. move=> <-; [|lia|lia].
apply: xsum_ext => l _. congr (_ && seqbit _ _ _ _ _ _). lia.
Qed.
Lemma equid_down phi v k : equid (phi + L) v k -> equid phi v k.
Proof.
move=> E y. have [K [a H]] := E y. exists (1 + K), (fun j => (1 <= j) && a (j - 1)) => i b Hi Hb.
rewrite (xsum_shift 1 K a (fun j => bit (phi + i + L * j)%coq_nat b)) -(H i b) //. apply: xsum_ext => j _.
congr (_ && seqbit _ _ _ _ _ _). lia.
Qed.
Lemma bit_per N q b : (forall k, W (k + N) = W k) -> bit (q + L * N) b = bit q b.
Proof.
move=> P. rewrite /seqbit. have -> : q + L * N = Nat.add q (Nat.mul N L) by lia.
by rewrite Nat.div_add ?Nat.mod_add ?P //; lia.
Qed.
Lemma equid_up phi v k : (exists N, 0 < N /\ forall k, W (k + N) = W k) -> equid phi v k -> equid (phi + L) v k.
Proof.
move=> [N [N0 P]] E y. have [K [a H]] := E y. exists ((N - 1) + K), (fun j => (N - 1 <= j) && a (j - (N - 1))) => i b Hi Hb.
rewrite (xsum_shift (N - 1) K a (fun j => bit (Nat.add (Nat.add (phi + L)%N i) (Nat.mul L j)) b)) -(H i b) //. apply: xsum_ext => j _. congr (_ && _).
rewrite -(bit_per (Nat.add (Nat.add phi i) (Nat.mul L j)) b P). congr seqbit. have : L * N = L * (N - 1) + L by nia. lia.
Qed.
Lemma equid_mod phi psi v k : (exists N, 0 < N /\ forall k, W (k + N) = W k) -> Nat.modulo phi L = Nat.modulo psi L -> equid phi v k -> equid psi v k.
Proof.
move=> P. have R t m : equid t v k <-> equid (t + L * m) v k.
  elim: m t => [|m IH] t; first by rewrite muln0 addn0.
  rewrite mulnS addnA -IH. split; [exact: equid_up|exact: equid_down].
have D1 := Nat.div_mod phi L; have D2 := Nat.div_mod psi L => E.
have E1 : phi = Nat.modulo phi L + L * Nat.div phi L by lia. have E2 : psi = Nat.modulo psi L + L * Nat.div psi L by lia.
rewrite E1 E2 -E. rewrite -R. by move/R.
Qed.

(** The number of bits is at most the order of a recurrence. *)
Lemma f2_xsum K f : f2 (xsum K f) = (\sum_(i < K) f2 (f i))%R.
Proof. elim: K => [|K IH]; first by rewrite big_ord0. by rewrite big_ord_recr /= -IH f2D. Qed.
Lemma equid_bound d phi v k : recurrent W d -> equid phi v k -> k * v <= d.
Proof.
move=> [c Hc] E. case: (posnP v) => [->|v0]; first by rewrite muln0.
have R q b : bit (q + L * d) b = xsum d (fun j => c j && bit (q + L * j) b).
  rewrite /seqbit. have Z j : q + L * j = Nat.add q (Nat.mul j L) by lia. rewrite Z Nat.div_add ?Nat.mod_add; [|lia|lia].
  rewrite Hc. apply: xsum_ext => j _. by rewrite Z Nat.div_add ?Nat.mod_add; [|lia|lia].
pose q (j : 'I_(k * v)) := (j %/ v)%N. pose b (j : 'I_(k * v)) := (j %% v)%N.
pose Q (i : nat) : 'rV['F_2]_(k * v) := (\row_j f2 (bit (phi + q j + L * i) (b j)))%R.
pose B : 'M['F_2]_(d, k * v) := (\matrix_i Q i)%R.
have SQ i : (Q i <= B)%MS.
  elim/ltn_ind: i => i IH. case: (ltnP i d) => Hi.
    by rewrite (_ : Q i = row (Ordinal Hi) B) ?row_sub // rowK.
  have -> : Q i = (\sum_(j < d) f2 (c j) *: Q (i - d + j)%N)%R.
    apply/rowP => j. rewrite summxE !mxE. have -> : phi + q j + L * i = (phi + q j + L * (i - d)) + L * d by nia.
    rewrite R f2_xsum. apply: eq_bigr => l _. rewrite !mxE.
    have -> : phi + q j + L * (i - d) + L * l = phi + q j + L * (i - d + l) by nia.
    by rewrite /f2; case: (c l); case: bit; rewrite ?mulr1 ?mulr0 ?mul0r.
  apply: summx_sub => j _. apply: scalemx_sub. apply: IH. have := ltn_ord j. lia.
have full : ((1%:M)%R <= B)%MS.
  apply/row_subP => j. have [K [a H]] := E (fun i' b' => (i' == q j) && (b' == b j)).
  have -> : row j (1%:M)%R = (\sum_(i < K) f2 (a i) *: Q i)%R.
    apply/rowP => l. rewrite summxE !mxE.
    have Hq : (q l < k)%coq_nat by apply/ltP; rewrite /q ltn_divLR.
    have Hb : (b l < v)%coq_nat by apply/ltP; rewrite /b ltn_mod.
    have := H (q l) (b l) Hq Hb => Hl.
    transitivity (f2 ((q l == q j) && (b l == b j))).
      rewrite /f2. congr ((nat_of_bool _)%:R)%R. apply/eqP/andP => [->//|[/eqP E1 /eqP E2]]. apply: val_inj.
      move: E1 E2. rewrite /q /b /= => E1 E2. by rewrite (divn_eq j v) (divn_eq l v) E1 E2.
    rewrite -Hl f2_xsum. apply: eq_bigr => i _. rewrite !mxE.
    rewrite /f2. by case: (a i); case: seqbit; rewrite ?mulr1 ?mulr0 ?mul0r.
  apply: summx_sub => i _. by apply: scalemx_sub.
have := mxrankS full. rewrite mxrank1 => H. exact: (leq_trans H (rank_leq_row _)).
Qed.
End Equid.

(** Linear generators: equidistribution of vectors and of output bits. *)
Section Vec.
Variables (n : nat) (A : 'M['F_2]_n) (C : nat -> 'cV['F_2]_n) (x0 : 'rV['F_2]_n) (B : nat -> nat -> bool).
Hypothesis HB : forall t j, f2 (B t j) = obit C (st A t x0) j.
Lemma st_sum i K (a : nat -> 'F_2) : st A i (\sum_(j < K) a j *: st A j x0)%R = (\sum_(j < K) a j *: st A (i + j)%N x0)%R.
Proof.
elim: i => [|i IH] //=. rewrite IH mulmx_suml. apply: eq_bigr => j _. by rewrite -scalemxAl.
Qed.
Lemma f2_nz (x : 'F_2) : f2 (x != 0%R) = x.
Proof. by rewrite /f2; case: x => -[|[|m]] Hm //; apply: val_inj. Qed.
Lemma equid_vec l e : equidistributed A C x0 l e <->
  forall y : nat -> nat -> bool, exists (K : nat) (a : nat -> bool), forall t j, t < e -> j < l -> xsum K (fun i => a i && B (t + i) j) = y t j.
Proof.
have S t j K (a : nat -> 'F_2) : (obit C (st A t (\sum_(i < K) a i *: st A i x0)) j)%R = (\sum_(i < K) a i * obit C (st A (t + i)%N x0) j)%R.
  rewrite st_sum /obit mulmx_suml summxE. apply: eq_bigr => i _. by rewrite -scalemxAl mxE.
have M a (b : bool) : f2 (a && b) = (f2 a * f2 b)%R by rewrite /f2; case: a; case: b; rewrite ?mulr1 ?mulr0 ?mul0r.
split=> [E y|E y].
- have [x [[K [a ->]] H]] := E (fun t j => f2 (y t j)). exists K, (fun i => a i != 0%R) => t j Ht Hj.
  apply: f2_inj. rewrite -H // f2_xsum S. apply: eq_bigr => i _. by rewrite M f2_nz HB.
- have [K [a H]] := E (fun t j => y t j != 0%R). exists (\sum_(i < K) f2 (a i) *: st A i x0)%R. split; first by exists K, (fun i => f2 (a i)).
  move=> t j Ht Hj. have := H t j Ht Hj => /(congr1 f2). rewrite f2_nz f2_xsum (S t j K (fun i => f2 (a i))) => <-. apply: eq_bigr => i _. by rewrite M HB.
Qed.
End Vec.
