(** The dimension of equidistribution is the same for all sequences that are sums of
    shifted copies of each other. *)
From Coq Require Import NArith ZArith List Bool Lia.
From mathcomp Require Import all_ssreflect all_algebra.
From mathcomp Require Import zify.
From Verif Require Import Base SimdSpec SimdSeq DsfmtEquiSpec.
Set Implicit Arguments.
Unset Strict Implicit.
Unset Printing Implicit Defensive.
Local Open Scope nat_scope.

Section Comb.
Variables (I : Type) (D : I -> Prop) (T : nat -> I -> bool).
Definition comb (y : I -> bool) : Prop := exists K (a : nat -> bool), forall i, D i -> xsum K (fun j => a j && T j i) = y i.
Lemma xsum0 K (f : nat -> bool) : (forall j, j < K -> f j = false) -> xsum K f = false.
Proof. elim: K => [//|K IH] H. cbn [xsum]. rewrite IH ?H //. by move=> j Hj; apply: H; apply: ltnW. Qed.
Lemma xsum_pad K m (a : nat -> bool) (f : nat -> bool) : xsum (K + m) (fun j => (j < K) && a j && f j) = xsum K (fun j => a j && f j).
Proof.
elim: m => [|m IH]; first by rewrite addn0; apply: xsum_ext => j Hj; have -> : j < K by lia.
by rewrite addnS; cbn [xsum]; rewrite IH ltnNge leq_addr /= xorb_false_r.
Qed.
Lemma xsum_xor K (f g : nat -> bool) : xsum K (fun j => xorb (f j) (g j)) = xorb (xsum K f) (xsum K g).
Proof. elim: K => [//|K IH]. cbn [xsum]. rewrite IH. by case: (xsum K f); case: (xsum K g); case: (f K); case: (g K). Qed.
Lemma comb_ext y z : (forall i, D i -> y i = z i) -> comb y -> comb z.
Proof. by move=> E [K [a H]]; exists K, a => i Hi; rewrite H // E. Qed.
Lemma comb_0 : comb (fun=> false).
Proof. by exists 0, (fun=> false). Qed.
Lemma comb_add y z : comb y -> comb z -> comb (fun i => xorb (y i) (z i)).
Proof.
move=> [K [a H]] [K' [a' H']]. exists (K + K'), (fun j => xorb ((j < K) && a j) ((j < K') && a' j)) => i Hi.
rewrite -(H i Hi) -(H' i Hi) -(xsum_pad K K') -(xsum_pad K' K) (addnC K') -xsum_xor. apply: xsum_ext => j _.
by case: (_ && a j); case: (_ && a' j); case: (T j i).
Qed.
Lemma comb_one k : comb (T k).
Proof.
exists k.+1, (fun j => j == k) => i _. cbn [xsum]. rewrite eqxx /= xsum0; first exact: xorb_false_l.
by move=> j Hj; have -> : (j == k) = false by lia.
Qed.
Lemma comb_sum K (b : nat -> bool) (Y : nat -> I -> bool) : (forall j, comb (Y j)) -> comb (fun i => xsum K (fun j => b j && Y j i)).
Proof.
move=> H. elim: K => [|K IH]; first exact: comb_0. cbn [xsum]. apply: comb_add => //.
case: (b K) => /=; [exact: H|exact: comb_0].
Qed.
End Comb.

(** W' is a sum of shifted copies of W. *)
Definition shifts (W W' : nat -> N) : Prop :=
  exists K (a : nat -> bool), forall k i, N.testbit (W' k) i = xsum K (fun j => a j && N.testbit (W (k + j)) i).
Section Transfer.
Variables (W W' : nat -> N).
Hypothesis H : shifts W W'.
Lemma shift_bit lsb ew L : 0 < L -> exists K (a : nat -> bool), forall q b, seqbit lsb ew L W' q b = xsum K (fun j => a j && seqbit lsb ew L W (q + L * j) b).
Proof.
move=> L0. case: H => K [a Ha]. exists K, a => q' b'. rewrite /seqbit Ha. apply: xsum_ext => j _.
have -> : q' + L * j = Nat.add q' (Nat.mul j L) by lia. rewrite Nat.div_add ?Nat.mod_add //; lia.
Qed.
Lemma equid_shift lsb ew L phi v k : 0 < L -> equid lsb ew L W' phi v k -> equid lsb ew L W phi v k.
Proof.
move=> L0 E y. have [K' [a' H']] := E y. have [K [a Ha]] := shift_bit lsb ew L0.
pose D (x : nat * nat) := x.1 < k /\ x.2 < v.
pose T j (x : nat * nat) := seqbit lsb ew L W (phi + x.1 + L * j) x.2.
have [||K2 [a2 H2]] := @comb_ext _ D T (fun x => xsum K' (fun j => a' j && seqbit lsb ew L W' (phi + x.1 + L * j) x.2)) (fun x => y x.1 x.2).
- move=> x [H1 H2]. by apply: H'; apply/ltP.
- apply: comb_sum => j. apply: (@comb_ext _ _ _ (fun x => xsum K (fun m => a m && T (j + m) x))).
    move=> x _. rewrite Ha. apply: xsum_ext => m _. rewrite /T. congr (_ && seqbit _ _ _ _ _ _). lia.
  by apply: comb_sum => m; exact: comb_one.
exists K2, a2 => i b Hi Hb. apply: (H2 (i, b)). split; apply/ltP; [exact: Hi|exact: Hb].
Qed.
Lemma equid52_shift phi v k : equid52 W' phi v k -> equid52 W phi v k.
Proof.
move=> E y. have [K' [a' H']] := E y.
have [K [a Ha]] : exists K (a : nat -> bool), forall q b, seqbit52 W' q b = xsum K (fun j => a j && seqbit52 W (q + 2 * j) b).
  case: H => K [a Ha]. exists K, a => q' b'. rewrite /seqbit52 Ha. apply: xsum_ext => j _.
  have -> : q' + 2 * j = Nat.add q' (Nat.mul j 2) by lia. rewrite Nat.div_add ?Nat.mod_add //; lia.
pose D (x : nat * nat) := x.1 < k /\ x.2 < v.
pose T j (x : nat * nat) := seqbit52 W (phi + x.1 + 2 * j) x.2.
have [||K2 [a2 H2]] := @comb_ext _ D T (fun x => xsum K' (fun j => a' j && seqbit52 W' (phi + x.1 + 2 * j) x.2)) (fun x => y x.1 x.2).
- move=> x [H1 H2]. by apply: H'; apply/ltP.
- apply: comb_sum => j. apply: (@comb_ext _ _ _ (fun x => xsum K (fun m => a m && T (j + m) x))).
    move=> x _. rewrite Ha. apply: xsum_ext => m _. rewrite /T. congr (_ && seqbit52 _ _ _). lia.
  by apply: comb_sum => m; exact: comb_one.
exists K2, a2 => i b Hi Hb. apply: (H2 (i, b)). split; apply/ltP; [exact: Hi|exact: Hb].
Qed.
End Transfer.
