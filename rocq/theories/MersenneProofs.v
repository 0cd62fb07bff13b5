(** From the limb computations to primality of Mersenne numbers. *)
From Coq Require Import NArith ZArith List Bool.
From mathcomp Require Import all_ssreflect all_algebra zify.
From Verif Require Import LucasLehmer LimbMersenne LimbProofs PrimeCert PrimeCertProofs PeriodProofs3 MersenneTable.
Set Implicit Arguments.
Unset Strict Implicit.
Unset Printing Implicit Defensive.
Delimit Scope Z_scope with coqZ.
Local Open Scope nat_scope.

Lemma qseq_ge2 n : (2 <= qseq (-2) 4 n)%coqZ.
Proof. elim: n => [|n IH] //=; nia. Qed.
Lemma pow2_Z p : Z.of_nat (2 ^ p) = (2 ^ Z.of_nat p)%coqZ.
Proof. elim: p => [//|p IH]; rewrite expnS Nat2Z.inj_mul IH (Nat2Z.inj_succ p) Z.pow_succ_r //; lia. Qed.
Lemma mersenne_Z p : Z.of_nat (2 ^ p - 1) = (2 ^ Z.of_nat p - 1)%coqZ.
Proof. rewrite -pow2_Z; have := expn_gt0 2 p; move: (2 ^ p) => x /=; lia. Qed.

Lemma ll_prime p : ll_test (Z.of_nat p) = true -> prime (2 ^ p - 1).
Proof.
case/ll_test_ok=> p2 E.
pose s i := Z.to_nat (qseq (-2) 4 i).
apply: (@lucas_lehmer p s) => //; first by lia.
  move=> i; rewrite /s /=; congr (_ %% _); have := @qseq_ge2 i; move: (qseq _ _ i) => x; nia.
have -> : p - 2 = Z.to_nat (Z.of_nat p - 2) by lia.
set n := Z.to_nat _ in E *.
have M0 : 0 < 2 ^ p - 1.
  have : 2 ^ 1 < 2 ^ p by rewrite ltn_exp2l //; lia.
  by move: (2 ^ p) => x; lia.
have := @qseq_ge2 n; rewrite /s; move: (qseq _ _ n) E => x; rewrite -mersenne_Z.
move: (2 ^ p - 1) M0 => M M0 E x2; apply/dvdnP.
have := Z.div_mod x (Z.of_nat M); rewrite E => /(_ _) D.
exists (Z.to_nat (x / Z.of_nat M)); have := Z.div_pos x (Z.of_nat M); nia.
Qed.

Lemma qseq_pow n : qseq 0 3 n = Z.of_nat (3 ^ 2 ^ n).
Proof.
elim: n => [//|n IH] /=; rewrite IH expnS mulnC expnM.
by move: (3 ^ 2 ^ n) => x; rewrite -mulnn; nia.
Qed.
Lemma fermat_not_prime p : fermat_composite (Z.of_nat p) = true -> ~ prime (2 ^ p - 1).
Proof.
case/fermat_ok=> p4 E P; apply: E; rewrite Nat2Z.id qseq_pow -mersenne_Z.
have := mersenne_fermat 3 P; have : 9 < 2 ^ p - 1.
  have : 2 ^ 4 <= 2 ^ p by rewrite leq_exp2l //; lia.
  by move: (2 ^ p) => x; lia.
move: (3 ^ 2 ^ p) (2 ^ p - 1) => x M M9 H.
move: H; rewrite [in RHS]modn_small // => H.
have := divn_eq x M; rewrite H => D.
rewrite D; have -> : Z.of_nat (x %/ M * M + 3 ^ 2) = (9 + Z.of_nat (x %/ M) * Z.of_nat M)%coqZ by lia.
rewrite Z.mod_add; last by lia.
by rewrite Z.mod_small //; lia.
Qed.

(** A proper factor. *)
Definition has_factor (d : positive) (q : N) : bool :=
  ((1 <? q) && (q <? 2 ^ Npos d - 1) && (pow_mod 2 q d =? 1))%num.
Lemma has_factor_ok d q : has_factor d q = true -> ~ prime (2 ^ Pos.to_nat d - 1).
Proof.
case/andP=> /andP[/N.ltb_lt q1 /N.ltb_lt q2] /N.eqb_eq E P.
have q0 : q <> 0%num by lia.
have := congr1 N.to_nat E; rewrite pow_mod_nat // => {}E.
have D : N.to_nat q %| 2 ^ Pos.to_nat d - 1.
  rewrite -eqn_mod_dvd ?expn_gt0 //; apply/eqP; rewrite E modn_small //; lia.
have := N_pow2 (Pos.to_nat d); rewrite positive_nat_N => E2.
have [_ /(_ _ D)] := primeP P; case/orP=> /eqP; rewrite -?E2; lia.
Qed.

(** The Lucas-Lehmer test on binary numbers, for small exponents. *)
Fixpoint lln (M : N) (n : nat) : N :=
  match n with O => (4 mod M)%num | S m => let s := lln M m in ((s * s + (M - 2)) mod M)%num end.
Definition ll_small (p : positive) : bool :=
  (2 <? p)%positive && (lln (2 ^ Npos p - 1) (Pos.to_nat p - 2) =? 0)%num.
Lemma ll_small_prime p : ll_small p = true -> prime (2 ^ Pos.to_nat p - 1).
Proof.
case/andP=> /Pos.ltb_lt p2 /N.eqb_eq E.
have EM := N_pow2 (Pos.to_nat p); rewrite positive_nat_N in EM.
set M := (2 ^ N.pos p - 1)%num in E EM.
have M0 : 2 < 2 ^ Pos.to_nat p - 1.
  have : 2 ^ 2 < 2 ^ Pos.to_nat p by rewrite ltn_exp2l //; lia.
  by move: (2 ^ Pos.to_nat p) => x; lia.
have Mn : M <> 0%num by lia.
apply: (@lucas_lehmer _ (fun i => N.to_nat (lln M i))); first by lia.
- by rewrite -EM /= N_mod_to_nat // modn_mod.
- move=> i; rewrite -EM /= N_mod_to_nat // modnDml.
  have -> : N.to_nat (lln M i * lln M i + (M - 2)) + 2 = N.to_nat (lln M i) ^ 2 + N.to_nat M.
    by rewrite -mulnn; move: (lln M i) => x; lia.
  by rewrite modnDr.
by rewrite E.
Qed.

(** * The witnesses *)
Definition check_wit (d : positive) (q : N) : bool :=
  match q with
  | 0%num => fermat_composite (Zpos d)
  | 1%num => (Pos.eqb d 2) || (if (d <? 64)%positive then ll_small d else ll_test (Zpos d))
  | _ => has_factor d q
  end.
Fixpoint check_wits (d : positive) (l : list N) : bool :=
  match l with nil => true | q :: r => check_wit d q && check_wits (Pos.succ d) r end.
Lemma wits_ok : check_wits 2 witnesses = true.
Proof. vm_cast_no_check (erefl true). Qed.
Lemma m1279_ok : ll_test 1279 = true.
Proof. vm_cast_no_check (erefl true). Qed.
Lemma m2203_ok : ll_test 2203 = true.
Proof. vm_cast_no_check (erefl true). Qed.
Lemma m2281_ok : ll_test 2281 = true.
Proof. vm_cast_no_check (erefl true). Qed.
Lemma m3217_ok : ll_test 3217 = true.
Proof. vm_cast_no_check (erefl true). Qed.

Lemma check_wit_ok d q : check_wit d q = true -> prime (2 ^ Pos.to_nat d - 1) <-> q = 1%num.
Proof.
have Z d' : Zpos d' = Z.of_nat (Pos.to_nat d') by lia.
case: q => [|q] /=; first by rewrite Z => /fermat_not_prime H; split.
case: (Pos.eq_dec q 1) => [->|n1] H.
  split=> // _; case/orP: H => [H|]; first by have -> : d = 2%positive by apply/Pos.eqb_eq.
   case: ifP => _; [exact: ll_small_prime|rewrite Z; exact: ll_prime].
have {}H : has_factor d (N.pos q) = true by case: q n1 H.
by split=> [/(has_factor_ok H)|[]].
Qed.
Lemma check_wits_ok l d : check_wits d l = true -> forall i, (i < size l)%N ->
  prime (2 ^ (Pos.to_nat d + i) - 1) <-> nth 0%num l i = 1%num.
Proof.
elim: l d => //= q l IH d /andP[H1 H2] [|i] Hi /=; first by rewrite addn0; exact: check_wit_ok.
have := IH _ H2 i Hi; rewrite Pos2Nat.inj_succ.
by have -> : (Pos.to_nat d).+1 + i = Pos.to_nat d + i.+1 by lia.
Qed.
Definition small_exps : list nat := [:: 2; 3; 5; 7; 13; 17; 19; 31; 61; 89; 107; 127; 521; 607].
Lemma small_wits : all (fun i => (nth 0%num witnesses i == 1%num) == (i.+2 \in small_exps)) (iota 0 606).
Proof. vm_cast_no_check (erefl true). Qed.
(** The Mersenne primes with exponent up to 607. *)
Lemma mersenne_small d : d <= 607 -> prime (2 ^ d - 1) <-> d \in small_exps.
Proof.
case: d => [|[|d]] Hd //.
have Hi : d < size witnesses.
  by have -> : size witnesses = 606 by vm_compute.
have := check_wits_ok wits_ok Hi; rewrite -[Pos.to_nat 2 + d]/(d.+2) => ->.
have := allP small_wits d; rewrite mem_iota; move=> /(_ ltac:(lia)) /eqP <-.
by split=> /eqP.
Qed.
Lemma mersenne_1279 : prime (2 ^ N.to_nat 1279 - 1).
Proof. apply: ll_prime; exact: m1279_ok. Qed.
Lemma mersenne_2203 : prime (2 ^ N.to_nat 2203 - 1).
Proof. apply: ll_prime; exact: m2203_ok. Qed.
Lemma mersenne_2281 : prime (2 ^ N.to_nat 2281 - 1).
Proof. apply: ll_prime; exact: m2281_ok. Qed.
Lemma mersenne_3217 : prime (2 ^ N.to_nat 3217 - 1).
Proof. apply: ll_prime; exact: m3217_ok. Qed.
