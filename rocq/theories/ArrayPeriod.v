(** Round robin arrays: certifying the period 2^n - 1 when it is a prime. *)
From Coq Require Import NArith ZArith List Lia Bool.
From mathcomp Require Import all_ssreflect all_algebra.
From mathcomp Require Import zify.
From Verif Require Import Base WordLemmas WordVec GenModel PolyF2 LinSpec LinLemmas LinInst PeriodSpec PeriodProofs PeriodProofs2 PeriodProofs3 PolyAct
  PeriodProofs4 PeriodProofs5 PeriodProofs7 MersenneProofs SampleSpec PeriodCert PeriodCertProofs ArrayModel ArrayWin ArrayLin ArrayOut.
Set Implicit Arguments.
Unset Strict Implicit.
Unset Printing Implicit Defensive.
Import GRing.Theory.
Local Open Scope N_scope.
Delimit Scope Z_scope with coqZ.

(** The bits that count, as a list of words. *)
Definition ar_norm (size r : nat) (s : rr) : list N :=
  List.map (fun k => if k is 0%N then N.shiftr (win size s 0) (N.of_nat r) else win size s k) (List.seq 0 size).
Definition l_eqb : list N -> list N -> bool := fix go a b :=
  match a, b with nil, nil => true | x :: a', y :: b' => (x =? y) && go a' b' | _, _ => false end.
Lemma l_eqbP a b : reflect (a = b) (l_eqb a b).
Proof.
apply: (iffP idP) => [|->]; last by elim: b => //= x b ->; rewrite N.eqb_refl.
by elim: a b => [|x a IH] [|y b] //= /andP[/N.eqb_eq -> /IH ->].
Qed.
Lemma norm_agree size r s t : (0 < size)%N -> ar_norm size r s = ar_norm size r t <-> agree size r (win size s) (win size t).
Proof.
move=> s0. rewrite /ar_norm. split=> [E|[E1 E2]].
- have E' : forall k, (k < size)%N -> (if k is 0%N then N.shiftr (win size s 0) (N.of_nat r) else win size s k) =
      (if k is 0%N then N.shiftr (win size t 0) (N.of_nat r) else win size t k).
    move=> k Hk. apply: (proj1 (@List.map_ext_in_iff _ _ _ _ _) E). apply/List.in_seq. lia.
  by split=> [|[|k] // /andP[_ Hk]]; [exact: (E' 0%N s0)|exact: (E' k.+1 Hk)].
- apply: List.map_ext_in => k /List.in_seq Hk. case: k Hk => [//|k] Hk. apply: E2. lia.
Qed.

Section Cert.
Variables (P : Type) (th : P) (w size r n : nat) (F O : (nat -> N) -> N) (G : gen_ops (P * rr)).
Hypothesis H : arr_gen th w size r n F O G.
Notation vec := (@ar_vec P w size r n).
Notation A := (ar_A th w size r n G).
Notation ok := (ar_ok th w size).
Notation nrm s := (ar_norm size r (snd s)).

Lemma nrm_vec s t : ok s -> ok t -> nrm s = nrm t <-> vec s = vec t.
Proof. move=> Hs Ht. by rewrite (ag_state H Hs Ht) (norm_agree _ _ _ (ag_size H)). Qed.

Definition ar_cert (f : N) (m : positive) (s0 : P * rr) : bool :=
  let z := nrm (g_setZero G s0) in
  [&& ~~ l_eqb (nrm s0) z, l_eqb (nrm (pc_actN G f s0)) z, l_eqb (nrm (pc_jump G (N.of_nat n) f m s0)) (nrm s0) &
      ~~ l_eqb (nrm (pc_jump G (N.of_nat n) f 1 s0)) (nrm s0)].

Lemma ar_cert_ok f m s0 : (0 < n)%N -> prime (2 ^ n - 1) -> N.pos m = (2 ^ N.of_nat n - 1)%num -> ok s0 -> ar_cert f m s0 ->
  maximal_period A.
Proof.
move=> n0 Pn Hm2 okS. rewrite /ar_cert. cbv zeta. case/and4P => /l_eqbP C0 /l_eqbP C1 /l_eqbP C2 /l_eqbP C3.
have LG := ag_lin H.
have okZ := lin_zero_ok LG okS.
have Zv := lin_zero_abs LG okS.
have okJ k : ok (pc_jump G (N.of_nat n) f k s0) by exact: (actN_ok LG (pc_pow (N.of_nat n) f k) okS).1.
have okf := (actN_ok LG f okS).1.
have Hf : vec (pc_actN G f s0) = 0%R by rewrite -Zv; apply/(nrm_vec okf okZ).
have x0 : vec s0 != 0%R by apply/eqP => E; apply: C0; apply/(nrm_vec okS okZ); rewrite Zv.
have Hm1 : all_primes_of (2 ^ n - 1) (N.pos m :: nil).
  move=> q Pq Dq; left. have E : N.to_nat (N.pos m) = (2 ^ n - 1)%N by rewrite Hm2 N_pow2.
  apply: N2Nat.inj. rewrite E Nat2N.id. by apply/esym/eqP; rewrite -dvdn_prime2.
have FP : full_period A (vec s0).
  apply: (period_cert LG okS Hf (w := N.of_nat n) n0 x0 Hm1 Hm2).
  - exact: (proj1 (nrm_vec (okJ m) okS) C2).
  - move=> q [<-|[]]; exists 1%positive; split; first exact: N.div_same.
    move=> E; apply: C3; exact: (proj2 (nrm_vec (okJ _) okS) E).
have PR := full_primitive n0 FP.
move=> x x00; exact: (primitive_full PR (cayley _ _) x00).
Qed.

(** In terms of the states themselves. *)
Lemma ar_period s : maximal_period A -> ok s -> ~ agree size r (ar_win size s) (fun=> 0) ->
  agree size r (ar_win size (iter (2 ^ n - 1) (fun t => (g_generate G t).2) s)) (ar_win size s) /\
  forall i, (0 < i < 2 ^ n - 1)%N -> ~ agree size r (ar_win size (iter i (fun t => (g_generate G t).2) s)) (ar_win size s).
Proof.
move=> MX Hs N0. have LG := ag_lin H.
have x0 : vec s != 0%R by apply/eqP => /(ag_vec_zero H Hs).
have [_ H1 H2] := MX _ x0. move: (2 ^ n - 1)%N H1 H2 => e H1 H2.
have R i : ok (iter i (fun t => (g_generate G t).2) s) /\ vec (iter i (fun t => (g_generate G t).2) s) = st A i (vec s).
  elim: i => [//|i [IH1 IH2]]; rewrite iterS stS -IH2; split.
  - exact: (lin_generate_ok LG IH1).
  - exact: (lin_generate_abs LG IH1).
split; first by apply/(ag_state H (R e).1 Hs); rewrite (R e).2.
move=> i Hi /(ag_state H (R i).1 Hs) E. have := H2 i Hi. by rewrite -(R i).2 E eqxx.
Qed.
End Cert.
