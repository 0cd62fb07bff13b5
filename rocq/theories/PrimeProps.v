(** C23, the part of C26 about the shipped tables and the part of C22 about
    Mersenne primes. *)
From Coq Require Import NArith ZArith List.
From mathcomp Require Import all_ssreflect all_algebra zify.
From Verif Require Import Base PolyF2 PeriodModel PeriodSpec PeriodProofs3 PeriodProofs7 PrimeTables PrimeTableProofs MersenneProofs.
Set Implicit Arguments.
Unset Strict Implicit.
Unset Printing Implicit Defensive.
Local Open Scope nat_scope.
Delimit Scope Z_scope with coqZ.

(** * C23: each table lists the distinct prime divisors of 2^n - 1. *)
Theorem C23_tables : forall n t, List.In (n, t) shipped_tables ->
  (forall p : N, List.In p (List.map (fun s => dec_value (chars s)) t) <->
     prime (N.to_nat p) /\ N.to_nat p %| 2 ^ n - 1) /\
  List.NoDup (List.map (fun s => dec_value (chars s)) t).
Proof. by move=> n t H; case: (shipped_ok H). Qed.
(** The entries are non-empty texts of decimal digits. *)
Theorem C23_texts : forall n t s, List.In (n, t) shipped_tables -> List.In s (List.map chars t) ->
  s <> nil /\ forall c, List.In c s -> (48 <= c <= 57)%num.
Proof. by move=> n t s H Hs; case: (shipped_ok H) => _ _ /(_ s Hs). Qed.
(** The tables are for the exponents named in AlgorithmPrimitivity.hpp. *)
Theorem C23_exponents : List.map (fun t => N.of_nat (fst t)) shipped_tables =
  [:: 128; 160; 192; 224; 256; 288; 320; 352; 384; 416; 448; 480; 512; 544; 640; 800; 960]%num.
Proof. by vm_compute. Qed.

(** * C26: the primitivity test built from a shipped table decides whether a
    polynomial is primitive of degree n. *)
Theorem C26_shipped : forall n t, List.In (n, t) shipped_tables ->
  exists prim, AlgorithmPrimitivity (List.map chars t) = Ret prim /\
    forall f : f2x, exists b, pr_call prim (Z.of_nat n) f = Ret b /\ (b <-> primitive f n).
Proof. exact shipped_decides. Qed.

(** The table for 128 on its own. *)
Example C23_ex128 : forall p, prime p -> p %| 2 ^ N.to_nat 128 - 1 ->
  List.In (N.of_nat p) [:: 3; 5; 17; 257; 641; 65537; 274177; 6700417; 67280421310721]%num.
Proof.
move=> p Pp D; have [H _] := @C23_tables (N.to_nat 128) _ (or_introl erefl).
have /H : prime (N.to_nat (N.of_nat p)) /\ N.to_nat (N.of_nat p) %| 2 ^ N.to_nat 128 - 1.
  by rewrite Nnat.Nat2N.id.
by vm_compute.
Qed.

(** * C22: up to 607 the table is exactly the set of Mersenne exponents. *)
Theorem C22_exact_607 : forall d : nat, d <= 607 ->
  exists b, isMexp (N.of_nat d) = Ret b /\ (b <-> prime (2 ^ d - 1)).
Proof.
move=> d Hd; have [|b [E Hb]] := @isMexp_iff (N.of_nat d); first by lia.
exists b; split=> //; rewrite (mersenne_small Hd) Hb; split.
  rewrite /= => H; have : List.In d small_exps by rewrite /small_exps /=; lia.
  by elim: small_exps => //= x l IH [->|/IH]; rewrite inE ?eqxx // => ->; rewrite orbT.
move=> H; have {H} : List.In d small_exps.
  by move: H; elim: small_exps => //= x l IH; rewrite inE => /orP[/eqP->|/IH]; [left|right].
by rewrite /small_exps /=; lia.
Qed.
(** Soundness up to 3217; for the greater entries the primality of 2^d-1 is not
    proved here. *)
Theorem C22_isMexp_sound_partial : forall d : nat, (Z.of_nat d <= 4252)%coqZ -> isMexp (N.of_nat d) = Ret true -> prime (2 ^ d - 1).
Proof.
move=> d Hd E; case: (leqP d 607) => [/C22_exact_607[b [E' Hb]]|gt].
  by apply/Hb; move: E'; rewrite E => -[<-].
have [|b [E' Hb]] := @isMexp_iff (N.of_nat d); first by lia.
move: E'; rewrite E => -[Eb]; move: Hb; rewrite -Eb => -[/(_ isT) Hb _].
have [->|[->|[->|->]]] : d = N.to_nat 1279 \/ d = N.to_nat 2203 \/ d = N.to_nat 2281 \/ d = N.to_nat 3217
  by move: Hb; rewrite /=; lia.
- exact: mersenne_1279.
- exact: mersenne_2203.
- exact: mersenne_2281.
- exact: mersenne_3217.
Qed.
Theorem C22_isPrime_sound_partial : forall f : f2x, (Z.of_nat (size f) <= 4253)%coqZ -> isPrime f = Ret true -> primitive f (size f).-1.
Proof.
move=> f sf E; apply: isPrime_sound => //; first by rewrite /deg; lia.
move=> e He Ee; apply: C22_isMexp_sound_partial; first by lia.
have [|b [E' Hb]] := @isMexp_iff (N.of_nat e); first by lia.
rewrite E'; congr Ret; apply/Hb; by rewrite nat_N_Z.
Qed.
(** The table is not complete up to its largest entry 25964951 if 2^24036583-1
    is prime, as is known: isMexp says no. *)
Theorem C22_24036583 : isMexp 24036583 = Ret false.
Proof. by vm_compute. Qed.

(** * C26: MersennePrimitivity for the Mersenne exponents up to 3217. *)
Theorem C26_mersenne_small : forall n, List.In (N.of_nat n) [:: 2; 3; 5; 7; 13; 17; 19; 31; 61; 89; 107; 127; 521; 607; 1279; 2203; 2281; 3217]%num ->
  forall f : f2x, exists b, pr_call MersennePrimitivity (Z.of_nat n) f = Ret b /\ (b <-> primitive f n).
Proof.
move=> n H; apply: mersenne_decides; case: (leqP n 607) => [le|gt].
  apply/(mersenne_small le); have {H} : List.In n small_exps by move: H; rewrite /small_exps /=; lia.
  by elim: small_exps => //= x l IH [->|/IH]; rewrite inE ?eqxx // => ->; rewrite orbT.
have [->|[->|[->|->]]] : n = N.to_nat 1279 \/ n = N.to_nat 2203 \/ n = N.to_nat 2281 \/ n = N.to_nat 3217
  by move: H; rewrite /=; lia.
- exact: mersenne_1279.
- exact: mersenne_2203.
- exact: mersenne_2281.
- exact: mersenne_3217.
Qed.
Example C22_ex : isMexp 521 = Ret true /\ isMexp 523 = Ret false.
Proof. by []. Qed.
Print Assumptions C23_tables.
Print Assumptions C23_texts.
Print Assumptions C23_exponents.
Print Assumptions C26_shipped.
Print Assumptions C22_exact_607.
Print Assumptions C22_isMexp_sound_partial.
Print Assumptions C22_isPrime_sound_partial.
Print Assumptions C22_24036583.
Print Assumptions C26_mersenne_small.
