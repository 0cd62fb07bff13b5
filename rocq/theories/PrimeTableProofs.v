(** The shipped tables are complete and contain primes only. *)
From Coq Require Import NArith ZArith List Bool.
From mathcomp Require Import all_ssreflect all_algebra zify.
From Verif Require Import Base PolyF2 PeriodModel PeriodSpec PeriodProofs7 PrimeCert PrimeCertProofs PrimeTables PrimeTableCerts.
Set Implicit Arguments.
Unset Strict Implicit.
Unset Printing Implicit Defensive.
Local Open Scope nat_scope.

Lemma rev_list (l : list N) : rev l = List.rev l.
Proof. by elim: l => [|x l IH] //; rewrite rev_cons -cats1 IH. Qed.
Lemma certs_ok : check_certs certs [:: 2%num] = true.
Proof. vm_cast_no_check (erefl true). Qed.
Lemma known_gen cs : check_certs cs [:: 2%num] = true -> all_prime (List.rev (List.map fst cs) ++ [:: 2%num]).
Proof.
move=> C; rewrite -rev_list; apply: check_certs_ok C.
by move=> q [<-|[]].
Qed.
Lemma known_ok : all_prime known_primes.
Proof. exact (known_gen certs_ok). Qed.

Definition tab_values (t : list String.string) : list N := List.map (fun s => dec_value (chars s)) t.
Definition tab_ok (t : nat * list String.string) (es : list nat) : bool :=
  check_table known_primes (N.of_nat t.1) (tab_values t.2) es && nodupb (tab_values t.2) &&
  List.forallb (fun s => match chars s with nil => false | l => List.forallb is_digit l end) t.2 &&
  Nat.ltb 1 t.1.
Fixpoint all2b (ts : list (nat * list String.string)) (es : list (list nat)) : bool :=
  match ts, es with
  | nil, nil => true
  | t :: ts', e :: es' => tab_ok t e && all2b ts' es'
  | _, _ => false
  end.
Lemma all_tabs_ok : all2b shipped_tables mults = true.
Proof. vm_cast_no_check (erefl true). Qed.

Lemma tab_in n t : List.In (n, t) shipped_tables -> exists es, tab_ok (n, t) es = true.
Proof.
move: all_tabs_ok; elim: shipped_tables mults => //= x l IH [|e es] //= /andP[H1 H2] [E|/IH].
  by exists e; rewrite -E.
by apply; exact: H2.
Qed.

Lemma nodupb_NoDup l : nodupb l = true -> List.NoDup l.
Proof.
elim: l => [|x l IH] /=; first by constructor.
case/andP=> /negP H /IH ?; constructor=> // Hx; apply: H; apply/existsb_exists; exists x.
by split=> //; exact: N.eqb_refl.
Qed.

Lemma shipped_ok n t : List.In (n, t) shipped_tables ->
  [/\ prime_divisors (2 ^ n - 1) (tab_values t), List.NoDup (tab_values t),
      forall s, List.In s (List.map chars t) -> s <> nil /\ all_digits s & 1 < n].
Proof.
case/tab_in=> es /andP[/andP[/andP[C D] S] L]; split.
- exact: check_table_ok known_ok C.
- exact: nodupb_NoDup.
- move=> s /List.in_map_iff [z [<- Hz]].
  have := proj1 (List.forallb_forall _ _) S z Hz; case E: (chars z) => [//|c l] H; split=> // d Hd.
  have := proj1 (List.forallb_forall _ _) H d Hd; rewrite /is_digit => /andP[/N.leb_le a /N.leb_le b].
  by split.
- by move/Nat.ltb_lt: L => /= L; apply/ltP.
Qed.

Lemma shipped_decides n t : List.In (n, t) shipped_tables ->
  exists prim, AlgorithmPrimitivity (List.map chars t) = Ret prim /\ decides prim n.
Proof.
case/shipped_ok=> H1 _ H2 H3; apply: table_decides => //; last by lia.
by rewrite List.map_map.
Qed.
