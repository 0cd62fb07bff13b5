(** searchParity never returns if setOneBit is undefined at an early position. *)
From Coq Require Import NArith ZArith List Bool Lia.
From mathcomp Require Import all_ssreflect all_algebra.
From mathcomp Require Import zify.
From Verif Require Import Base UtilModel WordLemmas UtilProofs UtilProofs2 GenModel PolyF2 LinSpec LinLemmas PeriodModel PeriodSpec PolyAct.
From Verif Require Import PeriodProofs PeriodProofs2 PeriodProofs3 PeriodProofs4 PeriodProofs5 PeriodProofs6 PeriodProofs7.
From Verif Require Import ParityModel ParitySpec ParityProofs ParityProofs2 ParityProofs3.
Set Implicit Arguments.
Unset Strict Implicit.
Unset Printing Implicit Defensive.
Import GRing.Theory.
Local Open Scope ring_scope.
Delimit Scope Z_scope with coqZ.

Lemma nonzero_set (S : Type) (x : internal_state S) : forall bs i, (length (nonzero (set_at bs i x)) <= length (nonzero bs) + 1)%N.
Proof.
rewrite /nonzero; elim=> [|b bs IH] [|i] //=.
  by case: (negb _); case: (negb _) => /=; lia.
by have := IH i; case: (negb _) => /=; lia.
Qed.
Lemma addBase_count (S : Type) (G : gen_ops S) (P : par_ops S) pos fuel sz bs : forall cnt t bs' t',
  addBase_loop G P pos fuel cnt bs sz t = Ret (bs', t') -> (length (nonzero bs') <= length (nonzero bs) + 1)%N.
Proof.
elim=> [|cnt IH] t bs' t'; first by case=> <- _; lia.
pose step (work : internal_state S) :=
  do pivot <- pos (is_next work);
  if (sz <=? pivot)%coqZ then Throw
  else if (pivot <? 0)%coqZ then Undef
  else
    match List.nth_error bs (Z.to_nat pivot) with
    | None => Undef
    | Some b =>
        if (is_next b =? 0)%num then Ret (set_at bs (Z.to_nat pivot) (add_state G b work), work)
        else addBase_loop G P pos fuel cnt bs sz (add_state G work b)
    end.
have -> : addBase_loop G P pos fuel cnt.+1 bs sz t =
  if (is_next t =? 0)%num then do work <- get_next_state G P fuel t;
    if is_zero work then Ret (bs, work) else step work else step t by [].
have H u : step u = Ret (bs', t') -> (length (nonzero bs') <= length (nonzero bs) + 1)%N.
  rewrite /step; case: (pos _) => //= p; case: (_ <=? _)%coqZ => //; case: (_ <? _)%coqZ => //.
  case: (List.nth_error bs _) => // b; case: (_ =? _)%num; last exact: IH.
  by case=> <- _; exact: nonzero_set.
case: (_ =? _)%num; last exact: H.
case: get_next_state => //= u; case: (is_zero u); last exact: H.
by case=> <- _; lia.
Qed.

Section Par.
Variables (S : Type) (G : gen_ops S) (P : par_ops S) (pos : N -> res Z).
Variables (n : nat) (ok : S -> Prop) (abs : S -> 'rV['F_2]_n) (A : 'M['F_2]_n) (C : nat -> 'cV['F_2]_n).
Variables (nb : nat) (e : nat -> 'rV['F_2]_n) (Q : nat -> 'cV['F_2]_n) (f : f2x).
Hypothesis LG : linear_gen G ok abs A C.
Hypothesis PG : parity_gen G P ok abs nb e Q.
Variable k : nat.
Hypothesis Hk : (k < nb)%N.
Hypothesis Bad : forall s, ok s -> p_setOneBit P k s = Undef.

Lemma loop_ok fuel : forall rg x st', ok rg -> set_state_loop G P fuel rg x = Ret st' -> ok (is_rg st').
Proof.
elim: fuel => [|fuel IH] rg x st' H /=; case: (_ =? _)%num; try by case=> <-.
  by case: (g_isZero _ _) => // -[<-].
case: (g_isZero _ _); first by case=> <-.
by apply: IH; exact: (lin_generate_ok LG).
Qed.
Lemma set_state_ok fuel st st' : ok (is_rg st) -> set_state G P fuel st = Ret st' -> ok (is_rg st').
Proof.
move=> H; rewrite /set_state; case: (g_isZero _ _); first by case=> <-.
by apply: loop_ok; exact: (lin_generate_ok LG).
Qed.
Lemma calc_bad fuel : forall cnt st bp st' bp', ok (is_rg st) -> (bp <= k)%N -> (bp + cnt = nb)%N ->
  calc_basis_loop G P fuel cnt f st bp = Ret (st', bp') -> [/\ ok (is_rg st'), (bp' <= k)%N & (bp < bp')%N].
Proof.
elim=> [|cnt IH] st bp st' bp' H Hb Hc.
  by move: Hk Hb Hc; clear; lia.
rewrite [calc_basis_loop _ _ _ _ _ _ _]/=.
have bpn : (bp < nb)%N by move: Hc; clear; lia.
case: (pg_oneBit PG H bpn) => [->//|[s1 [E1 ok1 _]]]; rewrite E1.
have Hne : (bp < k)%N.
  by case: (ltngtP bp k) Hb => // Eb _; move: E1; rewrite Eb Bad.
rewrite [bind (Ret _) _]/=; have [ok2 _] := annihilate_spec LG f ok1.
case E : set_state => [st2||||] //; rewrite [bind (Ret _) _]/=.
have okk : ok (is_rg st2) by apply: set_state_ok E => /=.
case: (is_zero st2); last by case=> <- <-; split=> //.
move=> E2; have [|R1 R2 R3] := IH st2 bp.+1 st' bp' okk Hne _ E2; first by move: Hc; clear; lia.
by split=> //; apply: ltnW.
Qed.

Variable (d : nat).
Hypothesis Hpos : pos_spec (g_width G) pos.
Hypothesis Au : A \in unitmx.
Hypothesis I : irreducible_poly f.
Hypothesis sf : size f = d.+1.
Hypothesis D1 : f %| char_poly A.
Hypothesis D2 : ~~ (f ^+ 2 %| char_poly A).
Hypothesis Hd : (k < nb - d)%N.
Lemma search_loop_bad fuel : forall cnt bs t bp bs', bases_good G P ok abs A f bs -> good P ok abs A f t -> (bp <= k)%N ->
  (length (nonzero bs) <= bp)%N -> search_loop G P pos fuel cnt f nb (Z.of_nat nb - Z.of_nat d)%coqZ bs t bp <> Ret bs'.
Proof.
elim=> [|cnt IH] bs t bp bs' Hbs gt Hb Hc; rewrite [search_loop _ _ _ _ _ _ _ _ _ _ _]/=.
  by have -> : (bp < nb)%N by move: Hk Hb; clear; lia.
have bn : (bp < nb)%N by move: Hk Hb; clear; lia.
rewrite bn; have [okt _ _] := gt.
have := calc_basis_spec LG PG fuel gt bn.
case E1 : calc_basis => [[t1 bp1]||||] // [g1 _ _]; cbn [bind].
have [_ b1 b2] : [/\ ok (is_rg t1), (bp1 <= k)%N & (bp < bp1)%N].
  apply: (@calc_bad fuel (nb - bp) t bp) => //; first by move: bn; clear; lia.
  by move: E1; rewrite /calc_basis (pg_bitSize PG).
have := addBase_spec LG PG Hpos fuel (N.to_nat (g_width G * 10 + 1)) Hbs g1; rewrite -/(addBase G P pos fuel bs (Z.of_N (g_width G)) t1).
case E2 : addBase => [[bs2 t2]||||] // [Hbs2 g2 _ _]; cbn [bind].
have c2 := addBase_count E2.
have -> : (Z.of_nat nb - Z.of_nat d <=? Z.of_nat (length (nonzero bs2)))%coqZ = false by move: c2 Hc b1 b2 Hd; clear; lia.
by apply: IH => //; move: c2 Hc b2; clear; lia.
Qed.
Lemma search_bad kernel lax fuel g r : ok g -> p_getMexp P g = Z.of_nat d ->
  searchParity G P pos kernel lax fuel g f <> Ret r.
Proof.
move=> H Em; rewrite /searchParity Em (pg_bitSize PG) //.
set E := {| is_zero := true |}; set bs := List.repeat E _.
have gE : good P ok abs A f E by exact: (zero_good f LG PG H).
have Hbs : bases_good G P ok abs A f bs.
  split=> [|j b Eb]; first by rewrite List.repeat_length.
  by rewrite (List.repeat_spec _ E b (List.nth_error_In _ _ Eb)); split.
have c0 : (length (nonzero bs) <= 0)%N.
  by rewrite /bs /nonzero; elim: (N.to_nat _) => //.
by case EL : search_loop => [bs'||||] //; case: (search_loop_bad Hbs gE (leq0n k) c0 EL).
Qed.
End Par.
