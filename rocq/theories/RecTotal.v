(** AlgorithmRecursionAndTempering ends normally or goes on searching for a
    recursion: it has no other outcome. *)
From Coq Require Import NArith ZArith List Lia.
From mathcomp Require Import all_ssreflect all_algebra.
From mathcomp Require Import zify.
From Verif Require Import Base GenModel PolyF2 LinSpec LinLemmas EquiModel EquiEx PeriodSpec PeriodModel
  PeriodProofs4 PeriodProofs5 PeriodProofs7 TemperModel RecTemperModel RecTemperSpec RecTemperProofs.
Set Implicit Arguments.
Unset Strict Implicit.
Unset Printing Implicit Defensive.
Import GRing.Theory.
Local Open Scope ring_scope.
Delimit Scope Z_scope with coqZ.

Section RT.
Variables (S : Type) (G : gen_ops S) (T : temper_ops S).
Variables (n : nat) (Th : Type) (ok : Th -> S -> Prop)
  (abs : Th -> S -> 'rV['F_2]_n) (A : Th -> 'M['F_2]_n) (C D : Th -> nat -> 'cV['F_2]_n).
Variable legal : S -> Prop.
Variables (M : seq 'F_2 -> nat -> f2x) (B : Type) (setUpParam : S -> B -> res (S * B)) (one : N).
Variables (pos : N -> res Z) (efuel : nat) (veq0 : list Z).
Hypothesis F : family G ok abs A C D legal setUpParam one.
Hypothesis HM : minpolyseq_spec M.
Hypothesis n0 : (0 < n)%N.
Notation W := (N.to_nat (g_width G)).
Hypothesis Hpos : pos_spec (g_width G) pos.
Hypothesis Hfuel : ((4 * n + 2) * W.+1 <= efuel)%N.
Hypothesis Lveq : (W <= length veq0)%N.
Hypothesis Hset : forall r b, legal r -> exists s b', setUpParam r b = Ret (s, b').
Hypothesis Hclone : forall s, t_clone T s = s.

Notation same_recursion := (same_recursion ok A).
Notation tempers := (tempers ok A).
Notation bad := (fun th s => ~ good_seq (out_seq (A th) (D th) (abs th s) 0) n).

Lemma start_total prim tries o : decides prim n -> legal (rs_rand o) ->
  exists r, rs_start G M setUpParam one prim tries o = Ret r.
Proof.
move=> Hp lo; rewrite /rs_start (fam_size F lo).
elim: (Z.to_nat tries) o lo => [|t IH] o lo; cbn [rs_loop]; first by eexists.
have [s [b E]] := Hset (rs_base o) lo; rewrite E; cbn [bind].
have [th [poly [r1 [Ht Em okr]]]] := trial_step F HM lo E; rewrite Em; cbn [bind].
set o1 := Build_rs_state _ _ _ _; have lo1 : legal (rs_rand o1) by apply: (fam_legal F) okr.
have [r Er] := IH o1 lo1; case: ifP => _; last by exists r.
have [b0 [-> _]] := Hp poly; cbn [bind]; case: b0; last by exists r.
by eexists.
Qed.

Lemma find_total fuel prim o : decides prim n -> legal (rs_rand o) ->
  (exists o', rt_find G M setUpParam one fuel prim (Z.of_nat n) o = Ret o') \/
  rt_find G M setUpParam one fuel prim (Z.of_nat n) o = NoFuel /\
  exists r b, tried G setUpParam one n ok bad (fuel * (1000 * n)) (rs_rand o) (rs_base o) r b.
Proof.
move=> Hd; elim: fuel o => [|f IH] o lo; cbn [rt_find].
  by right; split=> //; exists (rs_rand o), (rs_base o); exact: tried0.
have [[found o1] E] := start_total (1000 * Z.of_nat n)%coqZ Hd lo; rewrite E; cbn [bind].
have := PeriodProofs7.search_spec F HM n0 Hd lo E; case: found E => E.
  by move=> _; left; exists o1.
case=> Ht _; have l1 := tried_legal F Ht lo.
case: (IH o1 l1) => [H|[H [r [b Hr]]]]; [by left|right; split=> //; exists r, b].
have -> : (f.+1 * (1000 * n) = Z.to_nat (1000 * Z.of_nat n) + f * (1000 * n))%N.
  have -> : Z.to_nat (1000 * Z.of_nat n) = (1000 * n)%N by lia.
  by rewrite mulSn.
exact: tried_app Ht Hr.
Qed.

Lemma search_total fuel prim st1 st2 lsb2 verbose no_lsb lg b :
  decides prim n -> legal lg -> tempers st1 -> tempers st2 ->
  (forall th s, ok th s -> exists d s', st1 s = Ret (d, s')) ->
  (forall th s, ok th s -> no_lsb = false -> exists d s', st2 s = Ret (d, s')) ->
  (forall s, same_recursion s (t_setRev T s)) -> (forall s, same_recursion s (t_resetRev T s)) ->
  (exists r, rt_search G T M setUpParam one pos efuel veq0 fuel prim st1 st2 lsb2 verbose no_lsb lg b = Ret (true, r)) \/
  rt_search G T M setUpParam one pos efuel veq0 fuel prim st1 st2 lsb2 verbose no_lsb lg b = NoFuel /\
  exists r b', tried G setUpParam one n ok bad (fuel * (1000 * n)) lg b r b'.
Proof.
move=> Hd Hl T1 T2 D1 D2 TS TR; rewrite /rt_search (fam_size F Hl).
set o := Build_rs_state _ _ _ _.
case: (find_total fuel (o := o) Hd Hl) => [[o1 E]|[E H]]; rewrite E; cbn [bind]; last by right.
left; have /= [k [r0 [b0 [s [th [[Ht Es oks rE okr] [P cE FP]]]]]]] := find_ok F HM n0 Hd (o := o) Hl E.
have W1 : (1 <= W)%N by have := fam_width F; lia.
have WW : (N.of_nat W <= g_width G)%num by lia.
have ED th' s' : ok th' s' -> exists d, rt_equidist G T pos efuel veq0 s' = Ret d.
  move=> ok'; have okc : ok th' (t_clone T s') by rewrite Hclone.
  have [|dims [_ [_ Ee]]] := equidist_ok (fam_gen F th') _ Hpos Hfuel W1 WW Lveq okc.
    by move=> s1 ok1; apply: (fam_size F); apply: (fam_legal F) ok1.
  by rewrite /rt_equidist Ee; eexists.
have [d0 ->] : exists d0, (if verbose then rt_equidist G T pos efuel veq0 (rs_rand o1) else Ret 0%coqZ) = Ret d0.
  by case: (verbose); [exact: ED okr|eexists].
cbn [bind]; set X := (if no_lsb then _ else _).
have [s2 [th2 [EX ok2]]] : exists s2 th2, X = Ret s2 /\ ok th2 s2.
  rewrite /X; case Enl : no_lsb; first by exists (rs_rand o1), th.
  have [d2 [s3 E2]] := D2 _ _ okr Enl; rewrite E2; cbn [bind].
  have [th3 [ok3 _]] := T2 _ _ _ E2 _ okr.
  case: (verbose); last by exists s3, th3.
  have [th4 [ok4 _]] : exists th4, ok th4 (if lsb2 then t_setRev T s3 else s3) /\ A th4 = A th3.
    by case: (lsb2); [exact: TS|exists th3].
  have [d4 ->] := ED _ _ ok4; cbn [bind].
  have [th5 [ok5 _]] := TR _ _ ok4; by eexists; exists th5.
rewrite EX; cbn [bind].
have [d1 [s1 E1]] := D1 _ _ ok2; rewrite E1; cbn [bind].
have [th1 [ok1 _]] := T1 _ _ _ E1 _ ok2.
by have [d ->] := ED _ _ ok1; cbn [bind]; eexists.
Qed.
End RT.
