(** Proofs about AlgorithmRecursionAndTempering. *)
From Coq Require Import NArith ZArith List Lia.
From mathcomp Require Import all_ssreflect all_algebra.
From mathcomp Require Import zify.
From Verif Require Import Base GenModel PolyF2 LinSpec LinLemmas EquiModel EquiProofs5 EquiProofs6 EquiEx PeriodSpec PeriodModel PeriodProofs
  PeriodProofs2 PeriodProofs3 PeriodProofs4 PeriodProofs5 PeriodProofs7 TemperModel RecTemperModel RecTemperSpec.
Set Implicit Arguments.
Unset Strict Implicit.
Unset Printing Implicit Defensive.
Import GRing.Theory.
Local Open Scope ring_scope.
Delimit Scope Z_scope with coqZ.

(** The defect found for a state is the sum of the defects of the dimensions. *)
Section Equidist.
Variables (S : Type) (G : gen_ops S) (T : temper_ops S) (n : nat) (ok : S -> Prop)
  (abs : S -> 'rV['F_2]_n) (A : 'M['F_2]_n) (C : nat -> 'cV['F_2]_n) (pos : N -> res Z).
Hypothesis LG : linear_gen G ok abs A C.
Hypothesis Hnb : forall s, ok s -> g_bitSize G s = n.
Hypothesis Hpos : pos_spec (g_width G) pos.
Variables (efuel : nat) (veq0 : list Z) (L : nat).
Hypothesis Hfuel : ((4 * n + 2) * (N.to_nat (g_width G)).+1 <= efuel)%N.
Hypothesis L1 : (1 <= L)%N.
Hypothesis LW : (N.of_nat L <= g_width G)%num.
Hypothesis Lveq : (L <= length veq0)%N.
Definition defect_of (dims : nat -> nat) : Z :=
  defect_sum n L (List.map (fun i => Z.of_nat (dims i.+1)) (List.seq 0 L)).
Lemma equidist_ok s : ok (t_clone T s) ->
  exists dims, (forall v, (1 <= v <= L)%N -> equidist_dim A C (abs (t_clone T s)) v (dims v)) /\
    (forall v, (1 <= v <= L)%N -> (dims v <= n %/ v)%N) /\
    tm_get_equidist S G T pos efuel veq0 L s = Ret (defect_of dims).
Proof.
move=> oks.
have ST : [/\ linear_gen G ok abs A C, forall s, ok s -> g_bitSize G s = n, (n <= 2 * n + 1)%N & pos_spec (g_width G) pos].
  by split=> //; lia.
have Hsbs : (\rank (krylov A (abs (t_clone T s))) <= n)%N /\ (if (0 =? 0)%coqZ then Z.of_nat n else 0%coqZ) = Z.of_nat n.
  by split; first exact: rank_leq_col.
have Hen : ((2 * n + 2 * n + 2) * (N.to_nat (g_width G)).+1 <= efuel)%N.
  by apply: leq_trans Hfuel; rewrite leq_mul2r; apply/orP; right; lia.
have [a1 [veq1 [sum1 [E1 D1]]]] := dimension_thm (mexp := 0%coqZ) ST oks Hsbs Hen L1 LW Lveq.
have [a2 [veq2 [sum2 [a3 [sum3 [k3 [E2 [_ [S2 [_ [_ [B2 [Ln _]]]]]]]]]]]]] := sums_thm (mexp := 0%coqZ) ST oks Hsbs Hen L1 LW Lveq.
move: E2; rewrite E1 => -[_ Ev Es]; rewrite -Es -Ev in S2; rewrite -Ev in B2.
pose dims v := Z.to_nat (List.nth (v - 1) veq1 0%coqZ).
have Hd v : (1 <= v <= L)%N -> exists k, List.nth (v - 1) veq1 0%coqZ = Z.of_nat k /\ equidist_dim A C (abs (t_clone T s)) v k.
  move=> Hv; have [k [Hk Dk]] := D1 v Hv; exists k; split=> //. by rewrite (List.nth_error_nth _ _ _ Hk).
exists dims; split; [|split].
- by move=> v Hv; rewrite /dims; have [k [-> Dk]] := Hd v Hv; rewrite Nat2Z.id.
- move=> v Hv; have [e [Ee He]] := B2 (v - 1)%N ltac:(lia).
  rewrite /dims (List.nth_error_nth _ _ _ Ee); have Evv : (v - 1).+1 = v by lia.
  by move: He; rewrite Evv; generalize (n %/ v)%N; lia.
- rewrite /tm_get_equidist E1; cbn [bind]; congr Ret; rewrite S2 /defect_of /defect_sum.
  congr List.fold_right; apply: List.map_ext_in => i /List.in_seq Hi; congr Z.sub.
  have Hi' : (i < L)%N by lia.
  have -> : List.nth i (List.map (fun i => Z.of_nat (dims i.+1)) (List.seq 0 L)) 0%coqZ = Z.of_nat (dims i.+1).
    rewrite (List.nth_indep _ 0%coqZ (Z.of_nat (dims i.+1))); last by rewrite List.map_length List.seq_length; lia.
    by rewrite (List.map_nth (fun i => Z.of_nat (dims i.+1)) (List.seq 0 L) i i) List.seq_nth //; lia.
  rewrite /dims subSS subn0; have [k []] := Hd i.+1 ltac:(lia); rewrite subSS subn0 => -> _. by rewrite Nat2Z.id.
Qed.
Lemma defect_of_le dims : (defect_of dims <= Z.of_nat n * Z.of_nat L)%coqZ.
Proof.
clear LG Hnb Hpos Hfuel L1 LW Lveq C A abs ok.
rewrite /defect_of /defect_sum.
have H : forall l, (forall i, List.In i l -> (i < L)%N) ->
  (List.fold_right Z.add 0 (List.map (fun i => Z.of_nat (n %/ i.+1) - List.nth i (List.map (fun i => Z.of_nat (dims i.+1)) (List.seq 0 L)) 0) l) <=
   Z.of_nat n * Z.of_nat (length l))%coqZ.
  elim=> [|i l IH] Hl /=; first lia.
  have := IH (fun j Hj => Hl j (or_intror Hj)).
  have Hi := Hl i (or_introl (erefl i)).
  have : (Z.of_nat (n %/ i.+1) <= Z.of_nat n)%coqZ by have := leq_div n i.+1; lia.
  have : (0 <= List.nth i (List.map (fun i => Z.of_nat (dims i.+1)) (List.seq 0 L)) 0)%coqZ.
    case: (List.nth_in_or_default i (List.map (fun i => Z.of_nat (dims i.+1)) (List.seq 0 L)) 0%coqZ) => [|->]; last lia.
    by move/List.in_map_iff => [j [<- _]]; lia.
  lia.
have := H (List.seq 0 L); rewrite List.seq_length; apply=> i /List.in_seq. lia.
Qed.
Lemma defect_ofE dims : defect_of dims = defects n L dims.
Proof.
clear LG Hnb Hpos Hfuel L1 LW Lveq C A abs ok.
rewrite /defect_of /defect_sum /defects -List.seq_shift List.map_map; congr List.fold_right.
apply: List.map_ext_in => i /List.in_seq Hi; congr Z.sub.
rewrite (List.nth_indep _ 0%coqZ (Z.of_nat (dims i.+1))); last by rewrite List.map_length List.seq_length; lia.
by rewrite (List.map_nth (fun i => Z.of_nat (dims i.+1)) (List.seq 0 L) i i) List.seq_nth //; lia.
Qed.
End Equidist.

Section RT.
Variables (S : Type) (G : gen_ops S) (T : temper_ops S).
Variables (n : nat) (Th : Type) (ok : Th -> S -> Prop)
  (abs : Th -> S -> 'rV['F_2]_n) (A : Th -> 'M['F_2]_n) (C D : Th -> nat -> 'cV['F_2]_n).
Variable legal : S -> Prop.
Variables (M : seq 'F_2 -> nat -> f2x) (B : Type) (setUpParam : S -> B -> res (S * B)) (one : N).
Variables (pos : N -> res Z) (efuel : nat) (veq0 : list Z).
Hypothesis F : family G ok abs A C D legal setUpParam one.
Hypothesis HM : minpolyseq_spec M.
Hypothesis n0 : (0 < n)%N.
Notation W := (N.to_nat (g_width G)).
Hypothesis Hpos : pos_spec (g_width G) pos.
Hypothesis Hfuel : ((4 * n + 2) * W.+1 <= efuel)%N.
Hypothesis Lveq : (W <= length veq0)%N.

Notation same_recursion := (same_recursion ok A).
Notation tempers := (tempers ok A).

Lemma tried_legal bad k r b r' b' : tried G setUpParam one n ok bad k r b r' b' -> legal r -> legal r'.
Proof.
elim=> [{}r {}b //|{}k {}r {}b th s b1 {}r' {}b' E oks _ _ IH] _; apply: IH.
by apply: (fam_legal F (th := th)); apply: (PeriodProofs4.run_ok (fam_gen F th)).
Qed.
Lemma tried_app bad k1 k2 r b r1 b1 r' b' : tried G setUpParam one n ok bad k1 r b r1 b1 ->
  tried G setUpParam one n ok bad k2 r1 b1 r' b' -> tried G setUpParam one n ok bad (k1 + k2) r b r' b'.
Proof.
elim=> [{}r {}b //|{}k {}r {}b th s b2 {}r1 {}b1 E oks Hb _ IH] H2; rewrite addSn.
by apply: triedS E oks Hb (IH H2).
Qed.
Notation bad := (fun th s => ~ good_seq (out_seq (A th) (D th) (abs th s) 0) n).
Lemma find_ok fuel prim o o' : decides prim n -> legal (rs_rand o) ->
  rt_find G M setUpParam one fuel prim (Z.of_nat n) o = Ret o' ->
  exists k r b s th, [/\ tried G setUpParam one n ok bad k (rs_rand o) (rs_base o) r b,
    setUpParam r b = Ret (s, rs_base o'), ok th (g_seed G one s),
    rs_rand o' = run G (2 * n) (g_seed G one s) & ok th (rs_rand o')] /\
    [/\ primitive (rs_poly o') n, rs_poly o' = char_poly (A th) & forall x, x != 0 -> full_period (A th) x].
Proof.
move=> Hd; elim: fuel o => [//|f IH] o lo; cbn [rt_find].
case E : (rs_start G M setUpParam one prim (1000 * Z.of_nat n) o) => [[found o1]| | | |] //; cbn [bind].
have := search_spec F HM n0 Hd lo E; move: E; case: found => E.
  case=> k [r [b [s [th [[lt Ht [Es oks] [rE okr]] [_ P cE _ FP]]]]]] [<-].
  by exists k, r, b, s, th.
case=> Ht _ H; have l1 := tried_legal Ht lo.
have [k [r [b [s [th [[Ht2 Es oks rE okr] [P cE FP]]]]]]] := IH o1 l1 H.
by exists (Z.to_nat (1000 * Z.of_nat n) + k)%N, r, b, s, th; split=> //; split=> //; exact: tried_app Ht Ht2.
Qed.

Lemma weight_ok (p : f2x) : size p = n.+1 -> weight p = Z.of_nat #|[set i : 'I_n.+1 | p`_i != 0]|.
Proof.
move=> sz; rewrite /weight; congr Z.of_nat.
rewrite -sum1dep_card -sum1_count (big_nth 0) sz big_mkord. by apply: eq_bigl => i.
Qed.

Lemma search_thm fuel prim st1 st2 lsb2 verbose no_lsb lg b res r :
  decides prim n -> legal lg -> tempers st1 -> tempers st2 ->
  (forall s, same_recursion s (t_setRev T s)) -> (forall s, same_recursion s (t_resetRev T s)) ->
  (forall s d s', st1 s = Ret (d, s') -> t_clone T s' = s') ->
  rt_search G T M setUpParam one pos efuel veq0 fuel prim st1 st2 lsb2 verbose no_lsb lg b = Ret (res, r) ->
  res /\ exists k r0 b0 s th s2 d th', [/\ tried G setUpParam one n ok bad k lg b r0 b0,
      setUpParam r0 b0 = Ret (s, rt_base r), ok th (g_seed G one s),
      (if no_lsb then s2 = run G (2 * n) (g_seed G one s) else
         exists d2 s3, st2 (run G (2 * n) (g_seed G one s)) = Ret (d2, s3) /\
           s2 = if verbose then t_resetRev T (if lsb2 then t_setRev T s3 else s3) else s3) &
      st1 s2 = Ret (d, rt_rand r)] /\
    [/\ ok th' (rt_rand r), A th' = A th, forall x, x != 0 -> full_period (A th') x,
        primitive (rt_poly r) n /\ rt_poly r = char_poly (A th') &
        size (rt_poly r) = n.+1 /\ rt_weight r = Z.of_nat #|[set i : 'I_n.+1 | (rt_poly r)`_i != 0]|] /\
    exists dims, (forall v, (1 <= v <= W)%N -> equidist_dim (A th') (C th') (abs th' (rt_rand r)) v (dims v)) /\
      rt_delta r = defects n W dims.
Proof.
move=> Hd Hl T1 T2 TS TR HC; rewrite /rt_search (fam_size F Hl).
case E : (rt_find _ _ _ _ _ _ _ _) => [o| | | |] //; cbn [bind].
have /= [k [r0 [b0 [s [th [[Ht Es oks rE okr] [P cE FP]]]]]]] := find_ok Hd (o := {| rs_rand := lg; rs_base := b; rs_poly := 0; rs_count := 0%coqZ |}) Hl E.
set V := (if verbose then _ else _); case: V => [d0| | | |] //; cbn [bind].
set X := (if no_lsb then _ else _).
case EX : X => [s2| | | |] //; cbn [bind].
have [th2 [ok2 A2]] : exists th2, ok th2 s2 /\ A th2 = A th.
  move: EX; rewrite /X; case: (no_lsb) => [[<-]|]; first by exists th.
  case E2 : (st2 _) => [[d2 s3]| | | |] //; cbn [bind].
  have [th3 [ok3 A3]] := T2 _ _ _ E2 _ okr.
  case: (verbose) => [|[<-]]; last by exists th3.
  case: (rt_equidist _ _ _ _ _ _) => [?| | | |] //; cbn [bind] => -[<-].
  have [th4 [ok4 A4]] : exists th4, ok th4 (if lsb2 then t_setRev T s3 else s3) /\ A th4 = A th3.
    by case: (lsb2); [exact: TS|exists th3].
  have [th5 [ok5 A5]] := TR _ _ ok4. by exists th5; rewrite A5 A4 A3.
case E1 : (st1 s2) => [[d s1]| | | |] //; cbn [bind].
have [th' [ok' A']] := T1 _ _ _ E1 _ ok2.
have Cl : t_clone T s1 = s1 by apply: HC E1.
have okc : ok th' (t_clone T s1) by rewrite Cl.
have W1 : (1 <= W)%N by have := fam_width F; lia.
have WW : (N.of_nat W <= g_width G)%num by lia.
have [|dims [HD [_ ED]]] := equidist_ok (fam_gen F th') _ Hpos Hfuel W1 WW Lveq okc.
  by move=> s' oks'; apply: (fam_size F); apply: (fam_legal F) oks'.
rewrite /rt_equidist ED; cbn [bind] => -[<- <-]; split=> //.
exists k, r0, b0, s, th, s2, d, th'; split; [|split].
- split=> //=. move: EX; rewrite /X; case: (no_lsb) => [[<-]|]; first by rewrite -rE.
  case E2 : (st2 _) => [[d2 s3]| | | |] //; cbn [bind].
  move=> H; exists d2, s3; split; first by rewrite -rE.
  move: H; case: (verbose) => [|[<-] //].
  by case: (rt_equidist _ _ _ _ _ _) => [?| | | |] //; cbn [bind] => -[<-].
- have EA : A th' = A th by rewrite A' A2.
  have sz : size (rs_poly o) = n.+1 by rewrite cE size_char_poly.
  split=> //=; try by rewrite EA.
  by split=> //; exact: weight_ok.
- exists dims; split=> /=; last exact: defect_ofE. by move=> v Hv; have := HD v Hv; rewrite Cl.
Qed.
End RT.
