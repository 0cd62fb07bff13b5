(** AlgorithmReducibleRecursionAndTempering. *)
From Coq Require Import NArith ZArith List Lia.
From mathcomp Require Import all_ssreflect all_algebra.
From mathcomp Require Import zify.
From Verif Require Import Base UtilProofs2 GenModel PolyF2 LinSpec LinLemmas EquiModel EquiEx PeriodSpec PeriodModel PolyAct
  PeriodProofs PeriodProofs2 PeriodProofs4 PeriodProofs5 PeriodProofs6 PeriodProofs7 ParityModel ParitySpec ParityProofs ParityProofs4 TemperModel
  RecTemperModel RecTemperSpec RecTemperProofs SearchLin RedTemperModel RedTemperSpec.
Set Implicit Arguments.
Unset Strict Implicit.
Unset Printing Implicit Defensive.
Import GRing.Theory.
Local Open Scope ring_scope.
Delimit Scope Z_scope with coqZ.

(** The result of searchParity is a word, written into the object. *)
Lemma parity_word (S : Type) (G : gen_ops S) (P : par_ops S) pos kernel junk fuel (g : S) f v g' :
  kernel_spec kernel -> (0 < g_width G)%num -> searchParity G P pos kernel (Some junk) fuel g f = Ret (v, g') ->
  (v < 2 ^ g_width G)%num /\ g' = p_setParityValue P v g.
Proof.
move=> HK w0; rewrite /searchParity.
case: (search_loop _ _ _ _ _ _ _ _ _ _ _) => [bases||||]; cbn [bind]; try by [].
case E : (search_parity_check_vector _ _ _ _ _) => [p||||]; cbn [bind]; try by [].
move=> H; have Ev := f_equal (fun z : res (N * S) => match z with Ret y => y.1 | _ => p end) H.
have Eg := f_equal (fun z : res (N * S) => match z with Ret y => y.2 | _ => g' end) H; cbn [fst snd] in Ev, Eg.
subst p; split; last by [].
clear H Eg; move: E; rewrite /search_parity_check_vector.
case: ifP => // _; case: (sbp _ _ _ _ _) => [mask||||]; cbn [bind]; try by [].
case: (matrix_rows _ _ _ _ _ _) => [mx||||]; cbn [bind]; try by [].
set r := N.to_nat (g_width G); set c := Z.to_nat _; set m := (fun i j => _).
have [HR _] := HK r c m.
case Ek : (kernel r c m) => [|row rest]; first by [].
have [lr _ _] : [/\ length row = r, forall j, (j < c)%N -> dot_col r m (fun i => List.nth i row false) j = 0 &
    exists2 i, (i < r)%N & List.nth i row false = true] by apply: HR; rewrite Ek; left.
have [x [Ex [xw _]]] := to_from_GF2Vec junk (g_width G) row w0 lr.
by rewrite /fgv Ex => -[<-].
Qed.

(** The part of f survives the division by what belongs to the rest. *)
Section Alive.
Variables (n : nat) (A : 'M['F_2]_n) (f L : f2x) (d : nat).
Hypothesis I : irreducible_poly f.
Hypothesis sf : size f = d.+1.
Hypothesis d1 : (1 < d)%N.
Hypothesis fc : f %| char_poly A.
Notation g := (char_poly A %/ f).
Lemma charE : char_poly A = f * g.
Proof. by rewrite mulrC divpK. Qed.
Lemma ker_inj z k : pact A f z = 0 -> st A k z = 0 -> z = 0.
Proof.
move=> fz sz; have nd : ~~ (f %| 'X).
  by apply/negP => /(dvdp_leq (negbT (polyX_eq0 _))); rewrite size_polyX sf ltnS leqNgt d1.
case/Bezout_eq1_coprimepP: (coprimep_expr k (irred_coprime I nd)) => -[u v] /= E.
by rewrite -[z](@pact1 n A) -E pactD pactM fz pact_v0 add0r pactM pactX sz pact_v0.
Qed.
Lemma alive_step x k : pact A g x != 0 -> pact A g (st A k x) != 0.
Proof.
apply: contra; rewrite pact_st => /eqP H; apply/eqP/(ker_inj (k := k)) => //.
by rewrite -pactM -charE; exact: cayley.
Qed.
Lemma alive_div x : pact A g x != 0 -> L %| char_poly A -> pact A L x = 0 ->
  [/\ f %| L, pact A (L %/ f) x != 0 & pact A f (pact A (L %/ f) x) = 0].
Proof.
move=> gx Lc Lx; have fL : f %| L.
  apply: contraNT gx => nd; have Lg : L %| g.
    have cp : coprimep L f by rewrite coprimep_sym; exact: irred_coprime.
    by move: Lc; rewrite {1}charE (Gauss_dvdpr _ cp).
  by rewrite (pact_dvd Lg Lx).
have f0 : f != 0 by rewrite -size_poly_gt0 sf.
split=> //; last by rewrite -pactM mulrC divpK.
apply: contraNneq gx => E; have D : L %/ f %| g by rewrite -(dvdp_mul2l _ _ f0) -charE [f * _]mulrC divpK.
by rewrite (pact_dvd D E).
Qed.
End Alive.

Section RRT.
Variables (S : Type) (G : gen_ops S) (T : temper_ops S) (P : par_ops S).
Variables (n : nat) (Th : Type) (ok : Th -> S -> Prop)
  (abs : Th -> S -> 'rV['F_2]_n) (A : Th -> 'M['F_2]_n) (C D : Th -> nat -> 'cV['F_2]_n).
Variable legal : S -> Prop.
Variables (M : seq 'F_2 -> nat -> f2x) (kernel : nat -> nat -> (nat -> nat -> bool) -> list (list bool))
  (B : Type) (setUpParam : S -> B -> res (S * B)) (one : N).
Variables (pos : N -> res Z) (junk : N) (fuel : nat) (veq0 : list Z) (d : nat).
Hypothesis F : family G ok abs A C D legal setUpParam one.
Hypothesis HM : minpolyseq_spec M.
Hypothesis HK : kernel_spec kernel.
Notation W := (N.to_nat (g_width G)).
Hypothesis Hpos : pos_spec (g_width G) pos.
Hypothesis Hfuel : ((4 * n + 2) * W.+1 <= fuel)%N.
Hypothesis Lveq : (W <= length veq0)%N.
Hypothesis d1 : (1 < d)%N.
Hypothesis n2 : (n < 2 * d)%N.
Hypothesis Hset : forall r b, legal r -> exists r', setUpParam r b = Ret r' \/ setUpParam r b = Throw.
Hypothesis Hmexp : forall s, legal s -> p_getMexp P s = Z.of_nat d.
Hypothesis Hsetp : forall th s v, ok th s -> (v < 2 ^ g_width G)%num -> exists2 th', ok th' (p_setParityValue P v s) & A th' = A th.
Notation same_state := (same_state ok abs A).
Notation keeps := (keeps ok abs A).
Notation low th s := (out_seq (A th) (D th) (abs th s) 0).
Notation bad := (fun th s => forall q f, is_minpoly (low th s) q -> ~ large_factor q f d).

Lemma nfuel : (n < fuel)%N.
Proof. by have := fam_width F; move: Hfuel; move: (g_width G) => w; clear; nia. Qed.
Lemma rfind_ok ffuel m o o' : legal (rr_rand o) ->
  rrt_find G P M setUpParam one fuel ffuel m o = Ret o' ->
  exists k r b s th mu, [/\ tried G setUpParam one n ok bad k (rr_rand o) (rr_base o) r b,
    setUpParam r b = Ret (s, rr_base o'), ok th (g_seed G one s),
    rr_rand o' = run G (2 * n) (g_seed G one s) & ok th (rr_rand o')] /\
    [/\ is_minpoly (low th (g_seed G one s)) mu, mu %| char_poly (A th) & large_factor mu (rr_irreducible o') d].
Proof.
elim: ffuel o => [//|f IH] o lo; cbn [rrt_find]; rewrite (Hmexp lo).
case: (reducible_search F HM d (1000 * m)%coqZ lo nfuel Hset) => [[-> _] //|[found [o1 [-> H]]]]; cbn [bind].
case: found H.
  move=> [k [r [b [s [th [[_ Ht [Es oks] [rE okr]] [_ Hm Hc HL _]]]]]]] [<-].
  by exists k, r, b, s, th, (rr_poly o1); split; split.
move=> [Ht _] H; have l1 := tried_legal F Ht lo.
have [k [r [b [s [th [mu [[Ht2 Es oks rE okr] H3]]]]]]] := IH o1 l1 H.
by exists (Z.to_nat (1000 * m) + k)%N, r, b, s, th, mu; split=> //; split=> //; exact: tried_app Ht Ht2.
Qed.

Lemma rrt_equidist_ok th s : ok th s ->
  exists dims, (forall v, (1 <= v <= W)%N -> equidist_dim (A th) (C th) (abs th s) v (dims v)) /\
    rrt_equidist G pos fuel veq0 s = Ret (defects n W dims).
Proof.
clear d1 n2 Hset Hmexp Hsetp HM HK junk d M kernel P T.
move=> oks; pose T0 : temper_ops S := {| t_set := fun _ _ _ g => g; t_up := id; t_setRev := id; t_resetRev := id; t_clone := id |}.
have W1 : (1 <= W)%N by have := fam_width F; lia.
have WW : (N.of_nat W <= g_width G)%num by lia.
have Hsz s1 : ok th s1 -> g_bitSize G s1 = n by move=> ok1; apply: (fam_size F); apply: (fam_legal F) ok1.
have [dims [H1 [_ H2]]] := @equidist_ok _ G T0 n (ok th) (abs th) (A th) (C th) pos (fam_gen F th) Hsz Hpos fuel veq0 W Hfuel W1 WW Lveq s oks.
by exists dims; split=> //; rewrite -defect_ofE -H2.
Qed.

Lemma rrt_thm ffuel st1 st2 lsb2 verbose no_lsb rg b res r : legal rg -> keeps st1 -> keeps st2 ->
  (forall s, same_state s (t_setRev T s)) -> (forall s, same_state s (t_resetRev T s)) ->
  rrt_search G T P M kernel setUpParam one pos junk fuel veq0 ffuel st1 st2 lsb2 verbose no_lsb rg b = Ret (res, r) ->
  res = true /\ exists k r0 b0 s th mu th1 th', let f := rrt_poly r in
    let accepted := run G (2 * n) (g_seed G one s) in let s1 := p_setParityValue P (rrt_parity r) accepted in
    [/\ tried G setUpParam one n ok bad k rg b r0 b0,
        setUpParam r0 b0 = Ret (s, rrt_base r), ok th (g_seed G one s),
        is_minpoly (low th (g_seed G one s)) mu & large_factor mu f d /\ f %| char_poly (A th)] /\
    [/\ searchParity G P pos kernel (Some junk) fuel accepted f = Ret (rrt_parity r, s1),
        ok th1 s1 /\ A th1 = A th, ok th' (rrt_rand r) /\ A th' = A th &
        rrt_weight r = Z.of_nat #|[set i : 'I_d.+1 | f`_i != 0]|] /\
    (exists s3 s4 d5, [/\ ok th1 s3,
        if no_lsb then s4 = s3 else exists d4 l, st2 s3 = Ret (d4, l) /\
          s4 = (if verbose then t_resetRev T (if lsb2 then t_setRev T l else l) else l),
        st1 s4 = Ret (d5, rrt_rand r) & abs th' (rrt_rand r) = abs th1 s3]) /\
    (out_observable (A th1) (D th1) (g_width G) -> alive (A th) f (abs th1 s1) ->
      [/\ abs th' (rrt_rand r) != 0, abs th' (rrt_rand r) *m poly_mx (A th') f = 0 &
        exists dims, (forall v, (1 <= v <= W)%N -> comp_dim (A th') (C th') f v (dims v)) /\ rrt_delta r = defects n W dims]).
Proof.
move=> Hl K1 K2 KS KR; rewrite /rrt_search; case: ifP => // _.
set o := Build_rr_state _ _ _ _ _.
case E : (rrt_find _ _ _ _ _ _ _ _ o) => [o1||||]; cbn [bind]; try by [].
have [k [r0 [b0 [s [th [mu [[Ht Es oks rE okr] [Hm Hc HL]]]]]]]] := rfind_ok (o := o) Hl E.
case Ep : (searchParity _ _ _ _ _ _ _ _) => [[v s1]||||]; cbn [bind]; try by [].
have [vw s1E] := parity_word HK (fam_width F) Ep.
have [th1 ok1 A1] := Hsetp okr vw; rewrite -s1E in ok1.
have Hsz s2 : ok th1 s2 -> g_bitSize G s2 = n by move=> ok2; apply: (fam_size F); apply: (fam_legal F) ok2.
have [If sf [g muE _]] := HL; set f := rr_irreducible o1 in If sf muE *.
have f0 : f != 0 by rewrite -size_poly_gt0 sf.
have [L [j [EL _ L0 Lc [Lg _]]]] := ccp_spec (fam_gen F th1) (fam_out F (th := th1)) HM Hsz (leqnn n) ok1 (oner_neq0 _).
rewrite EL; cbn [bind]; rewrite div_ret //; cbn [bind].
have okj : ok th1 (run G j s1) by apply: (PeriodProofs4.run_ok (fam_gen F th1)).
have [ok3 abs3] := annihilate_spec (fam_gen F th1) (L %/ f) okj; set s3 := annihilate G _ _ in ok3 abs3 *.
have [d0 ->] : exists d0, (if verbose then rrt_equidist G pos fuel veq0 s3 else Ret 0%coqZ) = Ret d0.
  by case: (verbose); [have [dims [_ ->]] := rrt_equidist_ok ok3; eexists|eexists].
cbn [bind]; set X := (if no_lsb then _ else _).
have X4 s4 : X = Ret s4 -> exists th4, [/\ ok th4 s4, A th4 = A th1 & abs th4 s4 = abs th1 s3].
  rewrite /X; case: (no_lsb) => [[<-]|]; first by exists th1.
  case E2 : (st2 s3) => [[d2 l]||||]; cbn [bind]; try by [].
  have [th2 [ok2 A2 a2]] := K2 _ _ _ E2 _ ok3.
  case: (verbose) => [|[<-]]; last by exists th2.
  set l' := (if lsb2 then _ else _).
  have [th3 [ok3' A3 a3]] : exists th3, [/\ ok th3 l', A th3 = A th2 & abs th3 l' = abs th2 l].
    by rewrite /l'; case: (lsb2); [exact: KS|exists th2].
  have [dims [_ ->]] := rrt_equidist_ok ok3'; cbn [bind] => -[<-].
  have [th4 [ok4 A4 a4]] := KR _ _ ok3'.
  by exists th4; rewrite A4 A3 A2 a4 a3 a2.
have X5 s4 : X = Ret s4 -> if no_lsb then s4 = s3 else exists d4 l, st2 s3 = Ret (d4, l) /\
    s4 = (if verbose then t_resetRev T (if lsb2 then t_setRev T l else l) else l).
  rewrite /X; case: (no_lsb) => [[]//|].
  case E2 : (st2 s3) => [[d2 l]||||]; cbn [bind]; try by [].
  case: (verbose) => [|[<-]]; last by exists d2, l.
  case: (rrt_equidist _ _ _ _ _) => [dd||||]; cbn [bind]; try by [].
  by move=> [<-]; exists d2, l.
case EX : X => [s4||||]; cbn [bind]; try by [].
have {}X5 := X5 _ EX.
have [th4 [ok4 A4 a4]] := X4 _ EX.
case E5 : (st1 s4) => [[d5 s5]||||]; cbn [bind]; try by [].
have [th5 [ok5 A5 a5]] := K1 _ _ _ E5 _ ok4.
have [dims [Hd ->]] := rrt_equidist_ok ok5; cbn [bind] => -[<- <-]; cbn [rrt_poly rrt_parity rrt_rand rrt_base rrt_weight rrt_delta].
split=> //; exists k, r0, b0, s, th, mu, th1, th5; cbv zeta; rewrite -rE -s1E.
have fc : f %| char_poly (A th) by apply: dvdp_trans Hc; rewrite muE dvdp_mulIl.
split; first by split=> //; split.
have AE : A th5 = A th by rewrite A5 A4 A1.
split; first by split=> //; exact: (@weight_ok d).
split; first by exists s3, s4, d5; split=> //; rewrite a5 a4.
move=> Ob Al.
have Lx : pact (A th1) L (abs th1 (run G j s1)) = 0.
  apply: Ob => p Hp i; have := Lg (dvd1p _) p Hp; move/out_generates/(_ i).
  exact.
have Al' : pact (A th1) (char_poly (A th1) %/ f) (abs th1 (run G j s1)) != 0.
  rewrite (run_abs (fam_gen F th1)) //; apply: (alive_step If sf d1); first by rewrite A1.
  by rewrite pact_mx A1; exact: Al.
have [fL y0 fy] := alive_div If sf (fc : f %| char_poly (A th)) (L := L) (x := abs th1 (run G j s1))
  ltac:(by rewrite -A1) ltac:(by rewrite -A1; apply: Lc; exact: dvd1p) ltac:(by rewrite -A1).
have yE : abs th5 s5 = pact (A th) (L %/ f) (abs th1 (run G j s1)) by rewrite a5 a4 abs3 A1.
rewrite -yE in y0 fy.
split=> //; first by rewrite AE -pact_mx.
exists dims; split=> // v0 Hv; have [H1 H2] := Hd v0 Hv.
rewrite -AE in fy.
have Hsp := comp_all If sf n2 y0 fy.
split; first by apply/(comp_span _ _ _ Hsp).
by move=> k' /(comp_span _ _ _ Hsp)/H2.
Qed.
End RRT.

Lemma excess_defects n d W dims : (defects n W dims = defects d W dims + excess n d W)%coqZ.
Proof.
rewrite /defects /excess; elim: (List.seq 1 W) => [//|v l IH]; cbn [List.map List.fold_right]; rewrite IH.
clear; lia.
Qed.
Lemma excess_ge n d W : (0 < W)%N -> (d <= n)%N -> (Z.of_nat n - Z.of_nat d <= excess n d W)%coqZ.
Proof.
case: W => // W _ dn; rewrite /excess; cbn [List.seq List.map List.fold_right]; rewrite !divn1.
suff : (0 <= List.fold_right Z.add 0 (List.map (fun v => Z.of_nat (n %/ v) - Z.of_nat (d %/ v)) (List.seq 2 W)))%coqZ by clear; lia.
elim: (List.seq 2 W) => [//|v l IH]; cbn [List.map List.fold_right].
by have := leq_div2r v dn; move: IH; generalize (n %/ v)%N (d %/ v)%N; clear; lia.
Qed.

Section Total.
Variables (S : Type) (G : gen_ops S) (T : temper_ops S) (P : par_ops S).
Variables (n : nat) (Th : Type) (ok : Th -> S -> Prop)
  (abs : Th -> S -> 'rV['F_2]_n) (A : Th -> 'M['F_2]_n) (C D : Th -> nat -> 'cV['F_2]_n).
Variable legal : S -> Prop.
Variables (M : seq 'F_2 -> nat -> f2x) (kernel : nat -> nat -> (nat -> nat -> bool) -> list (list bool))
  (B : Type) (setUpParam : S -> B -> res (S * B)) (one : N).
Variables (pos : N -> res Z) (junk : N) (fuel : nat) (veq0 : list Z) (d : nat).

(** delta is the last defect. *)
Lemma rrt_delta_eq ffuel st1 st2 lsb2 verbose no_lsb rg b res r :
  rrt_search G T P M kernel setUpParam one pos junk fuel veq0 ffuel st1 st2 lsb2 verbose no_lsb rg b = Ret (res, r) ->
  rrt_equidist G pos fuel veq0 (rrt_rand r) = Ret (rrt_delta r).
Proof.
rewrite /rrt_search; case: ifP => // _.
case: (rrt_find _ _ _ _ _ _ _ _ _) => [o1||||]; cbn [bind]; try by [].
case: (searchParity _ _ _ _ _ _ _ _) => [[v s1]||||]; cbn [bind]; try by [].
case: (calcCharacteristicPolynomial _ _ _ _) => [[L s2]||||]; cbn [bind]; try by [].
case: (gf2x_div _ _) => [q||||]; cbn [bind]; try by [].
set Y := (if verbose then rrt_equidist _ _ _ _ (annihilate _ _ _) else _).
case: Y => [?||||]; cbn [bind]; try by [].
set X := (if no_lsb then _ else _); case: X => [s4||||]; cbn [bind]; try by [].
case: (st1 s4) => [[d5 s5]||||]; cbn [bind]; try by [].
by case E : (rrt_equidist _ _ _ _ s5) => [dl||||]; cbn [bind]; try by []; move=> [_ <-].
Qed.

Hypothesis F : family G ok abs A C D legal setUpParam one.
Hypothesis HM : minpolyseq_spec M.
Hypothesis HK : kernel_spec kernel.
Notation W := (N.to_nat (g_width G)).
Hypothesis Hpos : pos_spec (g_width G) pos.
Hypothesis Hfuel : ((4 * n + 2) * W.+1 <= fuel)%N.
Hypothesis Lveq : (W <= length veq0)%N.
Hypothesis Hsetp : forall th s v, ok th s -> (v < 2 ^ g_width G)%num -> exists2 th', ok th' (p_setParityValue P v s) & A th' = A th.
Notation same_state := (same_state ok abs A).
Notation keeps := (keeps ok abs A).

(** When parameters and a parity vector are found and the tempering algorithms
    return, the search returns. *)
Lemma rrt_total ffuel st1 st2 lsb2 verbose no_lsb rg b o1 v s1 th : keeps st1 -> keeps st2 ->
  (forall s, same_state s (t_setRev T s)) -> (forall s, same_state s (t_resetRev T s)) ->
  (forall s, exists d s', st1 s = Ret (d, s')) -> (forall s, exists d s', st2 s = Ret (d, s')) ->
  (1000 * Z.of_nat (g_bitSize G rg) < 2 ^ 31)%coqZ ->
  rrt_find G P M setUpParam one fuel ffuel (Z.of_nat (g_bitSize G rg)) (Build_rr_state rg b 0 0 0%coqZ) = Ret o1 ->
  ok th (rr_rand o1) -> rr_irreducible o1 != 0 ->
  searchParity G P pos kernel (Some junk) fuel (rr_rand o1) (rr_irreducible o1) = Ret (v, s1) ->
  exists r, [/\ rrt_search G T P M kernel setUpParam one pos junk fuel veq0 ffuel st1 st2 lsb2 verbose no_lsb rg b = Ret (true, r),
    rrt_parity r = v & rrt_poly r = rr_irreducible o1].
Proof.
move=> K1 K2 KS KR T1 T2 Ho Ef okr f0 Ep; rewrite /rrt_search.
rewrite (_ : (2 ^ 31 <=? 1000 * _)%coqZ = false); last by apply/Z.leb_gt.
rewrite Ef; cbn [bind]; rewrite Ep; cbn [bind].
have [vw s1E] := parity_word HK (fam_width F) Ep.
have [th1 ok1 A1] := Hsetp okr vw; rewrite -s1E in ok1.
have Hsz s2 : ok th1 s2 -> g_bitSize G s2 = n by move=> ok2; apply: (fam_size F); apply: (fam_legal F) ok2.
have [L [j [-> _ L0 Lc [Lg _]]]] := ccp_spec (fam_gen F th1) (fam_out F (th := th1)) HM Hsz (leqnn n) ok1 (oner_neq0 _).
cbn [bind]; rewrite div_ret //; cbn [bind].
have okj : ok th1 (run G j s1) by apply: (PeriodProofs4.run_ok (fam_gen F th1)).
have [ok3 _] := annihilate_spec (fam_gen F th1) (L %/ rr_irreducible o1) okj; set s3 := annihilate G _ _ in ok3 *.
have EQ th0 s0 : ok th0 s0 -> exists dl, rrt_equidist G pos fuel veq0 s0 = Ret dl.
  by move=> ok0; have [dims [_ ->]] := rrt_equidist_ok F Hpos Hfuel Lveq ok0; eexists.
have [d0 ->] : exists d0, (if verbose then rrt_equidist G pos fuel veq0 s3 else Ret 0%coqZ) = Ret d0.
  by case: (verbose); [exact: EQ ok3|eexists].
cbn [bind]; set X := (if no_lsb then _ else _).
have [s4 [-> [th4 ok4]]] : exists s4, X = Ret s4 /\ exists th4, ok th4 s4.
  rewrite /X; case: (no_lsb); first by exists s3; split=> //; exists th1.
  have [d2 [l E2]] := T2 s3; rewrite E2; cbn [bind]; have [th2 [ok2 A2 a2]] := K2 _ _ _ E2 _ ok3.
  case: (verbose); last by exists l; split=> //; exists th2.
  set l' := (if lsb2 then _ else _).
  have [th3 [ok3' A3 a3]] : exists th3, [/\ ok th3 l', A th3 = A th2 & abs th3 l' = abs th2 l].
    by rewrite /l'; case: (lsb2); [exact: KS|exists th2].
  have [dl ->] := EQ _ _ ok3'; cbn [bind].
  by have [th4 [ok4 _ _]] := KR _ _ ok3'; exists (t_resetRev T l'); split=> //; exists th4.
cbn [bind]; have [d5 [s5 E5]] := T1 s4; rewrite E5; cbn [bind].
have [th5 [ok5 A5 a5]] := K1 _ _ _ E5 _ ok4.
by have [dl ->] := EQ _ _ ok5; cbn [bind]; eexists; split.
Qed.
End Total.
