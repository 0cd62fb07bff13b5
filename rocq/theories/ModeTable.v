(** min_max_poly and a line of the table on an object with start mode and weight
    mode. *)
From Coq Require Import NArith ZArith List Bool Lia.
From mathcomp Require Import all_ssreflect all_algebra.
From mathcomp Require Import zify.
From Verif Require Import Base UtilModel GenModel PolyF2 LinSpec LinLemmas PeriodModel PeriodSpec PolyAct PeriodProofs PeriodProofs2
  PeriodProofs3 PeriodProofs4 ParityModel ParitySpec SearchLin AnniModel AnniProofs ModeAnni PerTestModel PerTestSpec.
Import ListNotations.
Set Implicit Arguments.
Unset Strict Implicit.
Unset Printing Implicit Defensive.
Import GRing.Theory.
Local Open Scope ring_scope.
Delimit Scope Z_scope with coqZ.

(** * Folds of mm_next *)
Definition mm_fold (mu : nat -> f2x) (bits : list nat) (m : mm) : mm := List.fold_left (fun m p => mm_next (mu p) m) bits m.
Lemma degE (f : f2x) : f != 0 -> deg f = Z.of_nat (size f).-1.
Proof. by rewrite /deg -size_poly_gt0; case: (size f) => // k _; lia. Qed.
Lemma mm_fold_app mu l r m : mm_fold mu (l ++ r) m = mm_fold mu r (mm_fold mu l m).
Proof. exact: List.fold_left_app. Qed.
Lemma mm_fold_ext mu mu' l m : (forall p, List.In p l -> mu p = mu' p) -> mm_fold mu l m = mm_fold mu' l m.
Proof.
elim: l m => [//|p l IH] m E; rewrite /mm_fold /= E; last by left.
by apply: IH => q Hq; apply: E; right.
Qed.
Lemma in_cat (l r : list nat) p : List.In p (l ++ r) <-> List.In p l \/ List.In p r.
Proof. exact: List.in_app_iff. Qed.
Lemma mm_step mu l p m : mu p != 0 -> mm_spec l mu m -> mm_spec (l ++ [p]) mu (mm_next (mu p) m).
Proof.
move=> p0 [[q Hq Eq] [R [l1 [x [r1 [El Ex Hl Ew]]]]]].
rewrite /mm_next degE //. case: m Eq R Ex Hl Ew => mi ma we /= Eq R Ex Hl Ew.
have {}R y : List.In y l -> (mi <= Z.of_nat (size (mu y)).-1 <= ma)%coqZ by exact: R.
have Rq := R _ Hq. split; [|split].
- case: Z.ltb_spec => L; first by exists p => //; apply/in_cat; right; left.
  by exists q => //; apply/in_cat; left.
- move=> y /in_cat [/R Hy|[<-|//]]; cbn [mm_min mm_max].
    move: Hy; set u := Z.of_nat _; set v := Z.of_nat _; clear; case: Z.ltb_spec => ?; case: Z.ltb_spec => ?; lia.
  move: Rq Eq; set u := Z.of_nat _; set v := Z.of_nat _; clear; case: Z.ltb_spec => ?; case: Z.ltb_spec => ?; lia.
- cbn [mm_max mm_weight]; case: Z.ltb_spec => L.
  + exists l, p, [::]; split=> // y /R; lia.
  + by exists l1, x, (r1 ++ [p]); split=> //; rewrite El -catA.
Qed.
Lemma mm_fold_spec mu l r m : (forall p, List.In p r -> mu p != 0) -> mm_spec l mu m -> mm_spec (l ++ r) mu (mm_fold mu r m).
Proof.
elim: r l m => [|p r IH] l m H0 H; first by rewrite cats0.
rewrite (_ : l ++ p :: r = (l ++ [p]) ++ r); last by rewrite -catA.
by apply: IH => [q Hq|]; [apply: H0; right|apply: mm_step => //; apply: H0; left].
Qed.
Lemma mm_all (mu : nat -> f2x) bits w : bits <> [] -> (forall p, List.In p bits -> mu p != 0 /\ (Z.of_nat (size (mu p)).-1 < 2 ^ 31)%coqZ) ->
  mm_spec bits mu (mm_fold mu bits (MM 2147483647 (-10) w)).
Proof.
case: bits => [//|p r] _ H. have [p0 Hp] := H p (or_introl erefl).
apply: (@mm_fold_spec mu [p] r (mm_next (mu p) (MM 2147483647 (-10) w))) => [q Hq|]; first by have [] := H q (or_intror Hq).
rewrite /mm_next degE //. cbn [mm_min mm_max mm_weight].
have -> : (-10 <? Z.of_nat (size (mu p)).-1)%coqZ by lia.
have -> : (if Z.of_nat (size (mu p)).-1 <? 2147483647 then Z.of_nat (size (mu p)).-1 else 2147483647)%coqZ = Z.of_nat (size (mu p)).-1.
  by case: Z.ltb_spec => // L; lia.
split; [|split].
- by exists p => //; left.
- by move=> q [<-|//]; cbn [mm_min mm_max]; lia.
- by exists [::], p, [::]; split.
Qed.

Section Table.
Variables (S : Type) (G : gen_ops S) (P : par_ops S) (n : nat) (ok : S -> Prop) (abs : S -> 'rV['F_2]_n)
  (A : 'M['F_2]_n) (R : nat -> 'cV['F_2]_n) (pb : S -> nat -> 'F_2) (lo : nat -> bool)
  (e : nat -> 'rV['F_2]_n) (Q : nat -> 'cV['F_2]_n).
Variable M : seq 'F_2 -> nat -> f2x.
Hypothesis MG : mode_gen G P ok abs A R pb lo e Q.
Hypothesis HM : minpolyseq_spec M.
Notation okc := (okc ok abs A R pb lo).
Notation mD := (mD A R lo).
Notation run := (run G).

Lemma mm_loop_spec bits s m mu : okc s -> (forall p, List.In p bits -> (p < 128)%N /\ is_minpoly (cseq A (abs s) (mD p)) (mu p)) ->
  exists k, mm_loop G M bits s m = Ret (mm_fold mu bits m, run k s).
Proof.
have UA := mg_unit MG.
elim: bits s m => [|p bits IH] s m Hs H; first by exists 0%N.
have [Hp Mp] := H p (or_introl erefl).
have pw : (N.of_nat p < g_width (all_ops G))%num by rewrite [g_width _](mg_width MG); clear -Hp; lia.
have Hnb t : okc t -> g_bitSize (all_ops G) t = n by move=> [Ht _]; exact: (mg_size MG).
have := @minpoly_spec _ _ _ _ _ _ _ _ (all_lin MG) (all_out MG) _ HM s p 0%coqZ Hs pw.
rewrite /mp_size /= [g_bitSize G s]Hnb // => /(_ (leqnn n)) [mu' [E Hm]].
rewrite /mm_loop -/mm_loop -[minpoly G M s _ _]/(minpoly (all_ops G) M s (Z.of_nat p) 0) E [bind _ _]/=.
rewrite (minpoly_unique Hm Mp). set s' := PeriodProofs4.run _ _ _.
have Es' : s' = run (2 * n) s by [].
have Hs' : okc s' by exact: (run_ok (all_lin MG)).
have [q Hq|k E2] := IH s' (mm_next (mu p) m) Hs'.
  have [q1 q2] := H q (or_intror Hq); split=> //. rewrite Es' (run_abs' MG); last by case: Hs.
  by apply/(cs_min UA).
by exists (k + 2 * n)%N; apply: (etrans E2); rewrite Es' /PeriodProofs4.run iterD.
Qed.

(** * A line of the table *)
Hypothesis n0 : (0 < n)%N.
Hypothesis n31 : (Z.of_nat n < 2 ^ 31)%coqZ.
Variable d : nat.
Hypothesis Hd : (n < 2 * d)%N.
(** A column whose polynomial has a factor of degree d. *)
Definition large_col (x : 'rV['F_2]_n) (c : 'cV['F_2]_n) : Prop :=
  exists mu f, [/\ is_minpoly (cseq A x c) mu, irreducible_poly f, size f = d.+1 & f %| mu].
Lemma min_size x c mu : is_minpoly (cseq A x c) mu -> mu != 0 /\ (Z.of_nat (size mu).-1 < 2 ^ 31)%coqZ.
Proof.
move=> H; have [m0 _ _] := H; split=> //. have := dvdp_leq (char_neq0 A) (cs_char H).
rewrite size_char_poly. move: (seq.size mu) n31 => k; clear; lia.
Qed.
Lemma before_spec bits s w mu : okc s -> bits <> [] ->
  (forall p, List.In p bits -> (p < 128)%N /\ is_minpoly (cseq A (abs s) (mD p)) (mu p)) ->
  exists m k, min_max_poly G M bits s w = Ret (m, run k s) /\ mm_spec bits mu m.
Proof.
move=> Hs Hb H. have [k E] := mm_loop_spec (MM 2147483647 (-10) w) Hs H.
exists (mm_fold mu bits (MM 2147483647 (-10) w)), k; split=> //. apply: mm_all => // p /H [_ /min_size]. exact.
Qed.
Lemma large_col_factor x c mu f : is_minpoly (cseq A x c) mu -> irreducible_poly f -> size f = d.+1 -> f %| char_poly A ->
  large_col x c <-> f %| mu.
Proof.
move=> Hm If sf fA; split=> [[mu' [g [Hm' Ig sg gm]]]|fm]; last by exists mu, f.
rewrite (minpoly_unique Hm' Hm) in gm.
by rewrite (large_unique (A := A) If Ig sf sg Hd fA (dvdp_trans gm (cs_char Hm))).
Qed.
Lemma large_colE x c mu : is_minpoly (cseq A x c) mu -> large_col x c <-> exists f, large_factor mu f d.
Proof.
move=> Hm; split=> [[mu' [f [Hm' If sf fm]]]|[f [If sf [g E _]]]]; last first.
  by exists mu, f; split=> //; rewrite E dvdp_mulr.
rewrite (minpoly_unique Hm' Hm) in fm. exists f; split=> //. have [m0 _ _] := Hm.
have f0 : f != 0 by rewrite -size_poly_eq0 sf.
exists (mu %/ f); first by rewrite mulrC divpK.
move=> h Ih hg. have g0 : mu %/ f != 0 by apply: contra m0 => /eqP Z; rewrite -(divpK fm) Z mul0r.
have Lh := dvdp_leq g0 hg. apply: leq_trans Lh _. have := dvdp_leq (char_neq0 A) (cs_char Hm).
rewrite size_char_poly size_divp // sf. move: Hd; clear; lia.
Qed.

Section Line.
Variables (anni : S -> res (bool * S)) (bits : list nat) (s : S).
Hypothesis Hs : ok s.
Hypothesis Hanni : exists b s', [/\ anni s = Ret (b, s'), okc s', b -> annihilated abs A (lD R) d s s' &
    ~~ b -> forall mu f, is_minpoly (out_seq A (lD R) (abs s) 0) mu -> ~ large_factor mu f d].
Hypothesis b0 : List.In 0%N bits.
Hypothesis Hb : forall p, List.In p bits -> (p < 128)%N.
Lemma line_spec w : exists b s', [/\ anni s = Ret (b, s'), (b <-> large_col (abs s) (R 0)) &
  b -> exists m t, min_max_poly G M bits s' w = Ret (m, t) /\ mm_max m = Z.of_nat d /\
    ((forall p, List.In p bits -> large_col (abs s) (mD p)) -> mm_min m = Z.of_nat d) /\
    (~ (forall p, List.In p bits -> large_col (abs s) (mD p)) -> mm_min m = 0%coqZ)].
Proof.
have [b [s' [E Hs' H1 H0]]] := Hanni. exists b, s'; split=> //.
  have [mu Hm] := cs_minexists A (abs s) (R 0).
  have L0 : out_seq A (lD R) (abs s) 0 = cseq A (abs s) (R 0) by [].
  case: b {E} H1 H0 => H1 H0; split=> //.
    by move=> _; have [//|mu' [f [Hm' Lf _ _]]] := H1 _; apply/(large_colE Hm'); exists f.
  by move=> /(large_colE Hm) [f Lf]; case: (H0 isT mu f).
move=> /H1 {H1 H0} [mu0 [f [Hm0 [If sf [g0 E0 _]] y0 fy]]]. rewrite -/(cseq A (abs s) (R 0)) in Hm0.
have fm0 : f %| mu0 by rewrite E0 dvdp_mulr.
have fA := dvdp_trans fm0 (cs_char Hm0).
have UA := mg_unit MG. set y := abs s' in y0 fy.
have [mu Hmu] : exists mu, forall p, is_minpoly (cseq A y (mD p)) (mu p).
  exists (fun p => M (mkseq (cseq A y (mD p)) (2 * n)) n) => p.
  apply: (HM (h := char_poly A)); first exact: char_neq0; first by rewrite size_char_poly.
  exact: (out_char A (fun=> mD p) y 0).
have [|p Hp|m [k [Em [[p Hp Ep] [Hr [l1 [x1 [r1 [El Ex _ _]]]]]]]]] := @before_spec bits s' w mu Hs'.
- by move=> Z; move: b0; rewrite Z.
- by split; [exact: Hb|exact: Hmu].
exists m, (run k s'); split=> //.
have V q : (mu q = 1 /\ ~ large_col (abs s) (mD q)) \/ (mu q = f /\ large_col (abs s) (mD q)).
  have [muq Hq] := cs_minexists A (abs s) (mD q).
  have F := cs_factor Hd If sf y0 fy Hm0 fm0 Hq. have Lq := large_col_factor Hq If sf fA.
  have [[Z ->]|[Z ->]] := cs_comp Hd If sf fy (Hmu q); [left|right]; split=> //.
    by move/Lq; apply/F.
  by apply/Lq; case D : (f %| muq) => //; case: Z; apply/F; rewrite D.
have V0 : mu 0%N = f.
  have [[_ Z]|[]//] := V 0%N. case: Z. rewrite /ModeAnni.mD (mg_lo MG). by apply/(large_col_factor Hm0 If sf fA).
have d0 : (0 < d)%N by move: Hd; clear; lia.
have R0 := Hr _ b0. rewrite V0 sf /= in R0.
have D q : Z.of_nat (size (mu q)).-1 = 0%coqZ \/ Z.of_nat (size (mu q)).-1 = Z.of_nat d.
  by case: (V q) => -[-> _]; rewrite ?size_poly1 ?sf; [left|right].
split; [|split].
- have [k' Hk' Ek'] : exists2 q, List.In q bits & mm_max m = Z.of_nat (size (mu q)).-1.
    by exists x1 => //; rewrite El; apply/in_cat; right; left.
  by rewrite Ek'; case: (D k') => // Z; move: R0; rewrite Ek' Z; clear -d0; lia.
- move=> Hall. rewrite -Ep. case: (V p) => -[-> Lp]; last by rewrite sf.
  by case: Lp; exact: Hall.
- move=> Hn. case: (D p) => Dp; rewrite -Ep // Dp. case: Hn => q Hq. have Rq := Hr _ Hq.
  case: (V q) => -[Eq Lq] //. move: Rq. rewrite Eq size_poly1 /=. rewrite -Ep Dp. clear -d0; lia.
Qed.
End Line.
End Table.

Lemma modes_spec (S : Type) (G : gen_ops S) M (anni : S -> res (bool * S)) set bits sf good row modes :
  (forall i j w, List.In (i, j) modes -> exists b s', [/\ anni (set i j sf) = Ret (b, s'), (b <-> good (i, j)) &
     b -> exists m t, min_max_poly G M bits s' w = Ret (m, t) /\ row (ROW i j (mm_min m) (mm_max m))]) ->
  forall w, exists rows code, pt_modes M G anni set bits sf modes w = Ret (rows, code) /\ table_spec good row modes rows code.
Proof.
elim: modes => [|[i j] modes IH] H w; first by exists [::], 0%coqZ.
have [b [s' [E Hb K]]] := H i j w (or_introl erefl). cbn [pt_modes]. rewrite E [bind _ _]/=.
case: b Hb K {E} => Hb K; last by exists [::], (-1)%coqZ; split=> //; left; split=> // /Hb.
have [m [t [E1 Hr]]] := K isT. cbn [negb]. rewrite E1 [bind _ _]/=.
have [i' j' w' Hi|rows [code [E2 T]]] := IH _ (mm_weight m); first by apply: H; right.
rewrite E2 [bind _ _]/=. eexists; exists code; split; first exact: erefl.
right; split; first by apply/Hb. by exists (ROW i j (mm_min m) (mm_max m)), rows.
Qed.
