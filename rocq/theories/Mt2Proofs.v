(** The program mt2 prints the maximal recursions that its parameter generator
    yields, in order, with their best masks and their defects. *)
From Coq Require Import NArith ZArith Lia List Bool.
From mathcomp Require Import all_ssreflect all_algebra.
From mathcomp Require Import zify.
From Verif Require Import Base WordLemmas WordVec GenModel PolyF2 LinSpec LinLemmas LinInst PeriodSpec PeriodModel
  EquiModel EquiProofs5 EquiEx PeriodProofs4 PeriodProofs5 PeriodProofs7 MTSpec
  MersenneProofs SampleSpec SampleProofs TemperModel BestBitsSpec BestBitsProofs RecTemperModel RecTemperSpec RecTemperProofs RecTotal
  ArrayModel ArrayWin ArrayLin MtdcModel MtdcLin MtdcProofs SearchModel Mt2Model Mt2Spec.
Set Implicit Arguments.
Unset Strict Implicit.
Unset Printing Implicit Defensive.
Import GRing.Theory.
Local Open Scope ring_scope.
Delimit Scope Z_scope with coqZ.

Lemma maximal_unit (n : nat) (A : 'M['F_2]_n) : maximal_period A -> A \in unitmx.
Proof.
move=> H; rewrite -row_free_unit -kermx_eq0; apply/rowV0P => x /sub_kermxP xA.
apply/eqP; apply: contraT => x0; have [_ E _] := H x x0.
have n0 : (0 < n)%N.
  by case: n {A H xA E} x x0 => [|n] x x0 //; case/eqP: x0; apply/rowP => -[].
have N2 : (2 ^ 1 <= 2 ^ n)%N by rewrite leq_exp2l.
have EN : (2 ^ n - 1 = (2 ^ n - 2).+1)%N.
  by move: N2; rewrite expn1; generalize (2 ^ n)%N; lia.
have Z0 k : st A k 0 = 0 by elim: k => [//|k IH]; rewrite stSr mul0mx.
by move: E; rewrite EN stSr xA Z0 => E; rewrite -E eqxx in x0.
Qed.

Section Mt2.
Variables (d : nat) (id : Z).
Hypothesis d64 : (64 <= d)%N.
Hypothesis d32 : Nat.modulo d 32 <> 0%N.
Hypothesis dmax : (N.of_nat d < 2 ^ 31)%num.
Hypothesis Hid : (0 <= id < 2 ^ 16)%coqZ.
Notation size := (mt32_size d).
Lemma size_gt2 : (2 < size)%N.
Proof. rewrite /mt32_size; have := Nat.div_mod d 32; have := Nat.mod_upper_bound d 32; move: d64; clear; lia. Qed.
Lemma size_lt : (N.of_nat size < 2 ^ 31)%num.
Proof.
rewrite /mt32_size; have := Nat.div_mod d 32; have := Nat.mod_upper_bound d 32; move: d64 dmax; clear.
generalize (Nat.div d 32) (Nat.modulo d 32); lia.
Qed.

(** The parameters with a flag for the reversed output. *)
Definition par (rev : bool) (pos : nat) (mata b c : N) : mtp :=
  let upper := wshl 32 (wnot 32 0) (N.of_nat (size * 32 - d)) in
  MTP d size rev upper (wnot 32 upper) pos id mata b c 12.
Record th : Type := { t_rev : bool; t_pos : nat; t_mata : N; t_b : N; t_c : N;
  t_ok : [/\ (1 < t_pos < size)%N, (t_mata < 2 ^ 32)%num, (t_b < 2 ^ 32)%num & (t_c < 2 ^ 32)%num] }.
Definition tpar (t : th) : mtp := par (t_rev t) (t_pos t) (t_mata t) (t_b t) (t_c t).
Lemma par_ok rev pos mata b c : (0 < pos < size)%N -> (mata < 2 ^ 32)%num -> (b < 2 ^ 32)%num -> (c < 2 ^ 32)%num -> mtp_ok (par rev pos mata b c).
Proof.
move=> H1 H2 H3 H4; have B := mt32_size_bounds d; have S2 := size_gt2.
have R : (0 < size * 32 - d < 32)%N.
  move: B d32; rewrite /mt32_size; have := Nat.div_mod d 32; have := Nat.mod_upper_bound d 32; clear; lia.
split=> //=; rewrite /m_r /=; first by split; [move: S2|move: B]; clear; lia.
Qed.
Lemma tpar_ok t : mtp_ok (tpar t).
Proof. by case: (t_ok t) => H1 H2 H3 H4; apply: par_ok => //; move: H1; clear; lia. Qed.
Definition ok (t : th) (g : mtg) : Prop := mtg_ok (tpar t) g.
Definition abs (t : th) (g : mtg) : 'rV['F_2]_d := mtg_vec (tpar t) g.
Definition A (t : th) : 'M['F_2]_d := mtg_A (tpar t).
Definition C (t : th) : nat -> 'cV['F_2]_d := mtg_C (tpar t).
Definition D (t : th) : nat -> 'cV['F_2]_d := mtg_D (tpar t).
(** The recursion does not depend on the masks and the flag. *)
Lemma A_rec rev pos mata b c rev' b' c' : mtg_A (par rev pos mata b c) = mtg_A (par rev' pos mata b' c') :> 'M['F_2]_d.
Proof. exact: erefl. Qed.
Lemma vec_rec p q (s : rr) rev pos mata b c rev' pos' mata' b' c' :
  mtg_vec (par rev pos mata b c) (p, s) = mtg_vec (par rev' pos' mata' b' c') (q, s) :> 'rV['F_2]_d.
Proof. exact: erefl. Qed.
(** Before the first setUpParam pos and mata are not initialised. *)
Definition legal (g : mtg) : Prop := exists rev pos mata b c,
  [/\ g.1 = par rev pos mata b c, (b < 2 ^ 32)%num & (c < 2 ^ 32)%num].

Variables (B : Type) (next : B -> N * B).
Hypothesis Hnext : forall b, ((next b).1 < 2 ^ 32)%num.
Notation setUp := (mt2_setUp next).
Notation number := (number next).
Notation after := (after next).
Notation pos_ u := (mt2_pos d u).
Notation mata_ u := (mt2_mata id u).

Lemma pos_range u : (1 < pos_ u < size)%N.
Proof.
rewrite /mt2_pos; have S2 := size_gt2; have := N.mod_lt u (N.of_nat size - 2); move: S2; clear.
generalize (u mod (N.of_nat size - 2))%num; lia.
Qed.
Lemma mata_lt u : (u < 2 ^ 32)%num -> (mata_ u < 2 ^ 32)%num.
Proof. by move=> Hu; apply: (lor_lt 32); [apply: (land_lt 32)|move: Hid; clear; lia]. Qed.
Lemma setUpE rev pos mata b c s u1 u2 : mt32_setUpParam u1 u2 (par rev pos mata b c, s) = Ret (par rev (pos_ u1) (mata_ u2) b c, s).
Proof.
have S2 := size_gt2; have SL := size_lt.
rewrite /mt32_setUpParam /par; cbn [m_size m_id m_mexp m_rev m_upper m_lower m_maskb m_maskc m_sh].
have -> : wsub 32 (N.of_nat size) 2 = (N.of_nat size - 2)%num.
  rewrite /wsub /trunc; have -> : (2 mod 2 ^ 32 = 2)%num by [].
  have -> : (N.of_nat size + (2 ^ 32 - 2) = N.of_nat size - 2 + 1 * 2 ^ 32)%num by move: S2; clear; lia.
  by rewrite N.mod_add //; apply: N.mod_small; move: SL; clear; lia.
have -> : (N.of_nat size - 2 =? 0)%num = false by move: S2; clear; lia.
have -> : (0 <=? id)%coqZ by move: Hid; clear; lia.
have M := N.mod_lt u1 (N.of_nat size - 2).
have -> : wadd 32 (u1 mod (N.of_nat size - 2)) 2 = (u1 mod (N.of_nat size - 2) + 2)%num.
  by rewrite /wadd /trunc; apply: N.mod_small; move: M S2 SL; clear; generalize (u1 mod (N.of_nat size - 2))%num; lia.
have -> // : N.land (of_int 32 id) 0xffff = Z.to_N id.
rewrite /of_int (Z.mod_small id); last by move: Hid; clear; lia.
by rewrite (N.land_ones _ 16) N.mod_small //; move: Hid; clear; lia.
Qed.
Lemma drawE b : draw next 2 b = ([:: number 0 b; number 1 b], after 2 b).
Proof. by rewrite /draw /number /after /=; case: (next b) => x b1 /=; case: (next b1). Qed.
Lemma number_lt k b : (number k b < 2 ^ 32)%num.
Proof. exact: Hnext. Qed.
Lemma mt2_setUpE rev pos mata b c s x :
  setUp (par rev pos mata b c, s) x = Ret ((par rev (pos_ (number 0 x)) (mata_ (number 1 x)) b c, s), after 2 x).
Proof. by rewrite /mt2_setUp drawE; cbn [List.nth]; rewrite setUpE. Qed.
Definition thof (rev : bool) (u1 u2 b c : N) (H2 : (u2 < 2 ^ 32)%num) (Hb : (b < 2 ^ 32)%num) (Hc : (c < 2 ^ 32)%num) : th :=
  {| t_rev := rev; t_pos := pos_ u1; t_mata := mata_ u2; t_b := b; t_c := c; t_ok := And4 (pos_range u1) (mata_lt H2) Hb Hc |}.
Lemma setUp_ok g x : legal g -> exists rev b c (Hb : (b < 2 ^ 32)%num) (Hc : (c < 2 ^ 32)%num),
  let t := thof rev (number 0 x) (number_lt 1 x) Hb Hc in
  setUp g x = Ret ((tpar t, g.2), after 2 x) /\ ok t (mtg_seed 1 (tpar t, g.2)).
Proof.
case: g => p s [rev [pos [mata [b [c [/= -> Hb Hc]]]]]].
exists rev, b, c, Hb, Hc; set t := thof _ _ _ _ _; split; first exact: mt2_setUpE.
exact: (mtg_seed_ok _ (tpar_ok t)).
Qed.
Lemma mt2_family : family mtg_ops ok abs A C D legal setUp 1.
Proof.
split.
- move=> t; exact: (mtg_lin (tpar_ok t)).
- move=> t; exact: (mtg_linout (tpar_ok t)).
- by move=> g [rev [pos [mata [b [c [/= -> _ _]]]]]].
- by move=> t g [E _]; case: (t_ok t) => _ _ Hb Hc; exists (t_rev t), (t_pos t), (t_mata t), (t_b t), (t_c t).
- move=> g x g' x' Hl E; have [rev [b [c [Hb [Hc [Es Ho]]]]]] := setUp_ok x Hl.
  eexists; move: E; rewrite Es => H; have := f_equal (fun z : res (mtg * B) => match z with Ret y => y.1 | _ => g end) H; cbn [fst] => <-.
  exact: Ho.
- by [].
Qed.
Lemma setUp_total r b : legal r -> exists s b', setUp r b = Ret (s, b').
Proof. by move=> /(setUp_ok b) [rev [b0 [c [Hb [Hc [-> _]]]]]]; eexists; eexists. Qed.

(** * Maximal recursions pass the test *)
Lemma seed_neq0 t s : abs t (mtg_seed 1 (tpar t, s)) != 0.
Proof.
have Hp := tpar_ok t; have S2 := size_gt2.
have ok1 : ok t (mtg_seed 1 (tpar t, s)) by exact: mtg_seed_ok.
apply/eqP => E.
have [ok0 Z0] := mtg_zeroE Hp ok1.
have E0 : mtg_vec (tpar t) (mtg_seed 1 (tpar t, s)) = mtg_vec (tpar t) (g_setZero mtg_ops (mtg_seed 1 (tpar t, s))).
  rewrite [LHS]E; symmetry; exact: (lin_zero_abs (mtg_lin Hp)).
have [_ /(_ 1%N)] := proj1 (mtg_state Hp ok1 ok0) E0.
rewrite Z0; last by move: S2; clear; cbn [tpar par m_size]; lia.
have -> : (0 < 1 < m_size (tpar t))%N by move: S2; clear; cbn [tpar par m_size]; lia.
move=> /(_ isT); rewrite /mtg_win /ar_win /win; cbn [mtg_seed fst snd rr_idx rr_arr tpar par m_size].
move: S2; clear; case: (size) => [|[|[|k]]] // _.
have -> : Nat.modulo (k.+3 - 1 + 1 + 1) k.+3 = 1%N by symmetry; apply: (Nat.mod_unique _ _ 1); lia.
by [].
Qed.
Lemma low_bit t x : maximal_period (A t) -> x != 0 -> exists i, out_seq (A t) (D t) x 0 i != 0.
Proof.
move=> Hm x0; have Hp := tpar_ok t; have S2 := size_gt2.
have T31 : N.testbit (m_mata (tpar t)) 31.
  by apply/(mtg_unit Hp); [case: (t_ok t) => /andP[]|exact: (maximal_unit Hm)].
have [| | |s [oks Es]] := @mtg_any_outputs _ Hp (List.repeat 1%num (m_size (tpar t) - 1)) erefl _ T31.
- by case: (t_ok t) => /andP[].
- exact: List.repeat_length.
- by apply/List.Forall_forall => y Hy; rewrite (List.repeat_spec _ _ _ Hy).
have E1 : (g_generate mtg_ops s).1 = 1%num.
  move: Es; have -> : (m_size (tpar t) - 1 = (m_size (tpar t) - 2).+1)%N by move: S2; clear; cbn [tpar par m_size]; lia.
  by rewrite /=; case.
have L := @mtg_linout _ Hp s 0%N oks erefl; rewrite E1 in L.
have y0 : mtg_vec (tpar t) s != 0 by apply/eqP => Ez; move: L; rewrite Ez mul0mx mxE.
have [i Ei] := st_onto (Hm _ x0) y0.
by exists i; rewrite /out_seq -Ei -L.
Qed.
Lemma good_maximal t s : ok t s -> abs t s != 0 -> (maximal_period (A t) -> good_seq (out_seq (A t) (D t) (abs t s) 0) d).
Proof.
move=> oks s0 Hm; apply: full_good; [by move: d64; clear; lia|exact: Hm|exact: low_bit].
Qed.

(** * The search for the masks *)
Variables (M : seq 'F_2 -> nat -> f2x) (Pos : N -> res Z) (efuel ffuel : nat) (veq0 : list Z).
Hypothesis HM : minpolyseq_spec M.
Hypothesis HPos : pos_spec 32 Pos.
Hypothesis Hef : ((4 * d + 2) * 33 <= efuel)%N.
Hypothesis Hveq : (32 <= length veq0)%N.
Notation defect := (tm_get_equidist mtg mtg_ops mt32_temper_ops Pos efuel veq0).
Definition cost (v : nat) (g : mtg) : Z := match defect v g with Ret z => z | _ => 0%coqZ end.
Lemma defect_ok t g v : ok t g -> (1 <= v <= 32)%N ->
  [/\ defect v g = Ret (cost v g), (cost v g <= Z.of_nat d * 32)%coqZ &
    exists dims, (forall u, (1 <= u <= v)%N -> equidist_dim (A t) (C t) (abs t g) u (dims u)) /\ cost v g = defects d v dims].
Proof.
move=> okg Hv.
have F : ((4 * d + 2) * (N.to_nat (g_width mtg_ops)).+1 <= efuel)%N by [].
have V1 : (1 <= v)%N by move: Hv; clear; lia.
have V2 : (N.of_nat v <= g_width mtg_ops)%num by move: Hv; clear; cbn [g_width mtg_ops]; lia.
have V3 : (v <= length veq0)%N by move: Hv Hveq; clear; lia.
have [|dims [H1 [H2 H3]]] := equidist_ok (T := mt32_temper_ops) (fam_gen mt2_family t) _ HPos F V1 V2 V3 okg.
  by move=> s1 ok1; apply: (fam_size mt2_family); apply: (fam_legal mt2_family) ok1.
rewrite /cost H3; split=> //.
- have := @defect_of_le d v dims; move: Hv; clear; nia.
- by exists dims; split=> //; exact: defect_ofE.
Qed.
Lemma cost_total t g v : ok t g -> maximal_period (A t) -> abs t g != 0 -> (1 <= v <= 32)%N -> total_defect (A t) (C t) v (cost v g).
Proof.
move=> okg Hm g0 Hv; have [_ _ [dims [H1 H2]]] := defect_ok okg Hv.
exists dims; split; last exact: H2.
by move=> u x Hu x0; apply/(start_maximal (C t) u _ (Hm _ g0) x0); exact: H1.
Qed.
Lemma set_full rev pos mata b c s q i : (b < 2 ^ 32)%num -> (c < 2 ^ 32)%num -> (q < 2 ^ 32)%num -> (i < 2)%N ->
  mt32_set (N.ones 32) q i (par rev pos mata b c, s) =
  (if i is 0%N then par rev pos mata q c else par rev pos mata b q, s).
Proof.
move=> Hb Hc Hq Hi.
have E m : (m < 2 ^ 32)%num -> N.lor (N.land m (wnot 32 (N.ones 32))) (N.land q (N.ones 32)) = q.
  move=> Hm; have -> : wnot 32 (N.ones 32) = 0%num by [].
  by rewrite N.land_0_r N.lor_0_l N.land_ones N.mod_small.
case: i Hi => [|i] _; rewrite /mt32_set /par; cbn [m_maskb m_maskc]; by rewrite E.
Qed.
Section Fixed.
Variable t : th.
Definition near (g : mtg) : Prop := exists rev b c, [/\ (b < 2 ^ 32)%num, (c < 2 ^ 32)%num & mtg_ok (par rev (t_pos t) (t_mata t) b c) g].
Lemma near_ok g : near g -> exists t', ok t' g /\ A t' = A t /\ t_pos t' = t_pos t /\ t_mata t' = t_mata t.
Proof.
case=> rev [b [c [Hb Hc H]]]; have [H1 H2 _ _] := t_ok t.
by exists {| t_rev := rev; t_pos := t_pos t; t_mata := t_mata t; t_b := b; t_c := c; t_ok := And4 H1 H2 Hb Hc |}.
Qed.
Lemma near_laws : set_laws (t_set mt32_temper_ops) (fun g => Z.of_nat (g_bitSize mtg_ops g)) 32 2 near.
Proof.
split; cbn [t_set mt32_temper_ops].
- move=> q i [p s] Hq Hi [rev [b [c [Hb Hc [E Hs]]]]]; cbn [fst snd] in E, Hs; subst p; have Hi' : (i < 2)%N by move: Hi; clear; lia.
  rewrite set_full //; case: i {Hi} Hi' => [|i] _; [by exists rev, q, c|by exists rev, b, q].
- move=> q i [p s] Hq Hi [rev [b [c [Hb Hc [E Hs]]]]]; cbn [fst snd] in E, Hs; subst p; have Hi' : (i < 2)%N by move: Hi; clear; lia.
  by rewrite set_full //; case: i {Hi} Hi'.
- move=> q q' i [p s] Hq Hq' Hi [rev [b [c [Hb Hc [E Hs]]]]]; cbn [fst snd] in E, Hs; subst p; have Hi' : (i < 2)%N by move: Hi; clear; lia.
  by rewrite !set_full //; case: i {Hi} Hi' => [|i] Hi'; rewrite set_full.
- move=> q q' i j [p s] Hq Hq' Hi Hj Hij [rev [b [c [Hb Hc [E Hs]]]]]; cbn [fst snd] in E, Hs; subst p.
  have Hi' : (i < 2)%N by move: Hi; clear; lia.
  have Hj' : (j < 2)%N by move: Hj; clear; lia.
  rewrite !(set_full _ _ _ _ Hb Hc) //.
  by case: i {Hi} Hi' Hij => [|[|i]] Hi'; case: j {Hj} Hj' => [|[|j]] Hj' Hij //; rewrite !set_full.
Qed.
Notation setq q s := (set_all (t_set mt32_temper_ops) 32 q (t_resetRev mt32_temper_ops s)).
Lemma set_both s x y : (x < 2 ^ 32)%num -> (y < 2 ^ 32)%num -> setq [:: x; y] (tpar t, s) = (par false (t_pos t) (t_mata t) x y, s).
Proof.
move=> Hx Hy; have [H1 H2 Hb Hc] := t_ok t.
rewrite /set_all; cbn [length List.seq List.combine List.fold_left t_set t_resetRev mt32_temper_ops].
have -> : mt32_setrev false (tpar t, s) = (par false (t_pos t) (t_mata t) (t_b t) (t_c t), s) by [].
by rewrite !set_full.
Qed.
Lemma temper_run s : ok t s -> exists b c rest, [/\ (b < 2 ^ 32)%num, (c < 2 ^ 32)%num,
  mt2_temper Pos efuel veq0 s = Ret (0%coqZ, (par false (t_pos t) (t_mata t) b c, s.2)) &
  searched 32 2 [:: 7; 15]%coqZ (fun v q => cost v (setq q s)) 15 ([:: b; c] :: rest)].
Proof.
case: s => p s [/= -> Hs]; have [H1 H2 Hb Hc] := t_ok t.
have N0 : near (tpar t, s) by exists (t_rev t), (t_b t), (t_c t).
have SH x : List.In x [:: 7; 15]%coqZ -> (0 <= x)%coqZ by case=> [<-|[<-|[]]].
have HR g : near g -> near (t_resetRev mt32_temper_ops g).
  case: g => p0 s0 [rev [b [c [B1 B2 [E Hs0]]]]]; cbn [fst snd] in E, Hs0; subst p0.
  by exists false, b, c.
have HC v g : near g -> (1 <= v)%coq_nat /\ (v <= 15)%coq_nat -> defect v g = Ret (cost v g) /\ (cost v g <= Z.of_nat (g_bitSize mtg_ops g) * Z.of_N 32)%coqZ.
  move=> Hg Hv; have [t' [ok' _]] := near_ok Hg.
  have -> : g_bitSize mtg_ops g = d by apply: (fam_size mt2_family); apply: (fam_legal mt2_family) ok'.
  have V : (1 <= v <= 32)%N by move: Hv; clear; lia.
  by have [] := defect_ok ok' V.
have SZ : (1 <= 2)%coq_nat /\ (2 <= 7)%coq_nat by clear; lia.
have LM : (N.of_nat 15 <= 32)%num by [].
have [q [l [Sq [[Lq Sm] Eq]]]] := bb_small _ _ _ _ _ _ _ _ _ _ near_laws (tpar t, s) SZ (erefl (length [:: 7; 15]%coqZ)) SH LM HR HC N0.
case: q Lq Sm Sq Eq => [|b [|c [|]]] // _ Sm Sq Eq.
have B1 := Sm 0%N; have B2 := Sm 1%N; cbn [List.nth] in B1, B2.
exists b, c, l; split=> //.
by rewrite [mt2_temper _ _ _ _]Eq set_both.
Qed.
End Fixed.
Notation temper := (mt2_temper Pos efuel veq0).
Lemma temper_total t s : ok t s -> exists d' s', temper s = Ret (d', s').
Proof. by move=> /temper_run [b [c [rest [_ _ -> _]]]]; eexists; eexists. Qed.
Lemma temper_tempers : tempers ok A temper.
Proof.
move=> s d' s' E t oks; have [b [c [rest [Hb Hc E' _]]]] := temper_run oks; have [H1 H2 _ _] := t_ok t.
move: E; rewrite E' => -[_ <-].
exists {| t_rev := false; t_pos := t_pos t; t_mata := t_mata t; t_b := b; t_c := c; t_ok := And4 H1 H2 Hb Hc |}.
by case: oks => _ Hs.
Qed.
Lemma rev_same r s : same_recursion ok A s (mt32_setrev r s).
Proof.
move=> t oks; have [H1 H2 H3 H4] := t_ok t; case: s oks => p s [E Hs]; cbn [fst snd] in E, Hs; subst p.
by exists {| t_rev := r; t_pos := t_pos t; t_mata := t_mata t; t_b := t_b t; t_c := t_c t; t_ok := And4 H1 H2 H3 H4 |}.
Qed.

(** * The program *)
Hypothesis dprime : prime (2 ^ d - 1).
Notation bad := (fun t s => ~ good_seq (out_seq (A t) (D t) (abs t s) 0) d).
Notation maxu b := (mt2_maximal d id (number 0 b) (number 1 b)).
Lemma maxE t u1 u2 : t_pos t = pos_ u1 -> t_mata t = mata_ u2 -> mt2_maximal d id u1 u2 <-> maximal_period (A t).
Proof. by move=> E1 E2; rewrite /A /tpar E1 E2. Qed.
Lemma legal_run t k s : ok t s -> legal (run mtg_ops k s).
Proof. by move=> oks; apply: (fam_legal mt2_family (th := t)); exact: (PeriodProofs4.run_ok (fam_gen mt2_family t)). Qed.
(** One trial. *)
Lemma trial_par r b s b1 : legal r -> setUp r b = Ret (s, b1) ->
  b1 = after 2 b /\ forall t, ok t (mtg_seed 1 s) -> [/\ t_pos t = pos_ (number 0 b), t_mata t = mata_ (number 1 b) & mtg_seed 1 s = mtg_seed 1 (tpar t, s.2)].
Proof.
move=> Hl; have [rev [b0 [c [Hb [Hc [-> _]]]]]] := setUp_ok b Hl => E.
have Es := f_equal (fun z : res (mtg * B) => match z with Ret y => y.1 | _ => s end) E; cbn [fst] in Es.
have Eb := f_equal (fun z : res (mtg * B) => match z with Ret y => y.2 | _ => b end) E; cbn [snd] in Eb.
split; first by rewrite Eb.
rewrite -Es => t [Et _]; cbn [fst snd mtg_seed] in Et.
have Q : forall x y, tpar x = tpar y -> t_pos x = t_pos y /\ t_mata x = t_mata y by move=> x y; rewrite /tpar /par => -[].
by have [<- <-] := Q _ _ Et; split=> //; cbn [fst snd mtg_seed]; rewrite -Et.
Qed.
Lemma after_after j k b : after j (after k b) = after (j + k) b.
Proof. by rewrite /Mt2Spec.after iterD. Qed.
Lemma tried_barren k r b r' b' : legal r -> tried mtg_ops setUp 1 d ok bad k r b r' b' -> mt2_barren d id next k b /\ b' = after (2 * k) b.
Proof.
move=> Hl Ht; elim: Ht Hl => {k r b r' b'} [r b|k r b t s b1 r' b' E oks bad _ IH] Hl; first by split.
have [Eb /(_ _ oks) [E1 E2 E3]] := trial_par Hl E.
have [|IH1 ->] := IH; first exact: legal_run oks.
split; last by rewrite Eb after_after; congr Mt2Spec.after; clear; lia.
case=> [|j] Hj.
  by move=> /(maxE E1 E2) Hm; apply: bad; apply: good_maximal Hm; [exact: oks|cbn [g_seed mtg_ops]; rewrite E3; exact: seed_neq0].
have := IH1 j Hj; rewrite Eb /Mt2Spec.number !after_after.
have -> : (2 * j + 2 = 2 * j.+1)%N by clear; lia.
by have -> : (2 * j + 1 + 2 = 2 * j.+1 + 1)%N by clear; lia.
Qed.
Lemma one_search verbose g b : legal g ->
  (exists r k, [/\ mt2_search next M Pos efuel ffuel veq0 verbose g b = Ret (true, r), legal (rt_rand r),
     mt2_barren d id next k b, rt_base r = after (2 * k + 2) b & maxu (after (2 * k) b) /\
     mt2_line_for d id (number 0 (after (2 * k) b)) (number 1 (after (2 * k) b)) (mt2_lineof (rt_rand r) (rt_delta r))]) \/
  mt2_search next M Pos efuel ffuel veq0 verbose g b = NoFuel /\ mt2_barren d id next (ffuel * (1000 * d)) b.
Proof.
move=> Hl.
have F : ((4 * d + 2) * (N.to_nat (g_width mtg_ops)).+1 <= efuel)%N by [].
have d0 : (0 < d)%N by move: d64; clear; lia.
have Hd := mersenne_decides dprime.
have RS s : same_recursion ok A s (t_setRev mt32_temper_ops s) by exact: rev_same.
have RR s : same_recursion ok A s (t_resetRev mt32_temper_ops s) by exact: rev_same.
case: (search_total mt2_family HM d0 HPos F Hveq setUp_total (T := mt32_temper_ops) (fun s => erefl s) ffuel (prim := MersennePrimitivity)
  (st1 := temper) (st2 := temper) false verbose (no_lsb := true) b Hd Hl temper_tempers temper_tempers temper_total (fun t s oks _ => temper_total oks) RS RR) =>
  [[r Er]|[En [r [b' Ht]]]]; last first.
  by right; split=> //; have [] := tried_barren Hl Ht.
left; have := search_thm mt2_family HM d0 HPos F Hveq (T := mt32_temper_ops) (fuel := ffuel) (prim := MersennePrimitivity) (st1 := temper) (st2 := temper)
  (lsb2 := false) (verbose := verbose) (no_lsb := true) Hd Hl temper_tempers temper_tempers RS RR (fun _ _ _ _ => erefl) Er.
move=> [_ [k [r0 [b0 [s [t [s2 [dd [t' [[Ht Es oks E2 E1] [[ok' EA FP _ _] [dims [HD ED]]]]]]]]]]]]].
have [Hb Eb0] := tried_barren Hl Ht.
have Hl0 : legal r0 := tried_legal mt2_family Ht Hl.
have [Eb /(_ _ oks) [P1 P2 P3]] := trial_par Hl0 Es.
exists r, k; split.
- exact: Er.
- exact: (fam_legal mt2_family (th := t')).
- exact: Hb.
- by rewrite Eb Eb0 after_after addnC.
rewrite -Eb0.
have Hm : maximal_period (A t) by rewrite -EA.
split; first exact/(maxE P1 P2).
have okr : ok t s2 by rewrite E2; exact: (PeriodProofs4.run_ok (fam_gen mt2_family t)).
have n0 : abs t s2 != 0.
  rewrite E2 (PeriodProofs4.run_abs (fam_gen mt2_family t) _ oks).
  by apply: (maximal_st _ d0 Hm); cbn [g_seed mtg_ops]; rewrite P3; exact: seed_neq0.
have [mb [mc [rest [Hmb Hmc Et Sq]]]] := temper_run okr.
move: E1; rewrite Et => E1.
have Er0 := f_equal (fun z : res (Z * mtg) => match z with Ret y => y.2 | _ => s2 end) E1; cbn [snd] in Er0.
have [H1 H2 _ _] := t_ok t.
have Ep x y : par false (t_pos t) (t_mata t) x y = mt32_par d id (pos_ (number 0 b0)) (mata_ (number 1 b0)) x y by rewrite P1 P2.
have TD v x y (Hx : (x < 2 ^ 32)%num) (Hy : (y < 2 ^ 32)%num) : (1 <= v <= 32)%N ->
  total_defect (mtg_A (mt32_par d id (pos_ (number 0 b0)) (mata_ (number 1 b0)) x y))
    (mtg_C (mt32_par d id (pos_ (number 0 b0)) (mata_ (number 1 b0)) x y)) v (cost v (par false (t_pos t) (t_mata t) x y, s2.2)).
  move=> Hv; rewrite -Ep.
  pose t2 := {| t_rev := false; t_pos := t_pos t; t_mata := t_mata t; t_b := x; t_c := y; t_ok := And4 H1 H2 Hx Hy |}.
  by apply: (@cost_total t2) => //; case: okr.
have DE : rt_delta r = cost 32 (par false (t_pos t) (t_mata t) mb mc, s2.2).
  pose t2 := {| t_rev := false; t_pos := t_pos t; t_mata := t_mata t; t_b := mb; t_c := mc; t_ok := And4 H1 H2 Hmb Hmc |}.
  have ok2 : ok t2 (par false (t_pos t) (t_mata t) mb mc, s2.2) by case: okr.
  have [Ed _ _] := defect_ok ok2 (v := 32) isT.
  have Ex : defect 32 (rt_rand r) = Ret (rt_delta r).
    move: Er; rewrite /mt2_search /rt_search.
    case: (rt_find _ _ _ _ _ _ _ _) => [o||||]; cbn [bind]; try by [].
    case: (if verbose then _ else _) => [d1||||]; cbn [bind]; try by [].
    case: (temper _) => [[d2 s3]||||]; cbn [bind]; try by [].
    rewrite /rt_equidist; case Ee : (tm_get_equidist _ _ _ _ _ _ _ _) => [d3||||]; cbn [bind]; try by [].
    by move=> -[<-]; exact: Ee.
  by move: Ex; rewrite -Er0 Ed => -[].
split.
- by rewrite /mt2_lineof -Er0 -P1 -P2.
- by rewrite /mt2_lineof -Er0.
- by rewrite /mt2_lineof -Er0 DE; exact: TD.
- eexists; exists rest; split; last by rewrite /mt2_lineof -Er0; exact: Sq.
  move=> v x y Hv Hx Hy /=; have -> : s2 = (tpar t, s2.2) by case: okr => <- _; case: (s2).
  by rewrite set_both //; apply: TD => //; move: Hv; clear; lia.
Qed.

Lemma skip_listing max m k ls b : mt2_barren d id next m b -> mt2_listing d id next max (after (2 * m) b) k.+1 ls ->
  mt2_listing d id next max b k.+1 ls.
Proof.
elim: m b => [//|m IH] b H1 H2; apply: listing_skip; first exact: (H1 0%N).
apply: IH; last by rewrite after_after; have -> : (2 * m + 2 = 2 * m.+1)%N by clear; lia.
move=> j Hj; have := H1 j.+1 Hj; rewrite /Mt2Spec.number !after_after.
have -> : (2 * j.+1 = 2 * j + 2)%N by clear; lia.
by have -> : (2 * j + 2 + 1 = 2 * j + 1 + 2)%N by clear; lia.
Qed.
Lemma skip_poor max m k p b : mt2_barren d id next m b -> mt2_poor d id next max (after (2 * m) b) p k ->
  mt2_poor d id next max b p k.
Proof.
elim: m b => [//|m IH] b H1 H2; apply: poor_skip; first exact: (H1 0%N).
apply: IH; last by rewrite after_after; have -> : (2 * m + 2 = 2 * m.+1)%N by clear; lia.
move=> j Hj; have := H1 j.+1 Hj; rewrite /Mt2Spec.number !after_after.
have -> : (2 * j.+1 = 2 * j + 2)%N by clear; lia.
by have -> : (2 * j + 2 + 1 = 2 * j + 1 + 2)%N by clear; lia.
Qed.
Lemma twice_add j k : (2 * (j + k.+1) = 2 * j + (2 * k + 2))%N.
Proof. clear; lia. Qed.
Lemma loop_spec loops max verbose count g b : legal g ->
  let out := mt2_loop next M Pos efuel ffuel veq0 loops max verbose count g b in
  (exists lines, out = Ret (lines, 0%coqZ) /\ mt2_listing d id next max b (Z.to_nat count) lines) \/
  out = NoFuel /\ (mt2_poor d id next max b loops (Z.to_nat count) \/
     exists j, mt2_barren d id next (ffuel * (1000 * d)) (after (2 * j) b)).
Proof.
elim: loops count g b => [|c IH] count g b Hl; cbv zeta; cbn [mt2_loop].
  case: Z.ltb_spec => Hc; last first.
    left; exists nil; split=> //; have -> : Z.to_nat count = 0%N by move: Hc; clear; lia.
    exact: listing_end.
  right; split=> //; left; have -> : Z.to_nat count = (Z.to_nat (count - 1)).+1 by move: Hc; clear; lia.
  exact: poor_end.
case: Z.ltb_spec => Hc; last first.
  left; exists nil; split=> //; have -> : Z.to_nat count = 0%N by move: Hc; clear; lia.
    exact: listing_end.
have Ec : Z.to_nat count = (Z.to_nat (count - 1)).+1 by move: Hc; clear; lia.
case: (one_search verbose b Hl) => [[r [k [-> Hr Hb Eb [Hm HL]]]]|[-> Hb]]; cbn [bind]; last first.
  by right; split=> //; right; exists 0%N.
have Eb' : rt_base r = after 2 (after (2 * k) b) by rewrite Eb after_after addnC.
case: Z.ltb_spec => Hd.
  have := IH count (rt_rand r) (rt_base r) Hr; cbv zeta.
  case=> [[lines [-> H]]|[-> [H|[j H]]]].
  - left; exists lines; split=> //; rewrite Ec in H *; apply: skip_listing Hb _.
    by apply: listing_worse Hm HL Hd _; rewrite -Eb'.
  - right; split=> //; left; apply: skip_poor Hb _.
    by apply: poor_worse Hm HL Hd _; rewrite -Eb'.
  - by right; split=> //; right; exists (j + k.+1)%N; rewrite twice_add -after_after -Eb.
have := IH (count - 1)%coqZ (rt_rand r) (rt_base r) Hr; cbv zeta.
case=> [[lines [-> H]]|[-> [H|[j H]]]]; cbn [bind].
- left; eexists; split; first by [].
  by rewrite Ec; apply: skip_listing Hb _; apply: listing_print Hm HL Hd _; rewrite -Eb'.
- right; split=> //; left; apply: skip_poor Hb _.
  by rewrite Ec; apply: poor_print Hm HL Hd _; rewrite -Eb'.
- by right; split=> //; right; exists (j + k.+1)%N; rewrite twice_add -after_after -Eb.
Qed.
Lemma main_spec loops jpos jmata max verbose count b :
  let out := mt2_main next M Pos efuel ffuel veq0 loops d id jpos jmata max verbose count b in
  (exists lines, out = Ret (lines, 0%coqZ) /\ mt2_listing d id next max b (Z.to_nat count) lines) \/
  out = NoFuel /\ (mt2_poor d id next max b loops (Z.to_nat count) \/
     exists j, mt2_barren d id next (ffuel * (1000 * d)) (after (2 * j) b)).
Proof.
rewrite /mt2_main /mt32_new; have B1 := mt32_size_bounds d.
have -> : (32 <=? size * 32 - d)%nat = false.
  move: B1 d32; rewrite /mt32_size; have := Nat.div_mod d 32; have := Nat.mod_upper_bound d 32; clear.
  by move=> *; apply/Nat.leb_gt; lia.
by cbn [bind]; apply: loop_spec; exists false, jpos, jmata, 0%num, 0%num.
Qed.
End Mt2.

Lemma listing_lines d id : (64 <= d)%N -> Nat.modulo d 32 <> 0%N -> (N.of_nat d < 2 ^ 31)%num -> (0 <= id < 2 ^ 16)%coqZ ->
  forall B (next : B -> N * B), (forall b, ((next b).1 < 2 ^ 32)%num) ->
  forall max_delta b k lines, mt2_listing d id next max_delta b k lines ->
  length lines = k /\ forall l, List.In l lines ->
    [/\ (2 <= ml_pos l < mt32_size d)%N, N.land (ml_mata l) 0xffff = Z.to_N id, N.testbit (ml_mata l) 31, (ml_delta l <= max_delta)%coqZ &
        let p := mt32_par d id (ml_pos l) (ml_mata l) (ml_maskb l) (ml_maskc l) in
        [/\ mtp_ok p, maximal_period (mtg_A p) & total_defect (mtg_A p) (mtg_C p) 32 (ml_delta l)]].
Proof.
move=> d64 d32 dmax Hid B next Hnext max_delta b k lines.
elim=> {b k lines} [b|b k ls _ _ [-> H]|b k l ls _ _ _ _ [-> H]|b k l ls Hm HL Hd _ [<- H]]; split=> //.
move=> l' [<-|/H //]; have [[E1 E2] [Hb Hc] Ht _] := HL.
have P := pos_range d64 (number next 0 b).
have Mt := @mata_lt id Hid (number next 1 b) (Hnext _).
have Hp : mtp_ok (mt32_par d id (ml_pos l) (ml_mata l) (ml_maskb l) (ml_maskc l)).
  rewrite E1 E2; apply: (@par_ok d id d64 d32 false) => //; move: P; clear; lia.
have Hmax : maximal_period (mtg_A (mt32_par d id (ml_pos l) (ml_mata l) (ml_maskb l) (ml_maskc l))) by rewrite E1 E2; exact: Hm.
split=> //.
- by rewrite E1.
- rewrite E2 /mt2_mata N.land_lor_distr_l -N.land_assoc.
  have -> : N.land 0xffff0000 0xffff = 0%num by []. rewrite N.land_0_r N.lor_0_l.
  by rewrite (N.land_ones _ 16) N.mod_small //; move: Hid; clear; lia.
- have := maximal_unit Hmax; rewrite mtg_unit //; cbn [mt32_par m_pos]; rewrite E1; move: P; clear; lia.
- by split=> //; rewrite E1 E2.
Qed.
