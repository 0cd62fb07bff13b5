(** The program MTGP32dc prints the first maximal recursion for each id. *)
From Coq Require Import NArith ZArith Lia List Bool.
From mathcomp Require Import all_ssreflect all_algebra.
From mathcomp Require Import zify.
From Verif Require Import Base WordLemmas WordVec UtilModel UtilSpec UtilProofs UtilProofs2 UtilProofs3 GenModel PolyF2 LinSpec LinLemmas LinInst PeriodSpec PeriodModel
  EquiModel EquiProofs5 EquiEx PeriodProofs4 PeriodProofs5 PeriodProofs7 MTSpec
  MersenneProofs SampleSpec SampleProofs TemperModel TemperSpec TemperProofs TemperEx RecTemperModel RecTemperSpec RecTemperProofs RecTotal TinyProofs
  ArrayModel ArrayWin ArrayLin MtgpModel MtgpLin MtgpProofs SearchModel Mt2Spec Mt2Proofs MtgpDcModel MtgpDcSpec.
Set Implicit Arguments.
Unset Strict Implicit.
Unset Printing Implicit Defensive.
Import GRing.Theory.
Local Open Scope ring_scope.
Delimit Scope Z_scope with coqZ.

(** * Tables *)
Lemma table_fill src : words4 src -> fill_table (List.repeat 0%num 16) src 16 = Ret (gpd_table src) /\ lin_table (gpd_table src).
Proof.
case=> Ls Hs; have Hk k : (2 ^ k < 16)%num -> (N.to_nat k < length src)%coq_nat.
  rewrite Ls => H; have : (k < 4)%num by apply/(N.pow_lt_mono_r_iff 2). clear; lia.
have [t [E [Lt V]]] := fill_table_ok (List.repeat 0%num 16) src 16 ltac:(lia) ltac:(lia) ltac:(by []) Hk.
have [t' [E' LT _]] := fill16 Ls Hs.
have Et : t' = gpd_table src; last by rewrite -Et.
have {E'} <- : t = t' by move: E'; rewrite E => -[].
rewrite List.repeat_length in Lt.
apply: (List.nth_ext _ _ 0%num 0%num); first by rewrite Lt /gpd_table List.map_length List.seq_length.
move=> i; rewrite Lt => Hi.
have R : List.nth_error (List.repeat 0%num 16) i = Some 0%num by apply: List.nth_error_repeat.
have := V _ _ R; have -> : (N.of_nat i <? 16)%num by move: Hi; clear; lia.
move/nth_of_error ->; rewrite N.lxor_0_l /gpd_table.
rewrite (List.nth_indep _ 0%num (select_xor (N.of_nat 0) src 0)); last by rewrite List.map_length List.seq_length.
by rewrite (List.map_nth (fun i => select_xor (N.of_nat i) src 0)) List.seq_nth.
Qed.
Lemma words4_make m q i tmp : (m < 2 ^ 32)%num -> words4 tmp -> words4 (gpd_make m q i tmp).
Proof.
move=> Hm [Ht H]; split=> // k.
have L a : (a < 2 ^ 32)%num -> (N.lor (N.ldiff a m) (N.land q m) < 2 ^ 32)%num.
  move=> Ha; apply: (lor_lt 32); last by rewrite N.land_comm; apply: (land_lt 32).
  by rewrite -TinyProofs.land_wnot //; apply: (land_lt 32).
rewrite /gpd_make; cbn [List.map List.seq].
by case: k => [|[|[|[|k]]]]; cbn [List.nth]; try (case: Nat.eqb_spec => _; [exact: L|exact: H]); case: k.
Qed.
Lemma make_over m q q' i tmp : gpd_make m q i (gpd_make m q' i tmp) = gpd_make m q i tmp.
Proof.
rewrite /gpd_make; cbn [List.map List.seq List.nth].
by case: i => [|[|[|[|i]]]]; cbn [Nat.eqb List.nth]; rewrite ?mask_over.
Qed.
Lemma zero4_ok : words4 zero4.
Proof. by split=> // [[|[|[|[|[|k]]]]]]. Qed.

Section Mtgp.
Variables (d : nat) (id imask : N).
Notation size := (d / 32 + 1)%nat.
Hypothesis d32 : Nat.modulo d 32 <> 0%N.
Hypothesis dmax : (N.of_nat d < 2 ^ 31)%num.
Hypothesis Hlast : (3 <= gp_last size)%coqZ.
Hypothesis Hid : (id < 2 ^ 32)%num.
Lemma size_pos : (0 < size)%N. Proof. clear; lia. Qed.
Lemma size_gt : (4 < size)%N.
Proof. have := last_bound size_pos; move: Hlast; clear; generalize (gp_last size); lia. Qed.
Lemma d64 : (64 <= d)%N.
Proof. have := size_gt; have := Nat.div_mod d 32; have := Nat.mod_upper_bound d 32; clear; generalize (Nat.div d 32) (Nat.modulo d 32); lia. Qed.
Lemma size_lt : (Z.of_nat size < 2 ^ 31)%coqZ.
Proof. have := Nat.div_mod d 32; have := Nat.mod_upper_bound d 32; move: dmax d64; clear; generalize (Nat.div d 32) (Nat.modulo d 32); lia. Qed.

Notation par := (gpd_par d id).
Record th : Type := { t_rev : bool; t_pos : nat; t_tbl : list N; t_tmp : list N;
  t_ok : [/\ (2 < t_pos < size)%N, words4 t_tbl & words4 t_tmp] }.
Definition tpar (t : th) : gpp := par (t_rev t) imask (t_pos t) (t_tbl t) (t_tmp t).
Lemma par_ok rev im pos tbl tmp : (1 < pos < size)%N -> words4 tbl -> words4 tmp -> gpp_ok (par rev im pos tbl tmp).
Proof.
move=> H1 H2 H3; have S2 := size_gt.
have R : (0 < size * 32 - d < 32)%N.
  move: d32; have := Nat.div_mod d 32; have := Nat.mod_upper_bound d 32; clear; lia.
have [_ T1] := table_fill H2; have [_ T2] := table_fill H3.
split; rewrite /gp_r; cbn [gpd_par gp_size gp_mexp gp_mask gp_pos gp_p gp_tp]; [|exact: R|exact: erefl|exact: H1|by split].
by split; [move: S2|move: R]; clear; generalize (Nat.div d 32); lia.
Qed.
Lemma tpar_ok t : gpp_ok (tpar t).
Proof. by case: (t_ok t) => H1 H2 H3; apply: par_ok => //; move: H1; clear; lia. Qed.
Definition ok (t : th) (g : gpu) : Prop := gpu_ok (tpar t) g.
Definition abs (t : th) (g : gpu) : 'rV['F_2]_d := gpu_vec (tpar t) g.
Definition A (t : th) : 'M['F_2]_d := gpu_A (tpar t).
Definition C (t : th) : nat -> 'cV['F_2]_d := gpu_C (tpar t).
Definition D (t : th) : nat -> 'cV['F_2]_d := gpu_D (tpar t).
Lemma A_rec rev im pos tbl tmp rev' im' tmp' : gpu_A (par rev im pos tbl tmp) = gpu_A (par rev' im' pos tbl tmp') :> 'M['F_2]_d.
Proof. exact: erefl. Qed.
Lemma C_rec rev im pos tbl tmp im' : gpu_C (par rev im pos tbl tmp) = gpu_C (par rev im' pos tbl tmp) :> (nat -> 'cV['F_2]_d).
Proof. exact: erefl. Qed.
(** Before the first setUpParam the recursion is not initialised. *)
Notation mask := (wshl 32 (wnot 32 0) (N.of_nat (size * 32 - d)%N)).
Definition legal (g : gpu) : Prop := exists rev pos sh1 sh2 tbl p tmp,
  g.1 = GPP d size rev imask mask pos sh1 sh2 id tbl p tmp (gpd_table tmp) /\ words4 tmp.

Variables (B : Type) (next : B -> N * B).
Hypothesis Hnext : forall b, ((next b).1 < 2 ^ 32)%num.
Notation setUp := (gpd_setUp next).
Notation number := (number next).
Notation after := (after next).
Notation pos_ u := (gpd_pos d u).
Notation tbl_ u := (gpd_tbl id u).
Notation five := (five next).

Lemma pos_range u : (2 < pos_ u < size)%N.
Proof.
rewrite /gpd_pos; have := last_bound size_pos; have := Z.mod_pos_bound (Z.of_N u) (gp_last size - 2); move: Hlast; clear.
generalize (Z.of_N u mod (gp_last size - 2))%coqZ (gp_last size) (Nat.div d 32) => m l k; lia.
Qed.
Lemma entryE i u : (i < 4)%N -> tbl_entry i u = gpd_entry (N.of_nat i) u.
Proof. by move=> Hi; rewrite /tbl_entry /gpd_entry (_ : wshl 32 1 (N.of_nat i) = (2 ^ N.of_nat i)%num) //; case: i Hi => [|[|[|[|i]]]]. Qed.
Lemma idE : N.land (wshl 32 id 4) 0x000ffff0 = N.land (id * 16) 0x000ffff0.
Proof.
apply: N.bits_inj => j; rewrite !N.land_spec mid_bit (_ : (id * 16)%num = N.shiftl id 4); last by rewrite N.shiftl_mul_pow2.
case: (N.leb_spec 4 j) => H4; last by rewrite !andbF.
case: (N.ltb_spec j 20) => H20; last by rewrite !andbF.
rewrite wshl_spec N.shiftl_spec_high' //.
have -> : (j <? 32)%num by move: H20; clear; lia.
by have -> : (4 <=? j)%num by move: H4; clear; lia.
Qed.
Lemma tbl_ok u : (forall k, u k < 2 ^ 32)%num -> words4 (tbl_ u).
Proof.
move=> Hu; have E i : (i < 4)%N -> (gpd_entry (N.of_nat i) (u i.+1) < 2 ^ 32)%num by move=> Hi; rewrite -entryE //; exact: tbl_entry_lt.
split=> // k; rewrite /gpd_tbl; case: k => [|[|[|[|k]]]]; cbn [List.nth].
- exact: (E 0%N).
- exact: (E 1%N).
- by apply: (lxor_lt 32); [rewrite N.land_comm|rewrite N.land_comm]; apply: (land_lt 32).
- by apply: (lxor_lt 32); rewrite N.land_comm; apply: (land_lt 32).
- by case: k.
Qed.
Lemma setUpE (u : nat -> N) rev pos sh1 sh2 tbl p tmp s : (forall k, u k < 2 ^ 32)%num ->
  gpu_setUpParam (u 0%N) (u 1%N) (u 2%N) (u 3%N) (u 4%N) (GPP d size rev imask mask pos sh1 sh2 id tbl p tmp (gpd_table tmp), s) =
  Ret (par rev imask (pos_ (u 0%N)) (tbl_ u) tmp, s).
Proof.
move=> Hu; have LB := last_bound size_pos; have SL := size_lt.
rewrite /gpu_setUpParam; cbn [gp_size gp_id gp_mexp gp_rev gp_imask gp_mask gp_tmp gp_tp].
rewrite pos_choice; [|exact: size_pos|exact: size_lt].
have IL : int_ok (gp_last size) by apply/andP; split; move: Hlast LB SL; clear; generalize (gp_last size) (Z.of_nat size); lia.
have FT : (gp_last size - 3 + 1 < 2 ^ 31)%coqZ by move: Hlast LB SL; clear; generalize (gp_last size) (Z.of_nat size); lia.
rewrite (get_range_val (u 0%N) 3 (gp_last size) erefl IL Hlast FT); cbn [bind].
rewrite !entryE // idE; have [FE _] := table_fill (tbl_ok Hu).
change [:: _; _; _; _] with (tbl_ u); rewrite FE; cbn [bind].
rewrite /gpd_par /gpd_pos; do 3 f_equal.
by have -> : (gp_last size - 3 + 1 = gp_last size - 2)%coqZ by clear; lia.
Qed.
Lemma drawE b : draw next 5 b = ([:: five 0 b 0; five 0 b 1; five 0 b 2; five 0 b 3; five 0 b 4], after 5 b).
Proof.
rewrite /draw /MtgpDcSpec.five /Mt2Spec.number /Mt2Spec.after /=; case: (next b) => x b1 /=; case: (next b1) => x2 b2 /=.
by case: (next b2) => x3 b3 /=; case: (next b3) => x4 b4 /=; case: (next b4).
Qed.
Lemma five_lt k b j : (five k b j < 2 ^ 32)%num.
Proof. exact: Hnext. Qed.
Definition thof (rev : bool) (u : nat -> N) tmp (Hu : forall k, (u k < 2 ^ 32)%num) (Ht : words4 tmp) : th :=
  {| t_rev := rev; t_pos := pos_ (u 0%N); t_tbl := tbl_ u; t_tmp := tmp; t_ok := And3 (pos_range (u 0%N)) (tbl_ok Hu) Ht |}.
Lemma setUp_ok g x : legal g -> exists rev tmp (Ht : words4 tmp),
  let t := thof rev (five_lt 0 x) Ht in
  [/\ gp_tmp g.1 = tmp, setUp g x = Ret ((tpar t, g.2), after 5 x) & ok t (gpu_seed 1 (tpar t, g.2))].
Proof.
case: g => q s [rev [pos [sh1 [sh2 [tbl [p [tmp [/= -> Ht]]]]]]]].
exists rev, tmp, Ht; set t := thof _ _ _; split=> //.
- by rewrite /gpd_setUp drawE; cbn [List.nth]; rewrite (@setUpE (five 0 x)) //; exact: five_lt.
- by apply: gpu_seed_ok => //; move: size_gt; clear; cbn [tpar gpd_par gp_size]; lia.
Qed.
Lemma gpd_family : family gpu_ops ok abs A C D legal setUp 1.
Proof.
split.
- move=> t; exact: (gpu_lin (tpar_ok t)).
- move=> t; exact: (gpu_linout (tpar_ok t)).
- by move=> g [rev [pos [sh1 [sh2 [tbl [p [tmp [/= -> _]]]]]]]].
- move=> t g [E _]; case: (t_ok t) => _ _ Ht.
  exists (t_rev t), (t_pos t), 13%num, 4%num, (t_tbl t), (gpd_table (t_tbl t)), (t_tmp t); split=> //; exact: E.
- move=> g x g' x' Hl E; have [rev [tmp [Ht [_ Es Ho]]]] := setUp_ok x Hl.
  eexists; move: E; rewrite Es => H; have := f_equal (fun z : res (gpu * B) => match z with Ret y => y.1 | _ => g end) H; cbn [fst] => <-.
  exact: Ho.
- by [].
Qed.
Lemma setUp_total r b : legal r -> exists s b', setUp r b = Ret (s, b').
Proof. by move=> /(setUp_ok b) [rev [tmp [Ht [_ -> _]]]]; eexists; eexists. Qed.

(** * Maximal recursions pass the test *)
Lemma seed_neq0 t s : abs t (gpu_seed 1 (tpar t, s)) != 0.
Proof.
have Hp := tpar_ok t; have S2 := size_gt.
have ok1 : ok t (gpu_seed 1 (tpar t, s)) by apply: gpu_seed_ok => //; move: S2; clear; cbn [tpar gpd_par gp_size]; lia.
apply/eqP => /(ag_vec_zero (gpu_ag Hp) ok1) [_ /(_ 1%N)].
have -> : (0 < 1 < gp_size (tpar t))%N by move: S2; clear; cbn [tpar gpd_par gp_size]; lia.
move=> /(_ isT); rewrite /ar_win /win; cbn [gpu_seed fst snd rr_idx rr_arr tpar gpd_par gp_size].
move: S2; clear; case: (size) => [|[|[|k]]] // _.
have -> : Nat.modulo (k.+3 - 1 + 1 + 1) k.+3 = 1%N by symmetry; apply: (Nat.mod_unique _ _ 1); lia.
by [].
Qed.
Lemma win_last (s : rr) : (rr_idx s < size)%N -> List.nth (rr_idx s) (rr_arr s) 0%num = win size s (size - 1).
Proof.
move=> Hi; have S2 := size_gt; rewrite /win; f_equal.
have -> : (Nat.add (Nat.add (rr_idx s) 1) (size - 1)%N) = Nat.add (rr_idx s) (Nat.mul 1 size) by move: S2; clear; lia.
by rewrite Nat.mod_add; [rewrite Nat.mod_small //; move: Hi|move: S2]; clear; lia.
Qed.
Lemma low_bit t x : maximal_period (A t) -> x != 0 -> exists i, out_seq (A t) (D t) x 0 i != 0.
Proof.
move=> Hm x0; have Hp := tpar_ok t; have S2 := size_gt; have [P _ _] := t_ok t.
pose f k : N := if (k == size - 1)%N then 1%num else 0%num.
pose y := gwin_state (tpar t) f.
have oky : ok t y by apply: gwin_ok => // k; rewrite /f; case: eqP.
have wy k : (k < size)%N -> gpu_win (tpar t) y k = f k by move=> Hk; apply: gwinE.
have y0 : abs t y != 0.
  apply/eqP => /(ag_vec_zero (gpu_ag Hp) oky) [_ /(_ (size - 1)%N)].
  have -> : (0 < size - 1 < gp_size (tpar t))%N by move: S2; clear; cbn [tpar gpd_par gp_size]; lia.
  move=> /(_ isT); rewrite -/(gpu_win (tpar t) y _) wy; last by move: S2; clear; lia.
  by rewrite /f eqxx.
have [_ EP _] := Hm _ y0.
have N2 : (2 ^ 1 <= 2 ^ d)%N by rewrite leq_exp2l //; move: d64; clear; lia.
have EN : (2 ^ d - 1 = (2 ^ d - 2).+1)%N by move: N2; rewrite expn1; clear; generalize (2 ^ d)%N; lia.
pose s := run gpu_ops (2 ^ d - 2)%N y.
have oks : ok t s by apply: (PeriodProofs4.run_ok (fam_gen gpd_family t)).
pose g := gpu_next_state s.
have okg : ok t g by exact: (lin_generate_ok (fam_gen gpd_family t) oks).
have Eg : abs t g = abs t y.
  have : abs t (run gpu_ops (2 ^ d - 2).+1 y) = abs t y by rewrite (PeriodProofs4.run_abs (fam_gen gpd_family t) _ oky) -EN.
  by [].
have [_ W] := proj1 (gpu_state Hp okg oky) Eg.
have V1 : gpu_win (tpar t) g (size - 1) = 1%num.
  rewrite W; last by move: S2; clear; cbn [tpar gpd_par gp_size]; lia.
  by rewrite wy; [rewrite /f eqxx|move: S2; clear; lia].
have V2 : gpu_win (tpar t) g (t_pos t - 2) = 0%num.
  rewrite W; last by move: P; clear; cbn [tpar gpd_par gp_size]; lia.
  rewrite wy; last by move: P; clear; lia.
  by rewrite /f; case: eqP => // E; move: E P; clear; lia.
have E1 : (g_generate gpu_ops s).1 = 1%num.
  have -> : (g_generate gpu_ops s).1 = gpu_temper g by [].
  move: okg V1 V2; case: (g) => p rr [E [Hi _]] V1 V2; cbn [fst snd] in E, Hi; subst p; rewrite /gpu_temper.
  have Hi' : (rr_idx rr < size)%N by apply/ltP.
  rewrite (win_last Hi').
  have -> : (rr_idx rr + gp_pos (tpar t) - 1)%coq_nat = (rr_idx rr + (t_pos t - 1))%coq_nat by move: P; clear; cbn [tpar gpd_par gp_pos]; lia.
  rewrite at_win; try exact: Hi; try by (move: P; clear; cbn [tpar gpd_par gp_size]; lia).
  have -> : ((t_pos t - 1)%N - 1)%coq_nat = (t_pos t - 2)%N by move: P; clear; lia.
  move: V1 V2; rewrite /gpu_win /ar_win; cbn [fst snd tpar gpd_par gp_size] => -> ->.
  have [_ _ Ht] := t_ok t; have [_ LT] := table_fill Ht.
  by have := tab0 LT; rewrite /tab; cbn [gp_tp tpar gpd_par] => ->.
have L := @gpu_linout _ Hp s 0%N oks erefl; rewrite E1 in L.
have s0 : abs t s != 0 by apply/eqP => Ez; move: L; rewrite [gpu_vec _ _]Ez mul0mx mxE.
have [i Ei] := st_onto (Hm _ x0) s0.
by exists i; rewrite /out_seq -Ei -L.
Qed.
Lemma good_maximal t s : ok t s -> abs t s != 0 -> (maximal_period (A t) -> good_seq (out_seq (A t) (D t) (abs t s) 0) d).
Proof.
move=> oks s0 Hm; apply: full_good; [by move: d64; clear; lia|exact: Hm|exact: low_bit].
Qed.

(** * The search for the tempering words *)
Variables (M : seq 'F_2 -> nat -> f2x) (Pos : N -> res Z) (efuel sfuel ffuel : nat) (veq0 : list Z).
Hypothesis HM : minpolyseq_spec M.
Hypothesis HPos : pos_spec 32 Pos.
Hypothesis Hef : ((4 * d + 2) * 33 <= efuel)%N.
Hypothesis Hsf : (23 < sfuel)%N.
Hypothesis Hveq : (32 <= length veq0)%N.
Notation defect := (tm_get_equidist gpu gpu_ops gpu_temper_ops Pos efuel veq0 32).
Definition cost (g : gpu) : Z := match defect g with Ret z => z | _ => 0%coqZ end.
Lemma defect_ok t g : ok t g ->
  [/\ defect g = Ret (cost g), (cost g <= Z.of_nat d * 32)%coqZ &
    exists dims, (forall u, (1 <= u <= 32)%N -> equidist_dim (A t) (C t) (abs t g) u (dims u)) /\ cost g = defects d 32 dims].
Proof.
move=> okg.
have F : ((4 * d + 2) * (N.to_nat (g_width gpu_ops)).+1 <= efuel)%N by [].
have V1 : (1 <= 32)%N by [].
have V2 : (N.of_nat 32 <= g_width gpu_ops)%num by [].
have [|dims [H1 [H2 H3]]] := equidist_ok (T := gpu_temper_ops) (fam_gen gpd_family t) _ HPos F V1 V2 Hveq okg.
  by move=> s1 ok1; apply: (fam_size gpd_family); apply: (fam_legal gpd_family) ok1.
rewrite /cost H3; split=> //.
- by have := @defect_of_le d 32 dims; clear; lia.
- by exists dims; split=> //; exact: defect_ofE.
Qed.
Lemma cost_total t g : ok t g -> maximal_period (A t) -> abs t g != 0 -> total_defect (A t) (C t) 32 (cost g).
Proof.
move=> okg Hm g0; have [_ _ [dims [H1 H2]]] := defect_ok okg.
exists dims; split; last exact: H2.
by move=> u x Hu x0; apply/(start_maximal (C t) u _ (Hm _ g0) x0); exact: H1.
Qed.
Notation mk := (fun m q i s => t_up gpu_temper_ops (t_set gpu_temper_ops m q i s)).
Lemma mkE m q i rev pos tbl tmp s : (m < 2 ^ 32)%num -> (i < 4)%N -> words4 tmp ->
  mk m q i (par rev imask pos tbl tmp, s) = (par rev imask pos tbl (gpd_make m q i tmp), s).
Proof.
move=> Hm Hi Ht.
have E : gpu_set m q i (par rev imask pos tbl tmp, s) =
  (GPP d size rev imask mask pos 13 4 id tbl (gpd_table tbl) (gpd_make m q i tmp) (gpd_table tmp), s).
  rewrite /gpu_set /gpu_setPattern /gpd_par; cbn [gp_tmp gp_mexp gp_size gp_rev gp_imask gp_mask gp_pos gp_sh1 gp_sh2 gp_id gp_tbl gp_p gp_tp].
  case: Ht => Lt Ht; case: tmp Lt Ht => [|a [|b [|c [|e [|]]]]] // _ Ht.
  have Ha := Ht 0%N; have Hb := Ht 1%N; have Hc := Ht 2%N; have He := Ht 3%N; cbn [List.nth] in Ha, Hb, Hc, He.
  by case: i Hi => [|[|[|[|i]]]] // _; cbn [List.nth_error upd gpd_make List.map List.seq List.nth Nat.eqb]; rewrite TinyProofs.land_wnot.
cbn [t_up t_set gpu_temper_ops]; rewrite E /gpu_up /gpu_setUpTempering; cbn [gp_tmp].
by have [-> _] := table_fill (words4_make q i Hm Ht).
Qed.
Section Fixed.
Variable t : th.
Definition near (g : gpu) : Prop := exists rev tmp, words4 tmp /\ gpu_ok (par rev imask (t_pos t) (t_tbl t) tmp) g.
Lemma near_ok g : near g -> exists t', [/\ ok t' g, A t' = A t, t_pos t' = t_pos t & t_tbl t' = t_tbl t].
Proof.
case=> rev [tmp [Ht H]]; have [H1 H2 _] := t_ok t.
by exists {| t_rev := rev; t_pos := t_pos t; t_tbl := t_tbl t; t_tmp := tmp; t_ok := And3 H1 H2 Ht |}.
Qed.
Lemma near_laws : temper_laws mk (fun g => Z.of_nat (g_bitSize gpu_ops g)) cost 32 4 near.
Proof.
split.
- move=> m q i [p s] Hm [rev [tmp [Ht [E Hs]]]] Hi; cbn [fst snd] in E, Hs; subst p.
  rewrite mkE //; last exact/ltP. by exists rev, (gpd_make m q i tmp); split; first exact: words4_make.
- move=> m q q' i [p s] Hm [rev [tmp [Ht [E Hs]]]] Hi; cbn [fst snd] in E, Hs; subst p.
  have Hi' : (i < 4)%N by apply/ltP.
  by rewrite !mkE // ?make_over //; exact: words4_make.
- move=> m q i [p s] Hm [rev [tmp [Ht [E Hs]]]] Hi; cbn [fst snd] in E, Hs; subst p.
  by rewrite mkE //; apply/ltP.
- move=> g Hg; have [t' [ok' _ _ _]] := near_ok Hg.
  have -> : g_bitSize gpu_ops g = d by apply: (fam_size gpd_family); apply: (fam_legal gpd_family) ok'.
  by have [] := defect_ok ok'.
Qed.
Lemma near_rev r g : near g -> near (gpu_setrev r g).
Proof. by case: g => p s [rev [tmp [Ht [E Hs]]]]; cbn [fst snd] in E, Hs; subst p; exists r, tmp. Qed.
Lemma tempered_words lsb steps rev tmp s s' : words4 tmp -> (forall p k i, List.In (p, k, i) steps -> (i < 4)%N) ->
  tempered mk cost 32 lsb steps (par rev imask (t_pos t) (t_tbl t) tmp, s) s' ->
  exists tmp', [/\ words4 tmp', s' = (par rev imask (t_pos t) (t_tbl t) tmp', s) &
    tempered gpd_make (fun tmp => cost (par rev imask (t_pos t) (t_tbl t) tmp, s)) 32 lsb steps tmp tmp'].
Proof.
move E : (par rev imask (t_pos t) (t_tbl t) tmp, s) => g Ht Hs H.
elim: H tmp E Ht Hs => {steps g s'} [g|p k i m q steps g s' Hm Lm Hq _ IH] tmp Eg Ht Hs.
  by exists tmp; split=> //; constructor.
have Hi : (i < 4)%N by apply: (Hs p k i); left.
move: Hq IH; rewrite -Eg mkE // => Hq IH.
have [//|||tmp' [H1 H2 H3]] := IH (gpd_make m q i tmp).
- exact: words4_make.
- by move=> p' k' i' H; apply: (Hs p' k' i'); right.
exists tmp'; split=> //; apply: (@tempered_cons _ _ _ _ _ _ _ _ m q _ _ _ Hm Lm _ H3).
by case: Hq => Hq1 Hq2; split=> // q' /Hq2; rewrite !mkE.
Qed.
Lemma steps4 try p k i : List.In (p, k, i) (step_list try 5 4) -> (i < 4)%N.
Proof. by move=> /List.in_flat_map [[p' k'] [_ /List.in_map_iff [j [[_ _ <-] /List.in_seq Hj]]]]; move: Hj; clear; lia. Qed.
Lemma temper_run (try : nat) lsb s : (try <= 23)%N -> ok t s -> exists tmp, [/\ words4 tmp,
  gpd_temper Pos efuel sfuel veq0 (Z.of_nat try) lsb s = Ret (0%coqZ, (par false imask (t_pos t) (t_tbl t) tmp, s.2)) &
  tempered gpd_make (fun tmp => cost (par lsb imask (t_pos t) (t_tbl t) tmp, s.2)) 32 lsb (step_list try 5 4) (t_tmp t) tmp].
Proof.
move=> Htry; case: s => p s [E Hs]; cbn [fst snd] in E, Hs; subst p; have [H1 H2 H3] := t_ok t.
have N0 : near (tpar t, s) by exists (t_rev t), (t_tmp t).
have HD g : near g -> defect g = Ret (cost g) by move=> /near_ok [t' [ok' _ _ _]]; have [] := defect_ok ok'.
have HR g : near g -> near (t_setRev gpu_temper_ops g) /\ near (t_resetRev gpu_temper_ops g) by move=> Hg; split; exact: near_rev.
have Hs1 : (1 <= 5)%coq_nat by clear; lia.
have Ht1 : (N.of_nat try <= 32)%num by move: Htry; clear; lia.
have H30 : (Nat.min 5 try <= 30)%coq_nat by clear; lia.
have Hf1 : (try < sfuel)%coq_nat by move: Htry Hsf; clear; lia.
have [s1 [E1 [_ T1]]] := @pbp_thm gpu gpu_temper_ops 32 count_bit32 (fun g => Z.of_nat (g_bitSize gpu_ops g)) defect cost 4 try 5 lsb near
  near_laws HD HR count_bit32_ok Hs1 Ht1 sfuel (tpar t, s) H30 Hf1 N0.
have ES : (if lsb then t_setRev gpu_temper_ops (tpar t, s) else t_resetRev gpu_temper_ops (tpar t, s)) = (par lsb imask (t_pos t) (t_tbl t) (t_tmp t), s).
  by case: (lsb).
rewrite ES in T1; have [tmp [W4 Es1 T2]] := tempered_words H3 (@steps4 try) T1.
by exists tmp; split=> //; rewrite Es1 in E1; exact: E1.
Qed.
End Fixed.
Lemma temper_total (try : nat) lsb t s : (try <= 23)%N -> ok t s -> exists d' s', gpd_temper Pos efuel sfuel veq0 (Z.of_nat try) lsb s = Ret (d', s').
Proof. by move=> Htry /(temper_run lsb Htry) [tmp [_ -> _]]; eexists; eexists. Qed.
Lemma temper_tempers (try : nat) lsb : (try <= 23)%N -> tempers ok A (gpd_temper Pos efuel sfuel veq0 (Z.of_nat try) lsb).
Proof.
move=> Htry s d' s' E t oks; have [tmp [Ht E' _]] := temper_run lsb Htry oks; have [H1 H2 _] := t_ok t.
move: E; rewrite E' => -[_ <-].
exists {| t_rev := false; t_pos := t_pos t; t_tbl := t_tbl t; t_tmp := tmp; t_ok := And3 H1 H2 Ht |}.
by case: oks => _ Hs.
Qed.
Lemma rev_same r s : same_recursion ok A s (gpu_setrev r s).
Proof.
move=> t oks; have [H1 H2 H3] := t_ok t; case: s oks => p s [E Hs]; cbn [fst snd] in E, Hs; subst p.
by exists {| t_rev := r; t_pos := t_pos t; t_tbl := t_tbl t; t_tmp := t_tmp t; t_ok := And3 H1 H2 H3 |}.
Qed.

(** * The program *)
Hypothesis dprime : prime (2 ^ d - 1).
Notation bad := (fun t s => ~ good_seq (out_seq (A t) (D t) (abs t s) 0) d).
Lemma specA t (u : nat -> N) rev tmp : t_pos t = pos_ (u 0%N) -> t_tbl t = tbl_ u -> A t = gpu_A (gpd_gen d id u rev tmp).
Proof. by case: t => rv p tb tm H; cbn [t_pos t_tbl] => E1 E2; subst p tb. Qed.
Lemma specC t (u : nat -> N) : t_pos t = pos_ (u 0%N) -> t_tbl t = tbl_ u -> C t = gpu_C (gpd_gen d id u (t_rev t) (t_tmp t)).
Proof. by case: t => rv p tb tm H; cbn [t_pos t_tbl] => E1 E2; subst p tb. Qed.
Lemma maxE t u : t_pos t = pos_ (u 0%N) -> t_tbl t = tbl_ u -> gpd_maximal d id u <-> maximal_period (A t).
Proof. by move=> E1 E2; rewrite /gpd_maximal (specA false zero4 E1 E2). Qed.
Lemma abs_rr t t' p p' s : abs t (p, s) = abs t' (p', s).
Proof. exact: erefl. Qed.
Lemma tpar_inj t t' : tpar t = tpar t' -> [/\ t_rev t = t_rev t', t_pos t = t_pos t', t_tbl t = t_tbl t' & t_tmp t = t_tmp t'].
Proof.
move=> E; split.
- exact: (f_equal gp_rev E).
- exact: (f_equal gp_pos E).
- exact: (f_equal gp_tbl E).
- exact: (f_equal gp_tmp E).
Qed.
Lemma legal_run t k s : ok t s -> legal (run gpu_ops k s).
Proof. by move=> oks; apply: (fam_legal gpd_family (th := t)); exact: (PeriodProofs4.run_ok (fam_gen gpd_family t)). Qed.
(** One trial. *)
Lemma trial_par r b s b1 : legal r -> setUp r b = Ret (s, b1) ->
  b1 = after 5 b /\ forall t, ok t (gpu_seed 1 s) ->
    [/\ t_pos t = pos_ (five 0 b 0%N), t_tbl t = tbl_ (five 0 b), t_tmp t = gp_tmp r.1 & gpu_seed 1 s = gpu_seed 1 (tpar t, s.2)].
Proof.
move=> Hl; have [rev [tmp [Ht [Etmp -> _]]]] := setUp_ok b Hl => E.
have Es := f_equal (fun z : res (gpu * B) => match z with Ret y => y.1 | _ => s end) E; cbn [fst] in Es.
have Eb := f_equal (fun z : res (gpu * B) => match z with Ret y => y.2 | _ => b end) E; cbn [snd] in Eb.
split; first by rewrite Eb.
rewrite -Es => t [Et _]; cbn [fst snd gpu_seed] in Et.
have [_ E1 E2 E3] := tpar_inj Et.
by split; [rewrite -E1|rewrite -E2|rewrite -E3 Etmp|cbn [fst snd gpu_seed]; rewrite -Et].
Qed.
Lemma five_after k b : five k (after 5 b) = five k.+1 b.
Proof. by rewrite /MtgpDcSpec.five after_after (_ : 5 * k + 5 = 5 * k.+1)%N //; clear; lia. Qed.
Lemma tried_barren k r b r' b' : legal r -> tried gpu_ops setUp 1 d ok bad k r b r' b' ->
  [/\ gpd_barren d id next k b, b' = after (5 * k) b & gp_tmp r'.1 = gp_tmp r.1].
Proof.
move=> Hl Ht; elim: Ht Hl => {k r b r' b'} [r b|k r b t s b1 r' b' E oks bad _ IH] Hl; first by split.
have [Eb /(_ _ oks) [E1 E2 E3 E4]] := trial_par Hl E.
have okr : ok t (run gpu_ops (2 * d) (gpu_seed 1 s)) by exact: (PeriodProofs4.run_ok (fam_gen gpd_family t)).
have [|IH1 -> ->] := IH; first exact: legal_run oks.
split.
- case=> [|j] Hj.
    by move=> /(maxE E1 E2) Hm; apply: bad; apply: good_maximal Hm; [exact: oks|cbn [g_seed gpu_ops]; rewrite E4; exact: seed_neq0].
  by have := IH1 j Hj; rewrite Eb five_after.
- by rewrite Eb after_after; congr Mt2Spec.after; clear; lia.
- by case: okr => Ep _; rewrite -E3; exact: (f_equal gp_tmp Ep).
Qed.
Lemma one_search verbose g b : legal g -> gp_tmp g.1 = zero4 ->
  (exists r, gpd_search next M Pos efuel sfuel ffuel veq0 verbose g b = Ret (true, r) /\
     gpd_first d id next b (gpd_lineof (rt_rand r) (rt_weight r) (rt_delta r))) \/
  gpd_search next M Pos efuel sfuel ffuel veq0 verbose g b = NoFuel /\ gpd_barren d id next (ffuel * (1000 * d)) b.
Proof.
move=> Hl Hz.
have F : ((4 * d + 2) * (N.to_nat (g_width gpu_ops)).+1 <= efuel)%N by [].
have d0 : (0 < d)%N by move: d64; clear; lia.
have Hd := mersenne_decides dprime.
have RS s : same_recursion ok A s (t_setRev gpu_temper_ops s) by exact: rev_same.
have RR s : same_recursion ok A s (t_resetRev gpu_temper_ops s) by exact: rev_same.
have T1 := @temper_tempers 23 false isT; have T2 := @temper_tempers 9 true isT.
case: (search_total gpd_family HM d0 HPos F Hveq setUp_total (T := gpu_temper_ops) (fun s => erefl s) ffuel (prim := MersennePrimitivity)
  (st1 := gpd_temper Pos efuel sfuel veq0 23 false) (st2 := gpd_temper Pos efuel sfuel veq0 9 true) true verbose (no_lsb := false) b Hd Hl T1 T2
  (fun t s oks => @temper_total 23 false t s isT oks) (fun t s oks _ => @temper_total 9 true t s isT oks) RS RR) =>
  [[r Er]|[En [r [b' Ht]]]]; last first.
  by right; split=> //; have [] := tried_barren Hl Ht.
left; have := search_thm gpd_family HM d0 HPos F Hveq (T := gpu_temper_ops) (fuel := ffuel) (prim := MersennePrimitivity)
  (st1 := gpd_temper Pos efuel sfuel veq0 23 false) (st2 := gpd_temper Pos efuel sfuel veq0 9 true)
  (lsb2 := true) (verbose := verbose) (no_lsb := false) Hd Hl T1 T2 RS RR (fun _ _ _ _ => erefl) Er.
move=> [_ [k [r0 [b0 [s [t [s2 [dd [t' [[Ht Es oks [d2 [s3 [E2 Es2]]] E1] [[ok' EA FP [_ Epoly] [_ Ew]] [dims [HD ED]]]]]]]]]]]]].
pose acc := run gpu_ops (2 * d) (gpu_seed 1 s).
have {}E2 : gpd_temper Pos efuel sfuel veq0 9 true acc = Ret (d2, s3) := E2.
have [Hb Eb0 Ez0] := tried_barren Hl Ht.
have Hl0 : legal r0 := tried_legal gpd_family Ht Hl.
have [Eb /(_ _ oks) [P1 P2 P3 P4]] := trial_par Hl0 Es.
exists r; split; first exact: Er.
have Hm : maximal_period (A t) by rewrite -EA.
have Ef : five 0 b0 = five k b by rewrite Eb0.
rewrite Ef in P1 P2.
exists k; split; [exact: Hb|exact/(maxE P1 P2)|].
have oka : ok t acc by exact: (PeriodProofs4.run_ok (fam_gen gpd_family t)).
have n0 : abs t acc != 0.
  rewrite [abs t acc](PeriodProofs4.run_abs (fam_gen gpd_family t) _ oks).
  by apply: (maximal_st _ d0 Hm); cbn [g_seed gpu_ops]; rewrite P4; exact: seed_neq0.
have [H1 H2 _] := t_ok t.
have [tmp1 [W1 Et1 Q1]] := @temper_run t 9 true acc isT oka.
have Er3 : s3 = (par false imask (t_pos t) (t_tbl t) tmp1, acc.2).
  have := etrans (esym E2) Et1 => EE.
  by have := f_equal (fun z : res (Z * gpu) => match z with Ret y => y.2 | _ => acc end) EE.
have {}Es2 : s2 = (par false imask (t_pos t) (t_tbl t) tmp1, acc.2).
  by rewrite Es2 Er3; case: (verbose).
pose t1 := {| t_rev := false; t_pos := t_pos t; t_tbl := t_tbl t; t_tmp := tmp1; t_ok := And3 H1 H2 W1 |}.
have ok1 : ok t1 s2 by rewrite Es2; case: oka.
have [tmp2 [W2 Et2 Q2]] := @temper_run t1 23 false s2 isT ok1.
have Er0 : rt_rand r = (par false imask (t_pos t) (t_tbl t) tmp2, acc.2).
  have := etrans (esym E1) Et2 => EE.
  by have := f_equal (fun z : res (Z * gpu) => match z with Ret y => y.2 | _ => acc end) EE; cbn [snd] => ->; rewrite Es2.
pose t2 := {| t_rev := false; t_pos := t_pos t; t_tbl := t_tbl t; t_tmp := tmp2; t_ok := And3 H1 H2 W2 |}.
have Ep : tpar t' = tpar t2 by case: ok' => <- _; rewrite Er0.
have [R1 R2 R3 R4] := tpar_inj Ep; cbn [t2 t_rev t_pos t_tbl t_tmp] in R1, R2, R3, R4.
have n0' : abs t' (rt_rand r) != 0.
  by rewrite Er0 (abs_rr t' t _ acc.1); case: (acc) n0.
have TD : total_defect (A t') (C t') 32 (rt_delta r).
  exists dims; split; last exact: ED.
  by move=> v x Hv x0; apply/(start_maximal (C t') v _ (FP _ n0') x0); exact: HD.
have Q1' : t_pos t' = pos_ (five k b 0%N) by rewrite R2.
have Q2' : t_tbl t' = tbl_ (five k b) by rewrite R3.
split.
- by rewrite /gpd_lineof Er0.
- by rewrite /gpd_lineof Er0 -P1 -P2.
- by rewrite -(specA false zero4 Q1' Q2'); cbn [gl_weight gpd_lineof]; rewrite Ew Epoly.
- cbn [gl_tmp gl_delta gpd_lineof]; rewrite Er0; cbn [fst gpd_par gp_tmp].
  by move: TD; rewrite (specA false tmp2 Q1' Q2') (specC Q1' Q2') R1 R4.
- exists (fun rev tmp => cost (par rev imask (t_pos t) (t_tbl t) tmp, acc.2)), tmp1; split; last split.
  + move=> rev tmp W; pose t3 := {| t_rev := rev; t_pos := t_pos t; t_tbl := t_tbl t; t_tmp := tmp; t_ok := And3 H1 H2 W |}.
    have ok3 : ok t3 (par rev imask (t_pos t) (t_tbl t) tmp, acc.2) by case: oka.
    have := @cost_total t3 _ ok3 Hm.
    have n3 : abs t3 (par rev imask (t_pos t) (t_tbl t) tmp, acc.2) != 0 by rewrite (abs_rr t3 t _ acc.1); case: (acc) n0.
    by move=> /(_ n3); rewrite (specA (t := t3) rev tmp P1 P2) (specC (t := t3) P1 P2).
  + by move: Q1; rewrite P3 Ez0 Hz.
  + by rewrite /gpd_lineof Er0; move: Q2; rewrite Es2.
Qed.
End Mtgp.

Section Main.
Variables (d : nat).
Hypothesis d32 : Nat.modulo d 32 <> 0%N.
Hypothesis dmax : (N.of_nat d < 2 ^ 31)%num.
Hypothesis Hlast : (3 <= gp_last (d / 32 + 1)%nat)%coqZ.
Variables (B : Type) (next : B -> N * B).
Hypothesis Hnext : forall b, ((next b).1 < 2 ^ 32)%num.
Variables (M : seq 'F_2 -> nat -> f2x) (Pos : N -> res Z) (efuel sfuel ffuel : nat) (veq0 : list Z).
Hypothesis HM : minpolyseq_spec M.
Hypothesis HPos : pos_spec 32 Pos.
Hypothesis Hef : ((4 * d + 2) * 33 <= efuel)%N.
Hypothesis Hsf : (23 < sfuel)%N.
Hypothesis Hveq : (32 <= length veq0)%N.
Hypothesis dprime : prime (2 ^ d - 1).
Lemma indexed_spec id j verbose b : (id < 2 ^ 32)%num ->
  (exists l, gpd_indexed next M Pos efuel sfuel ffuel veq0 d id j verbose b = Ret (Some l) /\ gpd_first d id next b l) \/
  gpd_indexed next M Pos efuel sfuel ffuel veq0 d id j verbose b = NoFuel /\ gpd_barren d id next (ffuel * (1000 * d)) b.
Proof.
move=> Hid; rewrite /gpd_indexed /gpu_new.
have -> : (32 <=? (d / 32 + 1) * 32 - d)%nat = false.
  move: d32; have := Nat.div_mod d 32; have := Nat.mod_upper_bound d 32; clear.
  by move=> *; apply/Nat.leb_gt; lia.
cbn [bind]; set g := gpu_seed _ _.
have Hl : legal d id (gj_imask j) g.
  exists false, (gj_pos j), (gj_sh1 j), (gj_sh2 j), (List.repeat 0%num 4), (List.repeat 0%num 16), zero4; split; last exact: zero4_ok.
  by have -> : gpd_table zero4 = List.repeat 0%num 16 by vm_compute.
case: (one_search d32 dmax Hlast Hnext ffuel HM HPos Hef Hsf Hveq dprime verbose b Hl erefl) => [[r [-> H]]|[-> H]]; cbn [bind].
- by left; eexists; split; [reflexivity|exact: H].
- by right.
Qed.
Lemma loop_spec cnt id junk verbose b : (id < 2 ^ 32)%num ->
  let out := gpd_loop next M Pos efuel sfuel ffuel veq0 cnt d id junk verbose b in
  (exists lines, [/\ out = Ret (lines, 0%coqZ), length lines = cnt &
     forall i l, List.nth_error lines i = Some l -> gpd_first d ((id + N.of_nat i) mod 2 ^ 32) next b l]) \/
  out = NoFuel /\ exists i, (i < cnt)%N /\ gpd_barren d ((id + N.of_nat i) mod 2 ^ 32) next (ffuel * (1000 * d)) b.
Proof.
move=> Hid; elim: cnt id junk Hid => [|c IH] id junk Hid; cbv zeta; cbn [gpd_loop].
  by left; exists nil; split=> // -[].
have E0 : ((id + N.of_nat 0) mod 2 ^ 32 = id)%num by rewrite N.add_0_r N.mod_small.
have ES i : ((wadd 32 id 1 + N.of_nat i) mod 2 ^ 32 = (id + N.of_nat i.+1) mod 2 ^ 32)%num.
  rewrite /wadd /trunc N.add_mod_idemp_l //; congr (_ mod _)%num; clear; lia.
case: (indexed_spec (junk 0%N) verbose b Hid) => [[l [-> H]]|[-> H]]; cbn [bind]; last first.
  by right; split=> //; exists 0%N; rewrite E0.
have Hid' : (wadd 32 id 1 < 2 ^ 32)%num by exact: trunc_lt.
have := IH (wadd 32 id 1) (fun i => junk i.+1) Hid'; cbv zeta.
case=> [[lines [-> HL HI]]|[-> [i [Hi Hb]]]]; cbn [bind]; last first.
  by right; split=> //; exists i.+1; split=> //; rewrite -ES.
left; exists (l :: lines); split=> //; first by rewrite /= HL.
case=> [|i] l'; cbn [List.nth_error]; first by move=> [<-]; rewrite E0.
by move=> /HI; rewrite ES.
Qed.
Lemma main_spec id junk verbose count b : (id < 2 ^ 32)%num ->
  let out := gpd_main next M Pos efuel sfuel ffuel veq0 d id junk verbose count b in
  (exists lines, [/\ out = Ret (lines, 0%coqZ), length lines = Z.to_nat count &
     forall i l, List.nth_error lines i = Some l -> gpd_first d ((id + N.of_nat i) mod 2 ^ 32) next b l]) \/
  out = NoFuel /\ exists i, (i < Z.to_nat count)%N /\ gpd_barren d ((id + N.of_nat i) mod 2 ^ 32) next (ffuel * (1000 * d)) b.
Proof. exact: loop_spec. Qed.
End Main.

(** What every line has. *)
Lemma first_line d id : Nat.modulo d 32 <> 0%N -> (3 <= gp_last (d / 32 + 1)%nat)%coqZ -> (id < 2 ^ 32)%num ->
  forall B (next : B -> N * B), (forall b, ((next b).1 < 2 ^ 32)%num) ->
  forall b l, gpd_first d id next b l ->
  [/\ gl_id l = id, (3 <= Z.of_nat (gl_pos l) <= gp_last (d / 32 + 1)%nat)%coqZ,
      N.lor (N.land (N.shiftr (List.nth 2 (gl_tbl l) 0%num) 4) 0xffff) (N.land (List.nth 3 (gl_tbl l) 0%num) 0xffff0000) = id &
      let p := gpd_par d id false 0 (gl_pos l) (gl_tbl l) (gl_tmp l) in
      [/\ gpp_ok p, maximal_period (gpu_A p) & total_defect (gpu_A p) (gpu_C p) 32 (gl_delta l)]].
Proof.
move=> d32 Hlast Hid B next Hnext b l [k [_ Hm [[E0 W4] [E1 E2] _ Ht _]]].
have Hu j : (five next k b j < 2 ^ 32)%num by exact: Hnext.
have P := pos_range Hlast (five next k b 0%N); have T := @tbl_ok id _ Hu.
split=> //.
- rewrite E1 /gpd_pos; have := Z.mod_pos_bound (Z.of_N (five next k b 0%N)) (gp_last (d / 32 + 1)%nat - 2); move: Hlast; clear.
  generalize (Z.of_N (five next k b 0%N) mod (gp_last (d / 32 + 1)%nat - 2))%coqZ (gp_last (d / 32 + 1)%nat) => m g; lia.
- rewrite E2; cbn [gpd_tbl List.nth]; rewrite -(idE id); exact: (id_back _ _ Hid).
- rewrite E1 E2; split; [|exact: Hm|exact: Ht].
  by apply: (@par_ok d id) => //; move: P; clear; lia.
Qed.
Lemma lines_distinct d id : Nat.modulo d 32 <> 0%N -> (3 <= gp_last (d / 32 + 1)%nat)%coqZ ->
  forall B (next : B -> N * B), (forall b, ((next b).1 < 2 ^ 32)%num) ->
  forall b lines, (forall i l, List.nth_error lines i = Some l -> gpd_first d ((id + N.of_nat i) mod 2 ^ 32) next b l) ->
  forall i j li lj, (i < j)%N -> (N.of_nat j < 2 ^ 32)%num -> List.nth_error lines i = Some li -> List.nth_error lines j = Some lj ->
  gl_tbl li <> gl_tbl lj.
Proof.
move=> d32 Hlast B next Hnext b lines HL i j li lj Hij Hj /HL Fi /HL Fj E.
have L k : ((id + N.of_nat k) mod 2 ^ 32 < 2 ^ 32)%num by apply: N.mod_lt.
have [_ _ Ei _] := first_line d32 Hlast (L i) Hnext Fi; have [_ _ Ej _] := first_line d32 Hlast (L j) Hnext Fj.
move: Ei Ej; rewrite E => -> {E Fi Fj HL} E; move: E Hij Hj; clear => E Hij Hj.
have := N.div_mod (id + N.of_nat i) (2 ^ 32); have := N.div_mod (id + N.of_nat j) (2 ^ 32); rewrite E.
generalize ((id + N.of_nat i) / 2 ^ 32)%num ((id + N.of_nat j) / 2 ^ 32)%num ((id + N.of_nat j) mod 2 ^ 32)%num => x y z.
have -> : (2 ^ 32 = 4294967296)%num by [].
move: Hj; have -> : (2 ^ 32 = 4294967296)%num by [].
move=> Hj A B; have {}A := A ltac:(lia); have {}B := B ltac:(lia); nia.
Qed.
