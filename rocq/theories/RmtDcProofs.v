(** The lines printed by rmt64dc. *)
From Coq Require Import NArith ZArith Lia List Bool.
From mathcomp Require Import all_ssreflect all_algebra.
From mathcomp Require Import zify.
From Verif Require Import Base WordLemmas WordVec UtilModel UtilSpec UtilProofs GenModel PolyF2 PolyAct LinSpec LinLemmas LinInst PeriodSpec PeriodModel
  EquiModel EquiProofs5 EquiEx PeriodProofs3 PeriodProofs4 PeriodProofs5 PeriodProofs7 MTSpec MTProofs2 ParityModel ParitySpec ParityProofs SearchLin
  MersenneProofs TemperModel TemperSpec TemperProofs RecTemperModel RecTemperSpec RecTemperProofs RedTemperModel RedTemperSpec RedTemperProofs
  ArrayModel ArrayWin ArrayLin ArrayOut RmtModel RmtLin RmtProofs RmtParity Mt2Spec Mt2Proofs RmtDcModel RmtDcSpec.
Set Implicit Arguments.
Unset Strict Implicit.
Unset Printing Implicit Defensive.
Import GRing.Theory.
Local Open Scope ring_scope.
Delimit Scope Z_scope with coqZ.

(** * Masks *)
Lemma land_wnot64 m a : (a < 2 ^ 64)%num -> N.land a (wnot 64 m) = N.ldiff a m.
Proof.
move=> Ha; apply: N.bits_inj => j; rewrite N.land_spec N.ldiff_spec.
case: (N.ltb_spec j 64) => Hj; first by rewrite wnot_spec.
by rewrite (bits_above 64 a).
Qed.
Lemma mask_over m q q' a : N.lor (N.ldiff (N.lor (N.ldiff a m) (N.land q' m)) m) (N.land q m) = N.lor (N.ldiff a m) (N.land q m).
Proof.
apply: N.bits_inj => j; rewrite !N.lor_spec !N.ldiff_spec !N.lor_spec !N.ldiff_spec !N.land_spec.
by case: (N.testbit a j) (N.testbit m j) (N.testbit q' j) (N.testbit q j) => [] [] [] [].
Qed.
Definition word2 (m : N * N) : Prop := (m.1 < 2 ^ 64)%num /\ (m.2 < 2 ^ 64)%num.
Lemma make_lt m q a : (m < 2 ^ 64)%num -> (a < 2 ^ 64)%num -> (N.lor (N.ldiff a m) (N.land q m) < 2 ^ 64)%num.
Proof.
move=> Hm Ha; apply: (lor_lt 64); last by rewrite N.land_comm; apply: (land_lt 64).
by rewrite -land_wnot64 //; apply: (land_lt 64).
Qed.
Lemma word2_make m q i w : (m < 2 ^ 64)%num -> word2 w -> word2 (rd_make m q i w).
Proof. by move=> Hm [H1 H2]; rewrite /rd_make; case: Nat.eqb_spec => _; split=> //; exact: make_lt. Qed.
Lemma make_over m q q' i w : rd_make m q i (rd_make m q' i w) = rd_make m q i w.
Proof. by case: w => a b; rewrite /rd_make; case: Nat.eqb_spec => _; cbn [fst snd]; rewrite mask_over. Qed.
Lemma cleanE k m : (m < 2 ^ 64)%num -> wshl 64 (wshr m k) k = (m / 2 ^ k * 2 ^ k)%num.
Proof.
move=> Hm; rewrite -N.shiftl_mul_pow2 -N.shiftr_div_pow2 /wshl /wshr /trunc N.mod_small //.
rewrite N.shiftl_mul_pow2 N.shiftr_div_pow2; apply: N.le_lt_trans Hm.
by rewrite N.mul_comm; apply: N.mul_div_le; apply: N.pow_nonzero.
Qed.
Lemma clean_temper p p' x : r_maskb p' = wshl 64 (wshr (r_maskb p) 17) 17 -> r_maskc p' = wshl 64 (wshr (r_maskc p) 37) 37 ->
  rmt_temper p' x = rmt_temper p x.
Proof.
have M k m y : N.land (wshl 64 y k) (wshl 64 (wshr m k) k) = N.land (wshl 64 y k) m.
  apply: N.bits_inj => i; rewrite !N.land_spec !wshl_spec.
  case: (N.ltb_spec i 64) => Hi //=; case: (N.leb_spec k i) => Hk //=; rewrite wshr_spec.
  by have -> : (i - k + k = i)%num by move: Hk; clear; lia.
by move=> E1 E2; rewrite /rmt_temper E1 E2 !M.
Qed.
Lemma comp_dim_ext n (A : 'M['F_2]_n) C C' f v k : (forall j, C j = C' j) -> comp_dim A C f v k -> comp_dim A C' f v k.
Proof.
move=> E; have H k' : comp_equidist A C f v k' <-> comp_equidist A C' f v k'.
  by split=> H y; have [x [Hx Hy]] := H y; exists x; split=> // i j Hi Hj; rewrite -(Hy i j Hi Hj) /obit E.
by move=> [H1 H2]; split=> [|k' /H]; [exact/H|exact: H2].
Qed.

(** * The numbers show the whole state *)
Lemma rmt_out_observable p : rmtp_ok p -> rmt_A p \in unitmx -> out_observable (rmt_A p) (rmt_D p) 64.
Proof.
move=> Hp UA x H; have [s Hs Es] := rmt_sur Hp x; have [s0 _ _] := Hp.
have Z : st (rmt_A p) 1 x = 0.
  apply: (rmt_observable Hp UA) => i j Hj.
  pose s1 := iter i (fun s => (rmt_generate s).2) s.
  have ok1 : rmt_ok p s1 by apply: (PeriodProofs4.run_ok (rmt_lin Hp)).
  have E1 : rmt_vec p s1 = st (rmt_A p) i x by rewrite -Es; apply: (PeriodProofs4.run_abs (rmt_lin Hp)).
  have O : (rmt_generate s1).1 = 0%num.
    apply: (@word_ext 64); [|by []|].
      by rewrite (rmt_generateE Hp ok1); apply: (rtemper_lt p); apply: (wf_lt (rF_wf Hp)); apply: (@ar_small rmtp p 64).
    move=> k Hk; have := @rmt_linout p Hp s1 (N.to_nat k) ok1; rewrite N2Nat.id => /(_ Hk).
    rewrite E1; have := H (N.to_nat k); rewrite N2Nat.id => /(_ Hk i); rewrite /out_seq => ->.
    by rewrite N.bits_0; case: (N.testbit _ _).
  have R : rF p (rmt_win p s1) = 0%num.
    move: O; rewrite (rmt_generateE Hp ok1); cbn [fst]; rewrite /rT.
    have lt : (rF p (rmt_win p s1) < 2 ^ 64)%num by apply: (wf_lt (rF_wf Hp)); apply: (@ar_small rmtp p 64).
    have [_ [J _]] := rtemper_bij p; move=> E; apply: (J _ _ lt); first by [].
    by rewrite E; have := rtemper_add p 0 0; rewrite !N.lxor_nilpotent.
  have ok2 : rmt_ok p (rmt_generate s1).2 by exact: (lin_generate_ok (rmt_lin Hp) ok1).
  have P0 : rmt_getParity (rmt_generate s1).2 = 0%num.
    rewrite (rmt_win_last Hp ok2) (rmt_generateE Hp ok1); cbn [snd].
    rewrite /rmt_win (ag_step_win (rmt_ag Hp) ok1); last by move: s0; clear; lia.
    by rewrite eqxx.
  have := rmt_Q_ok Hp ok2 Hj; rewrite P0 /msb N.bits_0 => Q0.
  have V : rmt_vec p (rmt_generate s1).2 = st (rmt_A p) i (st (rmt_A p) 1 x).
    rewrite (lin_generate_abs (rmt_lin Hp) ok1) E1 /st -iterD addn1; exact: erefl.
  by rewrite -V -Q0.
exact: (st_inj0 UA Z).
Qed.
Lemma ar_C_ext (P : Type) (p p' : P) w size r n O O' j : (forall a, O a = O' a) -> ar_C p w size r n O j = ar_C p' w size r n O' j :> 'cV['F_2]_n.
Proof. by move=> E; apply/matrixP => i k; rewrite !mxE /ar_ob E. Qed.

Section Rmt.
Variable d : nat.
Notation size := (d / 64 + 1)%nat.
Notation n := (size * 64)%N.
Hypothesis d64 : Nat.modulo d 64 <> 0%N.
Hypothesis dbig : (64 < d)%N.
Lemma size_pos : (0 < size)%N.
Proof. by rewrite addn1. Qed.
Lemma n_eq : (Nat.div d 64 * 64 + 64 = n)%N.
Proof. by clear; generalize (Nat.div d 64); lia. Qed.
Lemma n_lt : (d < n < d + 64)%N.
Proof.
have := n_eq; move: d64; have := Nat.div_mod d 64; have := Nat.mod_upper_bound d 64; clear.
move: (n) => m; generalize (Nat.div d 64) (Nat.modulo d 64); lia.
Qed.
Lemma n2d : (n < 2 * d)%N.
Proof. have := n_lt; move: dbig; clear; generalize n; lia. Qed.

Notation par := (RMTP d size).
Record th : Type := { t_rev : bool; t_pos : nat; t_mata : N; t_par : N; t_mb : N; t_mc : N;
  t_ok : [/\ (t_pos < size)%N, (t_mata < 2 ^ 64)%num & word2 (t_mb, t_mc)] }.
Definition tpar (t : th) : rmtp := par (t_rev t) (t_pos t) (t_mata t) (t_par t) (t_mb t) (t_mc t).
Lemma tpar_ok t : rmtp_ok (tpar t).
Proof. by case: (t_ok t) => H1 H2 [H3 H4]; split; [exact: size_pos|exact: H1|split]. Qed.
Definition ok (t : th) (g : rmt) : Prop := rmt_ok (tpar t) g.
Definition abs (t : th) (g : rmt) : 'rV['F_2]_n := rmt_vec (tpar t) g.
Definition A (t : th) : 'M['F_2]_n := rmt_A (tpar t).
Definition C (t : th) : nat -> 'cV['F_2]_n := rmt_C (tpar t).
Definition D (t : th) : nat -> 'cV['F_2]_n := rmt_D (tpar t).
Lemma A_rec rev pos mata rp mb mc rev' rp' mb' mc' :
  rmt_A (par rev pos mata rp mb mc) = rmt_A (par rev' pos mata rp' mb' mc') :> 'M['F_2]_n.
Proof. by apply/matrixP => i j; apply: etrans (mxE _ _ _ _) _; apply: etrans _ (esym (mxE _ _ _ _)). Qed.
Lemma C_rec rev pos mata rp mb mc rp' j : rmt_C (par rev pos mata rp mb mc) j = rmt_C (par rev pos mata rp' mb mc) j :> 'cV['F_2]_n.
Proof. by apply: ar_C_ext. Qed.
Lemma C_clean rev pos mata rp mb mc j : rmt_C (par rev pos mata rp (wshl 64 (wshr mb 17) 17) (wshl 64 (wshr mc 37) 37)) j =
  rmt_C (par rev pos mata rp mb mc) j :> 'cV['F_2]_n.
Proof. by apply: ar_C_ext => a; rewrite /rO /rT (@clean_temper (par rev pos mata rp mb mc)). Qed.
Lemma D_rec rev pos mata rp mb mc rev' rp' j : rmt_D (par rev pos mata rp mb mc) j = rmt_D (par rev' pos mata rp' mb mc) j :> 'cV['F_2]_n.
Proof. by apply: ar_C_ext. Qed.
Lemma abs_rr t t' p p' s : abs t (p, s) = abs t' (p', s).
Proof. exact: erefl. Qed.
(** Before the first setUpParam the recursion is not initialised. *)
Definition legal (g : rmt) : Prop := exists rev pos mata rp mb mc, g.1 = par rev pos mata rp mb mc /\ word2 (mb, mc).

Variables (B : Type) (next : B -> N * B).
Hypothesis Hnext : forall b, ((next b).1 < 2 ^ 64)%num.
Notation setUp := (rd_setUp next).
Notation number := (number next).
Notation after := (after next).
Notation pos_ := (rd_pos d).
Lemma pos_range u : (pos_ u < size)%N.
Proof.
rewrite /rd_pos; have := N.mod_lt u (N.of_nat size); have := size_pos; clear; generalize size => k; generalize (u mod N.of_nat k)%num; lia.
Qed.
Definition thof (rev : bool) (b : B) (rp mb mc : N) (Hm : word2 (mb, mc)) : th :=
  {| t_rev := rev; t_pos := pos_ (number 0 b); t_mata := number 1 b; t_par := rp; t_mb := mb; t_mc := mc;
     t_ok := And3 (pos_range (number 0 b)) (Hnext _) Hm |}.
Lemma setUp_ok g b : legal g -> exists rev rp (Hm : word2 (r_maskb g.1, r_maskc g.1)),
  let t := thof rev b rp Hm in setUp g b = Ret ((tpar t, g.2), after 2 b) /\ ok t (rmt_seed 1 (tpar t, g.2)).
Proof.
case: g => q s [rev [pos [mata [rp [mb [mc [/= -> Hm]]]]]]].
exists rev, rp, Hm; set t := thof _ _ _ _; split.
- by rewrite /rd_setUp /t /thof /tpar /Mt2Spec.number /Mt2Spec.after /=; case: (next b) => x b1 /=; case: (next b1) => x2 b2 /=.
- by apply: rmt_seed_ok => //; exact: tpar_ok.
Qed.
Lemma rd_family : family rmt_ops ok abs A C D legal setUp 1.
Proof.
split.
- move=> t; exact: (rmt_lin (tpar_ok t)).
- move=> t; exact: (rmt_linout (tpar_ok t)).
- by move=> g [rev [pos [mata [rp [mb [mc [/= -> _]]]]]]].
- move=> t g [E _]; case: (t_ok t) => _ _ Hm.
  exists (t_rev t), (t_pos t), (t_mata t), (t_par t), (t_mb t), (t_mc t); split=> //; exact: E.
- move=> g x g' x' Hl E; have [rev [rp [Hm [Es Ho]]]] := setUp_ok x Hl.
  eexists; move: E; rewrite Es => H; have := f_equal (fun z : res (rmt * B) => match z with Ret y => y.1 | _ => g end) H; cbn [fst] => <-.
  exact: Ho.
- by [].
Qed.
Lemma setUp_total r b : legal r -> exists r', setUp r b = Ret r' \/ setUp r b = Throw.
Proof. by move=> /(setUp_ok b) [rev [rp [Hm [-> _]]]]; eexists; left. Qed.
Lemma mexp_ok s : legal s -> p_getMexp rmt_par s = Z.of_nat d.
Proof. by move=> [rev [pos [mata [rp [mb [mc [E _]]]]]]]; rewrite /= E. Qed.
Definition setpar (t : th) (v : N) : th :=
  {| t_rev := t_rev t; t_pos := t_pos t; t_mata := t_mata t; t_par := v; t_mb := t_mb t; t_mc := t_mc t; t_ok := t_ok t |}.
Lemma setParity_ok t s v : ok t s -> (v < 2 ^ 64)%num -> ok (setpar t v) (rmt_setParity v s).
Proof.
case: s => p s [E [H1 [H2 H3]]] Hv; cbn [fst snd] in E, H1, H2, H3; subst p.
split; first by []. split; first exact: H1. split; first by cbn [rmt_setParity snd rr_arr]; rewrite put_len.
move=> j; cbn [rmt_setParity snd rr_arr]; rewrite nth_put; first by case: Nat.eqb_spec => _.
rewrite H2; cbn [tpar r_size]; have := Nat.mod_upper_bound (rr_idx s) size; have := size_pos; clear; generalize size => k; generalize (Nat.modulo (rr_idx s) k); lia.
Qed.
Lemma setp t s v : ok t s -> (v < 2 ^ g_width rmt_ops)%num -> exists2 t', ok t' (p_setParityValue rmt_par v s) & A t' = A t.
Proof. by move=> H Hv; exists (setpar t v); [exact: setParity_ok|]. Qed.
Lemma get_set t s v : ok t s -> rmt_getParity (rmt_setParity v s) = v.
Proof.
case: s => p s [E [H1 [H2 H3]]]; cbn [fst snd] in E, H1, H2, H3; subst p.
rewrite /rmt_getParity /rr_at; cbn [rmt_setParity fst snd rr_arr rr_idx r_size].
rewrite nth_put ?Nat.eqb_refl //; rewrite H2; cbn [tpar r_size]; have := Nat.mod_upper_bound (rr_idx s) size; have := size_pos; clear; generalize size => k; generalize (Nat.modulo (rr_idx s) k); lia.
Qed.
Lemma tpar_inj t t' : tpar t = tpar t' -> [/\ t_rev t = t_rev t', t_pos t = t_pos t', t_mata t = t_mata t' & [/\ t_par t = t_par t', t_mb t = t_mb t' & t_mc t = t_mc t']].
Proof.
move=> E; split; [exact: (f_equal r_rev E)|exact: (f_equal r_pos E)|exact: (f_equal r_mata E)|split].
- exact: (f_equal r_par E).
- exact: (f_equal r_maskb E).
- exact: (f_equal r_maskc E).
Qed.

(** * The search for the masks *)
Variables (M : seq 'F_2 -> nat -> f2x) (kernel : nat -> nat -> (nat -> nat -> bool) -> list (list bool))
  (Pos : N -> res Z) (junk : N) (efuel sfuel ffuel : nat) (veq0 : list Z).
Hypothesis HM : minpolyseq_spec M.
Hypothesis HK : kernel_spec kernel.
Hypothesis HPos : pos_spec 64 Pos.
Hypothesis Hef : ((4 * n + 2) * 65 <= efuel)%N.
Hypothesis Hsf : (63 < sfuel)%N.
Hypothesis Hveq : (64 <= length veq0)%N.
Notation defect := (tm_get_equidist rmt rmt_ops rmt_temper_ops Pos efuel veq0 64).
Definition cost (g : rmt) : Z := match defect g with Ret z => z | _ => 0%coqZ end.
Lemma defect_ok t g : ok t g ->
  [/\ defect g = Ret (cost g), (cost g <= Z.of_nat n * 64)%coqZ &
    exists dims, (forall u, (1 <= u <= 64)%N -> equidist_dim (A t) (C t) (abs t g) u (dims u)) /\ cost g = defects n 64 dims].
Proof.
clear d64 dbig HM HK Hsf M kernel junk sfuel ffuel.
move=> okg.
have F : ((4 * n + 2) * (N.to_nat (g_width rmt_ops)).+1 <= efuel)%N by [].
have V1 : (1 <= 64)%N by [].
have V2 : (N.of_nat 64 <= g_width rmt_ops)%num by [].
have [|dims [H1 [H2 H3]]] := equidist_ok (T := rmt_temper_ops) (fam_gen rd_family t) _ HPos F V1 V2 Hveq okg.
  by move=> s1 ok1; apply: (fam_size rd_family); apply: (fam_legal rd_family) ok1.
rewrite /cost H3; split=> //.
- have := @defect_of_le n 64 dims; clear; generalize n => m. move: (defect_of _ _ _) => z; lia.
- by exists dims; split=> //; exact: defect_ofE.
Qed.
Lemma cost_comp t g f : ok t g -> irreducible_poly f -> seq.size f = d.+1 -> abs t g != 0 -> abs t g *m poly_mx (A t) f = 0 ->
  exists dims, (forall v, (1 <= v <= 64)%N -> comp_dim (A t) (C t) f v (dims v)) /\ cost g = defects n 64 dims.
Proof.
move=> okg If sf g0 fg; have [_ _ [dims [H1 H2]]] := defect_ok okg.
exists dims; split=> // v Hv; have [H3 H4] := H1 v Hv.
rewrite -pact_mx in fg; have Hsp := comp_all If sf n2d g0 fg.
split; first by apply/(comp_span _ _ _ Hsp).
by move=> k' /(comp_span _ _ _ Hsp)/H4.
Qed.
Notation mk := (fun m q i s => t_up rmt_temper_ops (t_set rmt_temper_ops m q i s)).
Lemma mkE m q i rev pos mata rp w s : word2 w -> (i < 2)%N ->
  mk m q i (par rev pos mata rp w.1 w.2, s) = (par rev pos mata rp (rd_make m q i w).1 (rd_make m q i w).2, s).
Proof.
by case: w => a b [Ha Hb]; case: i => [|[|i]] // _; cbn [t_up t_set rmt_temper_ops rmt_set rd_make fst snd r_maskb r_maskc Nat.eqb] in *; rewrite land_wnot64.
Qed.
Section Fixed.
Variable t : th.
Notation parw rev w := (par rev (t_pos t) (t_mata t) (t_par t) w.1 w.2).
Definition near (g : rmt) : Prop := exists rev w, word2 w /\ rmt_ok (parw rev w) g.
Definition thw (rev : bool) (w : N * N) (H : word2 w) : th :=
  {| t_rev := rev; t_pos := t_pos t; t_mata := t_mata t; t_par := t_par t; t_mb := w.1; t_mc := w.2;
     t_ok := And3 (let: And3 H1 _ _ := t_ok t in H1) (let: And3 _ H2 _ := t_ok t in H2) H |}.
Lemma thw_A rev w H : A (@thw rev w H) = A t.
Proof. exact: A_rec. Qed.
Lemma near_ok g : near g -> exists rev w (H : word2 w), ok (thw rev H) g.
Proof. by case=> rev [w [H Hg]]; exists rev, w, H. Qed.
Lemma near_laws : temper_laws mk (fun g => Z.of_nat (g_bitSize rmt_ops g)) cost 64 2 near.
Proof.
split.
- move=> m q i [p s] Hm [rev [w [Hw [E Hs]]]] Hi; cbn [fst snd] in E, Hs; subst p.
  rewrite mkE //; last exact/ltP. by exists rev, (rd_make m q i w); split; first exact: word2_make.
- move=> m q q' i [p s] Hm [rev [w [Hw [E Hs]]]] Hi; cbn [fst snd] in E, Hs; subst p.
  have Hi' : (i < 2)%N by apply/ltP.
  by rewrite !mkE // ?make_over //; exact: word2_make.
- move=> m q i [p s] Hm [rev [w [Hw [E Hs]]]] Hi; cbn [fst snd] in E, Hs; subst p.
  by rewrite mkE //; apply/ltP.
- move=> g Hg; have [rev [w [Hw ok']]] := near_ok Hg.
  have -> : g_bitSize rmt_ops g = n by apply: (fam_size rd_family); apply: (fam_legal rd_family) ok'.
  by have [] := defect_ok ok'.
Qed.
Lemma near_rev r g : near g -> near (rmt_setrev r g).
Proof. by case: g => p s [rev [w [Hw [E Hs]]]]; cbn [fst snd] in E, Hs; subst p; exists r, w. Qed.
Lemma tempered_words lsb steps rev w s s' : word2 w -> (forall p k i, List.In (p, k, i) steps -> (i < 2)%N) ->
  tempered mk cost 64 lsb steps (parw rev w, s) s' ->
  exists w', [/\ word2 w', s' = (parw rev w', s) & tempered rd_make (fun w => cost (parw rev w, s)) 64 lsb steps w w'].
Proof.
move E : (parw rev w, s) => g Ht Hs H.
elim: H w E Ht Hs => {steps g s'} [g|p k i m q steps g s' Hm Lm Hq _ IH] w Eg Ht Hs.
  by exists w; split=> //; constructor.
have Hi : (i < 2)%N by apply: (Hs p k i); left.
move: Hq IH; rewrite -Eg mkE // => Hq IH.
have [//|||w' [H1 H2 H3]] := IH (rd_make m q i w).
- exact: word2_make.
- by move=> p' k' i' H; apply: (Hs p' k' i'); right.
exists w'; split=> //; apply: (@tempered_cons _ _ _ _ _ _ _ _ m q _ _ _ Hm Lm _ H3).
by case: Hq => Hq1 Hq2; split=> // q' /Hq2; rewrite !mkE.
Qed.
Lemma steps2 try p k i : List.In (p, k, i) (step_list try 6 2) -> (i < 2)%N.
Proof. by move=> /List.in_flat_map [[p' k'] [_ /List.in_map_iff [j [[_ _ <-] /List.in_seq Hj]]]]; move: Hj; clear; lia. Qed.
Lemma temper_run s : ok t s -> exists w, [/\ word2 w,
  rd_temper Pos efuel sfuel veq0 s = Ret (0%coqZ, (parw false w, s.2)) &
  tempered rd_make (fun w => cost (parw false w, s.2)) 64 false (step_list 63 6 2) (t_mb t, t_mc t) w].
Proof.
case: s => p s [E Hs]; cbn [fst snd] in E, Hs; subst p; have [H1 H2 H3] := t_ok t.
have N0 : near (tpar t, s) by exists (t_rev t), (t_mb t, t_mc t).
have HD g : near g -> defect g = Ret (cost g) by move=> /near_ok [rev [w [Hw ok']]]; have [] := defect_ok ok'.
have HR g : near g -> near (t_setRev rmt_temper_ops g) /\ near (t_resetRev rmt_temper_ops g) by move=> Hg; split; exact: near_rev.
have Hs1 : (1 <= 6)%coq_nat by clear; lia.
have Ht1 : (N.of_nat 63 <= 64)%num by clear; lia.
have H30 : (Nat.min 6 63 <= 30)%coq_nat by clear; lia.
have Hf1 : (63 < sfuel)%coq_nat by move: Hsf; clear; lia.
have [s1 [E1 [_ T1]]] := @pbp_thm rmt rmt_temper_ops 64 count_bit64 (fun g => Z.of_nat (g_bitSize rmt_ops g)) defect cost 2 63 6 false near
  near_laws HD HR count_bit64_ok Hs1 Ht1 sfuel (tpar t, s) H30 Hf1 N0.
have [w [Hw Es1 T2]] := tempered_words H3 (@steps2 63) T1.
by exists w; split=> //; rewrite Es1 in E1; exact: E1.
Qed.
End Fixed.
Lemma temper_keeps : keeps ok abs A (rd_temper Pos efuel sfuel veq0).
Proof.
move=> s d' s' E t oks; have [w [Hw E' _]] := temper_run oks.
move: E; rewrite E' => -[_ <-].
by exists (thw t false Hw); split; [case: oks|exact: thw_A|case: (s)].
Qed.
Lemma rev_same r s : same_state ok abs A s (rmt_setrev r s).
Proof.
move=> t oks; case: s oks => p s [E Hs]; cbn [fst snd] in E, Hs; subst p.
have [_ _ Hm] := t_ok t.
by exists (thw t r Hm); split; [|exact: thw_A|].
Qed.

(** * One search *)
Notation bad := (fun t s => forall q f, is_minpoly (out_seq (A t) (D t) (abs t s) 0) q -> ~ large_factor q f d).
Lemma trial_par r b s b1 : legal r -> setUp r b = Ret (s, b1) ->
  b1 = after 2 b /\ forall t, ok t (rmt_seed 1 s) ->
    [/\ t_pos t = pos_ (number 0 b), t_mata t = number 1 b, t_mb t = r_maskb r.1, t_mc t = r_maskc r.1 & rmt_seed 1 s = rmt_seed 1 (tpar t, s.2)].
Proof.
move=> Hl; have [rev [rp [Hm [-> _]]]] := setUp_ok b Hl => E.
have Es := f_equal (fun z : res (rmt * B) => match z with Ret y => y.1 | _ => s end) E; cbn [fst] in Es.
have Eb := f_equal (fun z : res (rmt * B) => match z with Ret y => y.2 | _ => b end) E; cbn [snd] in Eb.
split; first by rewrite Eb.
rewrite -Es => t [Et _]; cbn [fst snd rmt_seed] in Et.
have [_ E1 E2 [_ E3 E4]] := tpar_inj Et.
by split; [rewrite -E1|rewrite -E2|rewrite -E3|rewrite -E4|cbn [fst snd rmt_seed]; rewrite -Et].
Qed.
Lemma specA t u1 u2 b c : t_pos t = pos_ u1 -> t_mata t = u2 -> A t = rmt_A (rd_gen d u1 u2 b c).
Proof. by case: t => rv p m rp mb mc H; cbn [t_pos t_mata] => E1 E2; subst p m; exact: A_rec. Qed.
Lemma specD t u1 u2 j : t_pos t = pos_ u1 -> t_mata t = u2 -> D t j = rmt_D (rd_gen d u1 u2 (t_mb t) (t_mc t)) j.
Proof. by case: t => rv p m rp mb mc H; cbn [t_pos t_mata] => E1 E2; subst p m; exact: D_rec. Qed.
Lemma specC t u1 u2 j : t_rev t = false -> t_pos t = pos_ u1 -> t_mata t = u2 -> C t j = rmt_C (rd_gen d u1 u2 (t_mb t) (t_mc t)) j.
Proof. by case: t => rv p m rp mb mc H; cbn [t_rev t_pos t_mata] => E0 E1 E2; subst rv p m; exact: C_rec. Qed.
Lemma factorE t u1 u2 s f : t_pos t = pos_ u1 -> t_mata t = u2 ->
  rd_factor d u1 u2 (t_mb t) (t_mc t) f <-> exists2 mu, is_minpoly (out_seq (A t) (D t) (abs t (rmt_seed 1 (tpar t, s))) 0) mu & large_factor mu f d.
Proof.
move=> E1 E2; rewrite /rd_factor /out_seq (specA (t_mb t) (t_mc t) E1 E2) (specD 0 E1 E2).
by [].
Qed.
Lemma legal_run t k s : ok t s -> legal (run rmt_ops k s).
Proof. by move=> oks; apply: (fam_legal rd_family (th := t)); exact: (PeriodProofs4.run_ok (fam_gen rd_family t)). Qed.
Lemma tried_listing k r b r' b' c ls : legal r -> tried rmt_ops setUp 1 n ok bad k r b r' b' ->
  [/\ r_maskb r'.1 = r_maskb r.1, r_maskc r'.1 = r_maskc r.1, legal r' &
   rd_listing d next b' (r_maskb r'.1) (r_maskc r'.1) c.+1 ls -> rd_listing d next b (r_maskb r.1) (r_maskc r.1) c.+1 ls].
Proof.
move=> Hl Ht; elim: Ht Hl => {k r b r' b'} [r b|k r b t s b1 r' b' E oks bad _ IH] Hl; first by split.
have [Eb /(_ _ oks) [E1 E2 E3 E4 E5]] := trial_par Hl E.
have okr : ok t (run rmt_ops (2 * n) (rmt_seed 1 s)) by exact: (PeriodProofs4.run_ok (fam_gen rd_family t)).
have [|IH1 IH2 IH3 IH4] := IH; first exact: legal_run oks.
have Em : r_maskb (run rmt_ops (2 * n) (rmt_seed 1 s)).1 = r_maskb r.1 /\ r_maskc (run rmt_ops (2 * n) (rmt_seed 1 s)).1 = r_maskc r.1.
  by case: okr => -> _; rewrite -E3 -E4.
have {}IH1 : r_maskb r'.1 = r_maskb r.1 by rewrite IH1; case: Em.
have {}IH2 : r_maskc r'.1 = r_maskc r.1 by rewrite IH2; case: Em.
split=> // L; have := IH4 L; rewrite Eb [r_maskb _](Em.1) [r_maskc _](Em.2) => L2.
apply: rd_skip L2 => f; rewrite -E3 -E4 => /(factorE s.2 f E1 E2) [mu Hmu HL].
by move: bad; cbn [g_seed rmt_ops]; rewrite E5 => /(_ mu f Hmu).
Qed.
(** The same words under other parameters with the same recursion. *)
Lemma move_par p p' s : r_size p' = r_size p -> r_pos p' = r_pos p -> r_mata p' = r_mata p -> forall k,
  (iter k (fun s => (rmt_generate s).2) (p', s)).2 = (iter k (fun s => (rmt_generate s).2) (p, s)).2.
Proof.
move=> E1 E2 E3; have F q k : (iter k (fun s => (rmt_generate s).2) (q, s)).1 = q.
  by elim: k => [//|k IH]; rewrite iterS; case: (iter k _ _) IH => q' s' /= ->.
elim=> [//|k IH]; rewrite !iterS.
case: (iter k _ (p', s)) (F p' k) IH => q1 s1 /= -> ; case: (iter k _ (p, s)) (F p k) => q2 s2 /= -> ->.
by rewrite E1 E2 E3.
Qed.
Lemma cert_move t u1 u2 v : t_pos t = pos_ u1 -> t_mata t = u2 ->
  (forall s, ok t s -> inner 64 v (rmt_getParity s) = 1 -> forall k, abs t (run rmt_ops k s) = abs t s -> (2 ^ d - 1 %| k)%N) ->
  rd_certificate d u1 u2 v.
Proof.
rewrite /rd_certificate; cbv zeta; move=> E1 E2 H; case=> p s; case=> E Hs Hi k; cbn [fst snd] in E, Hs; subst p => Hk.
have ok0 : ok t (tpar t, s) by [].
have Hi0 : inner 64 v (rmt_getParity (tpar t, s)) = 1 by exact: Hi.
apply: (H _ ok0 Hi0).
move: Hk; rewrite -E2 /rd_gen -E1 => Hk.
apply: etrans _ Hk.
have -> : run rmt_ops k (tpar t, s) = ((run rmt_ops k (tpar t, s)).1, (run rmt_ops k (tpar t, s)).2) by case: (run _ _ _).
set q := RMTP _ _ _ _ _ _ _ _.
have -> : iter k (fun s => (rmt_generate s).2) (q, s) = ((iter k (fun s => (rmt_generate s).2) (q, s)).1, (iter k (fun s => (rmt_generate s).2) (q, s)).2) by case: (iter k _ _).
by rewrite (@move_par q (tpar t) s erefl erefl erefl k).
Qed.
Lemma alive_move t t1 s : t_pos t1 = t_pos t -> t_mata t1 = t_mata t -> ok t1 s ->
  ok t (tpar t, s.2) /\ (abs t (tpar t, s.2) = abs t1 s /\ rmt_getParity (tpar t, s.2) = rmt_getParity s).
Proof. by case: s => p s _ _ [E Hs]; cbn [fst snd] in E, Hs; subst p. Qed.
Lemma mask_eff g : legal g -> legal (rmt_getParamString_effect g).
Proof.
case: g => p s [rev [pos [mata [rp [mb [mc [E [H1 H2]]]]]]]]; cbn [fst snd] in E, H1, H2; subst p.
exists rev, pos, mata, rp, (wshl 64 (wshr mb 17) 17), (wshl 64 (wshr mc 37) 37); split=> //; split; exact: wshl_lt.
Qed.
Lemma one_search g b found r : prime (2 ^ d - 1) -> legal g ->
  rd_search next M kernel Pos junk efuel sfuel ffuel veq0 g b = Ret (found, r) ->
  [/\ found = true, legal (rrt_rand r) & exists k r0 b0, [/\ tried rmt_ops setUp 1 n ok bad k g b r0 b0, rrt_base r = after 2 b0 &
    rd_line_for d (number 0 b0) (number 1 b0) (r_maskb g.1) (r_maskc g.1) (rd_lineof (rmt_getParamString_effect (rrt_rand r)) (rrt_delta r))]].
Proof.
move=> dprime Hl E.
have F : ((4 * n + 2) * (N.to_nat (g_width rmt_ops)).+1 <= efuel)%N by [].
have d1 : (1 < d)%N by move: dbig; clear; lia.
have := rrt_thm rd_family HM HK HPos F Hveq d1 n2d setUp_total mexp_ok setp (T := rmt_temper_ops) (ffuel := ffuel)
  (st1 := rd_temper Pos efuel sfuel veq0) (st2 := rd_temper Pos efuel sfuel veq0) (lsb2 := false) (verbose := false) (no_lsb := false)
  Hl temper_keeps temper_keeps (rev_same true) (rev_same false) E.
move=> [-> [k [r0 [b0 [s [t [mu [t1 [t' [[Ht Es oks Hmu [HL fc]] [[Ep [ok1 A1] [ok' A'] _] [[s3 [s4 [d5 [ok3 [d4 [l [E4 El]]] E5 Eabs]]]] HC]]]]]]]]]]]].
have Ll : legal (rrt_rand r) by exact: (fam_legal rd_family ok').
split=> //; exists k, r0, b0.
have [M1 M2 Hl0 _] := @tried_listing k g b r0 b0 0%N nil Hl Ht.
have [Eb /(_ _ oks) [P1 P2 P3 P4 P5]] := trial_par Hl0 Es.
split=> //.
rewrite M1 in P3; rewrite M2 in P4.
set u1 := number 0 b0 in P1 *; set u2 := number 1 b0 in P2 *.
set f := rrt_poly r in Hmu HL fc HC Ep *.
pose acc := run rmt_ops (2 * n) (rmt_seed 1 s).
have oka : ok t acc by exact: (PeriodProofs4.run_ok (fam_gen rd_family t)).
have {}Ep : searchParity rmt_ops rmt_par Pos kernel (Some junk) efuel acc f = Ret (rrt_parity r, rmt_setParity (rrt_parity r) acc) := Ep.
have {}ok1 : ok t1 (rmt_setParity (rrt_parity r) acc) := ok1.
have [vw _] := parity_word HK (fam_width rd_family) Ep.
have okp := setParity_ok oka vw.
have [R1 R2 R3 [R4 R5 R6]] : [/\ t_rev t1 = t_rev t, t_pos t1 = t_pos t, t_mata t1 = t_mata t & [/\ t_par t1 = rrt_parity r, t_mb t1 = t_mb t & t_mc t1 = t_mc t]].
  by apply: (tpar_inj (t := t1) (t' := setpar t (rrt_parity r))); case: ok1 => <- _; case: okp => <- _.
have [w1 [Hw1 Et1 Q1]] := temper_run ok3.
have Er3 : l = (tpar (thw t1 false Hw1), s3.2).
  have EE := etrans (esym E4) Et1.
  by have := f_equal (fun z : res (Z * rmt) => match z with Ret y => y.2 | _ => acc end) EE.
have ok4 : ok (thw t1 false Hw1) s4 by rewrite El Er3; case: ok3.
have [w2 [Hw2 Et2 Q2]] := temper_run ok4.
have Er : rrt_rand r = (tpar (thw t1 false Hw2), s3.2).
  have EE := etrans (esym E5) Et2.
  by have := f_equal (fun z : res (Z * rmt) => match z with Ret y => y.2 | _ => acc end) EE; cbn [snd] => ->; rewrite El Er3.
have [T1 T2 T3 [T4 T5 T6]] : [/\ t_rev t' = false, t_pos t' = t_pos t, t_mata t' = t_mata t & [/\ t_par t' = rrt_parity r, t_mb t' = w2.1 & t_mc t' = w2.2]].
  by rewrite -R2 -R3 -R4; apply: (tpar_inj (t := t') (t' := thw t1 false Hw2)); case: ok' => <- _; rewrite Er.
have [If sf _] := HL.
have EA : A t = rd_A d u1 u2 by exact: specA P1 P2.
split.
- by rewrite Er /rd_lineof; cbn [rmt_getParamString_effect tpar thw fst r_pos r_mata rl_pos rl_mata]; split; [rewrite [LHS]R2|rewrite [LHS]R3].
- rewrite Er /rd_lineof; cbn [rmt_getParamString_effect tpar thw fst r_par r_maskb r_maskc rl_parity rl_maskb rl_maskc t_par t_mb t_mc].
  by split; [rewrite R4|exact: wshl_lt|exact: wshl_lt].
exists f; split.
- rewrite -P3 -P4; apply/(factorE s.2 f P1 P2); exists mu; last exact: HL.
  by move: Hmu; cbn [g_seed rmt_ops]; rewrite P5.
- by rewrite -EA.
move=> UA.
have UAt : rmt_A (tpar t) \in unitmx by move: UA; rewrite -EA.
have D2 : ~~ (f ^+ 2 %| char_poly (rmt_A (tpar t))) by exact: (large_simple _ If sf n2d).
have Hn : (r_size (tpar t) * 64 < r_mexp (tpar t) + 64)%N by have := n_lt => /andP[].
have Hfu : (r_size (tpar t) * 64 <= efuel)%N.
  move: Hef; clear; cbn [tpar r_size]; generalize n => m; lia.
have line_par : rl_parity (rd_lineof (rmt_getParamString_effect (rrt_rand r)) (rrt_delta r)) = rrt_parity r.
  by rewrite Er /rd_lineof; cbn [rmt_getParamString_effect tpar thw fst r_par rl_parity t_par].
rewrite line_par.
have := rmt_search (tpar_ok t) UAt HPos HK If sf fc D2 junk Hn Hfu oka.
case=> [[_ EU]|[v [EV v0 Hcert]]]; first by move: Ep; rewrite EU.
have {EV} Ev : v = rrt_parity r.
  have EE := etrans (esym EV) Ep.
  by have := f_equal (fun z : res (N * rmt) => match z with Ret y => y.1 | _ => v end) EE.
subst v.
have Pf := mersenne_primitive If sf dprime.
split.
- rewrite leqNgt; apply/negP => Hlt.
  have Hlt' : (r_mexp (tpar t) + 33 <= r_size (tpar t) * 64)%N by move: Hlt; clear; cbn [tpar r_mexp r_size]; generalize n => m; lia.
  by have := rmt_search_undef (tpar_ok t) UAt HPos HK If sf fc D2 junk Hn Hlt' Hfu oka; rewrite Ep.
- by case: v0.
- by apply: (cert_move (t := t) P1 P2) => s' oks' Hi k' Hk'; have [_] := Hcert s' oks' Hi; move=> /(_ Pf k' Hk').
move=> Hodd.
have Ob : out_observable (A t1) (D t1) (g_width rmt_ops).
  by apply: (rmt_out_observable (tpar_ok t1)); rewrite -/(A t1) A1.
have Al : alive (A t) f (abs t1 (rmt_setParity (rrt_parity r) acc)).
  have [okm [Em Eg]] := alive_move R2 R3 ok1.
  rewrite /alive -Em; apply: (proj1 (Hcert _ okm _)).
  by rewrite Eg (get_set _ oka).
have [n0 fn [dims [HD ED]]] := HC Ob Al.
have CC t2 w : t_rev t2 = false -> t_pos t2 = t_pos t -> t_mata t2 = t_mata t -> t_mb t2 = w.1 -> t_mc t2 = w.2 ->
   forall j, C t2 j = rmt_C (rd_gen d u1 u2 w.1 w.2) j.
  by move=> H1 H2 H3 H4 H5 j; rewrite (specC (u1 := u1) (u2 := u2) _ H1) ?H4 ?H5 ?H2 ?H3.
split.
- exists dims; split; last exact: ED.
  move=> v Hv; have := HD v Hv; rewrite A' EA Er /rd_lineof.
  cbn [rmt_getParamString_effect tpar thw fst r_maskb r_maskc rl_maskb rl_maskc t_mb t_mc].
  by apply: comp_dim_ext => j; rewrite (CC t' w2) // C_clean.
- exists (fun w => cost (par false (t_pos t1) (t_mata t1) (t_par t1) w.1 w.2, s3.2)), w1, w2; split.
  + move=> b' c' Hb Hc.
    have W : word2 (b', c') by [].
    have okw : ok (thw t1 false W) (tpar (thw t1 false W), s3.2) by case: ok3.
    have Ew : abs (thw t1 false W) (tpar (thw t1 false W), s3.2) = abs t' (rrt_rand r) by rewrite Eabs; case: (s3).
    have A2 : A (thw t1 false W) = A t' by rewrite thw_A A1 A'.
    have [|| dims' [HD' ED']] := cost_comp okw If sf.
    * by rewrite Ew.
    * by rewrite Ew A2.
    exists dims'; split; last exact: ED'.
    move=> v Hv; have := HD' v Hv; rewrite A2 A' EA.
    by apply: comp_dim_ext; apply: (CC (thw t1 false W) (b', c')).
  + by move: Q1; rewrite R5 R6 P3 P4.
  + have Ew1 : (t_mb (thw t1 false Hw1), t_mc (thw t1 false Hw1)) = w1 by cbn [thw t_mb t_mc]; rewrite -surjective_pairing.
    by move: Q2; rewrite Ew1 El Er3.
  + by rewrite Er /rd_lineof; cbn [rmt_getParamString_effect tpar thw fst r_maskb rl_maskb t_mb]; rewrite cleanE //; exact: (proj1 Hw2).
  + by rewrite Er /rd_lineof; cbn [rmt_getParamString_effect tpar thw fst r_maskc rl_maskc t_mc]; rewrite cleanE //; exact: (proj2 Hw2).
Qed.
Lemma loop_spec cnt g b lines : prime (2 ^ d - 1) -> legal g ->
  rd_loop next M kernel Pos junk efuel sfuel ffuel veq0 cnt g b = Ret lines ->
  rd_listing d next b (r_maskb g.1) (r_maskc g.1) cnt lines.
Proof.
move=> dprime; elim: cnt g b lines => [|c IH] g b lines Hl; cbn [rd_loop]; first by move=> [<-]; constructor.
case E : (rd_search _ _ _ _ _ _ _ _ _ _ _) => [[found r]||||]; cbn [bind]; try by [].
have [-> Ll [k [r0 [b0 [Ht Eb HL]]]]] := one_search dprime Hl E.
case E2 : (rd_loop _ _ _ _ _ _ _ _ _ _ _ _) => [ls||||]; cbn [bind]; try by [].
move=> EL; have <- := f_equal (fun z : res (list rd_line) => match z with Ret y => y | _ => lines end) EL.
have [M1 M2 _ K] := @tried_listing k g b r0 b0 c (rd_lineof (rmt_getParamString_effect (rrt_rand r)) (rrt_delta r) :: ls) Hl Ht.
apply: K; apply: rd_print; first by rewrite M1 M2.
by have := IH _ _ _ (mask_eff Ll) E2; rewrite Eb.
Qed.
End Rmt.
