(** Further facts about MT19937 and MT32Search. *)
From Coq Require Import NArith ZArith Lia Bool List.
From mathcomp Require Import all_ssreflect all_algebra.
From mathcomp Require Import zify.
From Verif Require Import Base WordLemmas WordVec UtilModel UtilProofs GenModel LinSpec LinLemmas LinInst XorshiftProofs TinyLin
  MTModel MTSpec MTClient MTSeedProofs MTProofs MTProofs2 MTProofs3 PeriodSpec ArrayModel ArrayWin ArrayLin ArrayOut ArrayEqui MtdcModel MtdcLin.
Set Implicit Arguments.
Unset Strict Implicit.
Unset Printing Implicit Defensive.
Local Open Scope N_scope.
Delimit Scope Z_scope with coqZ.

(** The next m outputs of a generator. *)
Fixpoint outputs (S : Type) (G : gen_ops S) (m : nat) (s : S) : list N :=
  if m is k.+1 then (g_generate G s).1 :: outputs G k (g_generate G s).2 else [::].

(** * The tempering is a bijection *)
Lemma xr_bij k : 0 < k -> bij 32 (xr k).
Proof. exact: bij_xshr. Qed.
Lemma xl_bij w k M m : w <= N.of_nat m * k -> bij w (xl w k M).
Proof.
move=> Hm. apply: (bij_ext _ _ _ _ (@bij_shl w k M m Hm)) => y Hy.
by rewrite /uni /shl_mask /xl /wshl /trunc N.shiftl_mul_pow2.
Qed.
Lemma temper_bij p : 0 < m_sh p -> bij 32 (mtg_temper p).
Proof.
move=> H0. apply: (bij_ext 32 (fun x => xr 18 (xl 32 15 (m_maskc p) (xl 32 7 (m_maskb p) (xr (m_sh p) x))))) => //.
apply: (bij_comp 32 (fun x => xl 32 15 (m_maskc p) (xl 32 7 (m_maskb p) (xr (m_sh p) x)))); last exact: xr_bij.
apply: (bij_comp 32 (fun x => xl 32 7 (m_maskb p) (xr (m_sh p) x))); last by apply: (@xl_bij 32 15 _ 3).
by apply: (bij_comp 32 (xr (m_sh p))); [exact: xr_bij|apply: (@xl_bij 32 7 _ 5)].
Qed.
Lemma out_onto p : 0 < m_sh p -> forall y, y < 2 ^ 32 -> exists x, x < 2 ^ 32 /\ mRev p (mtg_temper p x) = y.
Proof.
move=> H0 y Hy. have [_ [_ O]] := temper_bij H0.
have Hr : mRev p y < 2 ^ 32 by exact: rev_lt.
have [x [Hx Ex]] := O _ Hr. exists x; split=> //. rewrite Ex /mRev. case: (m_rev p) => //. exact: reverse_bit32_invol.
Qed.

Section Gen.
Variable p : mtp.
Hypothesis Hp : mtp_ok p.
Notation size := (m_size p).
Notation r := (m_r p).

Lemma mtp_size1 : (1 < size)%N. Proof. by case: Hp => [[]]. Qed.
Lemma mtp_r0 : (0 < r)%N. Proof. by case: Hp => _ /andP[]. Qed.

Lemma mtg_iter_outputs m s : mtg_ok p s ->
  outputs mtg_ops m s = [seq mtg_temper p (mF p (mtg_win p (iter i (ar_step size (mF p)) s))) | i <- iota 0 m].
Proof.
move=> Hs. elim: m s Hs => [//|m IH] s Hs. rewrite /= (mtg_generateE Hp Hs) /=. congr (_ :: _).
have Hs' : mtg_ok p (ar_step size (mF p) s).
  by have := lin_generate_ok (mtg_lin Hp) Hs; rewrite /= (mtg_generateE Hp Hs).
rewrite IH // -[1%N]/(0 + 1)%N. rewrite (iotaDl 1 0) -map_comp. apply: eq_map => i /=.
by rewrite -iterSr.
Qed.
(** Any size - 1 outputs in a row come from some state. *)
Lemma mtg_any_outputs (ys : seq N) : 0 < m_sh p -> (1 < m_pos p)%N -> N.testbit (m_mata p) 31 ->
  length ys = (size - 1)%N -> List.Forall (fun y => y < 2 ^ 32) ys ->
  exists s, mtg_ok p s /\ outputs mtg_ops (size - 1) s = ys.
Proof.
move=> sh0 pos2 T Sy Hy. have UA : mtg_A p \in unitmx by apply/(mtg_unit Hp).
have [_ [_ O]] := temper_bij sh0.
have B i : (i < size - 1)%N -> exists x, x < 2 ^ 32 /\ mtg_temper p x = nth 0 ys i.
  by move=> Hi; apply: O; elim: ys i {Sy Hi} Hy => [|y ys IH] [|i] H //=; inversion H; subst; auto.
have [z Hz] : exists z : nat -> N, forall i, (i < size - 1)%N -> z i < 2 ^ 32 /\ mtg_temper p (z i) = nth 0 ys i.
  suff : forall m, (m <= size - 1)%N -> exists z : nat -> N, forall i, (i < m)%N -> z i < 2 ^ 32 /\ mtg_temper p (z i) = nth 0 ys i.
    by move/(_ (size - 1)%N); apply.
  elim=> [_|m IH Hm]; first by exists (fun=> 0).
  have [z Hz] := IH (ltnW Hm). have [x [Hx Ex]] := B m Hm.
  exists (fun i => if (i == m) then x else z i) => i Hi. case: eqP => [->//|/eqP Ni]. by apply: Hz; lia.
have [s [Hs E]] := ag_words (mtg_ag Hp) mtp_size1 UA (fun i Hi => proj1 (Hz i Hi)).
exists s; split=> //. rewrite mtg_iter_outputs //.
apply: (@eq_from_nth _ 0); first by rewrite size_map size_iota.
move=> i; rewrite size_map size_iota => Hi. rewrite (nth_map 0%N) ?size_iota // nth_iota // add0n E //.
by have [_ ->] := Hz i Hi.
Qed.
Lemma mtg_dim x0 : 0 < m_sh p -> (1 < m_pos p)%N -> N.testbit (m_mata p) 31 -> full_period (mtg_A p) x0 ->
  equidist_dim (mtg_A p) (mtg_C p) x0 32 (size - 1) /\ classical_equidist (mtg_A p) (mtg_C p) x0 (size - 1) 32.
Proof.
move=> sh0 pos2 T FP. have UA : mtg_A p \in unitmx by apply/(mtg_unit Hp).
have OT a : mO p a = (fun x => mRev p (mtg_temper p x)) (mF p a) by [].
split.
- exact: (ag_dim (mtg_ag Hp) OT (out_onto sh0) UA mtp_size1 mtp_r0 FP).
- exact: (ag_classical (mtg_ag Hp) OT (out_onto sh0) UA mtp_size1 FP).
Qed.

(** * isZero *)
Lemma mtg_isZeroE s : mtg_ok p s ->
  mtg_isZero s = true <-> (N.land (m_upper p) (mtg_win p s (size - 1)) = 0 /\ forall k, (k < size - 1)%N -> mtg_win p s k = 0).
Proof.
case: s => q s [/= -> [Hi [Hl _]]]. have s1 := mtp_size1.
have E0 : List.nth (rr_idx s) (rr_arr s) 0 = win size s (size - 1).
  rewrite /win. have -> : (Nat.add (Nat.add (rr_idx s) 1) (size - 1)%N) = Nat.add (rr_idx s) (Nat.mul 1 size) by lia.
  by rewrite Nat.mod_add; [rewrite Nat.mod_small //; lia|lia].
rewrite /mtg_isZero E0 /mtg_win /ar_win /=. case: N.eqb_spec => H; last first.
  by split=> [//|[]].
cbn [negb]. rewrite zero_loop_ok; last lia. split=> [Z|[_ Z] j Hj].
- split=> // k Hk. have := Z k.+1. rewrite at_win; try lia.
  have -> : (k.+1 - 1)%coq_nat = k by lia. apply; lia.
- rewrite at_win; try lia. apply: Z. lia.
Qed.
Definition win_state (f : nat -> N) : mtg := (p, rr_mk size f).
Lemma win_state_ok f : (forall k, f k < 2 ^ 32) -> mtg_ok p (win_state f).
Proof. by move=> Hf; have s1 := mtp_size1; split=> //; apply: mk_ok => [|k _]; [lia|exact: Hf]. Qed.
Lemma win_stateE f k : (k < size)%N -> mtg_win p (win_state f) k = f k.
Proof. by move=> Hk; have s1 := mtp_size1; rewrite /mtg_win /ar_win win_mk //; lia. Qed.
Lemma one_shift : N.shiftr 1 (N.of_nat r) = 0.
Proof.
have := mtp_r0. move=> H. apply: N.bits_inj => i. rewrite N.shiftr_spec' N.bits_0 (bits_above 1) //. lia.
Qed.
Lemma upper_one : N.land (m_upper p) 1 = 0.
Proof.
have H := mtp_r0. apply: N.bits_inj => i. rewrite N.land_spec N.bits_0 upper_bit //.
case: (N.ltb_spec 0 i) => Hi; first by rewrite (bits_above 1) ?andbF //; lia.
by have -> : (N.of_nat r <=? i) = false by lia.
Qed.
(** The zero state, for which isZero is false. *)
Lemma isZero_false_neg : exists s, [/\ mtg_ok p s, mtg_vec p s = 0%R & mtg_isZero s = false].
Proof.
have s1 := mtp_size1. pose f k := if k is 0%N then 1 else 0.
have Hf : mtg_ok p (win_state f) by apply: win_state_ok; case.
exists (win_state f); split=> //.
- apply/(ag_vec_zero (mtg_ag Hp) Hf); split.
    by rewrite -/(mtg_win p) win_stateE ?one_shift ?N.shiftr_0_l //; lia.
  by move=> k /andP[k0 Hk]; rewrite -/(mtg_win p) win_stateE //; case: k k0 Hk.
- apply/negP => /(mtg_isZeroE Hf) [_ Z]. have := Z 0%N. rewrite win_stateE; last lia. move=> E. by have : 1 = 0 by apply: E; lia.
Qed.
(** A non-zero state, for which isZero is true. *)
Lemma isZero_false_pos : exists s, [/\ mtg_ok p s, mtg_vec p s <> 0%R & mtg_isZero s = true].
Proof.
have s1 := mtp_size1. pose f k := if (k == size - 1)%N then 1 else 0.
have Hf : mtg_ok p (win_state f) by apply: win_state_ok => k; rewrite /f; case: eqP.
exists (win_state f); split=> //.
- move/(ag_vec_zero (mtg_ag Hp) Hf) => [_ Z]. have := Z (size - 1)%N.
  rewrite -/(mtg_win p) win_stateE; last lia. rewrite /f eqxx => E. by have : 1 = 0 by apply: E; lia.
- apply/(mtg_isZeroE Hf); split.
    by rewrite win_stateE; [rewrite /f eqxx upper_one|lia].
  move=> k Hk; rewrite win_stateE; last lia. rewrite /f. by case: eqP => // E; lia.
Qed.
(** What is true: a state that isZero accepts has nothing set but unused low
    bits of the newest word. *)
Lemma isZero_all0 s : mtg_ok p s -> (forall k, (k < size)%N -> mtg_win p s k = 0) -> mtg_isZero s = true.
Proof.
move=> Hs H; have s1 := mtp_size1. apply/(mtg_isZeroE Hs); split; first by rewrite H ?N.land_0_r //; lia.
by move=> k Hk; apply: H; lia.
Qed.
End Gen.

(** * The objects that the constructors make *)
Lemma fill_len f c : forall i v, length (rr_fill c i v f) = c.
Proof. by elim: c => [//|c IH] i v /=; rewrite IH. Qed.
Lemma fill_small f c : (forall i v, f i v < 2 ^ 32) -> forall i v j, List.nth j (rr_fill c i v f) 0 < 2 ^ 32.
Proof. by move=> Hf; elim: c => [|c IH] i v [|j] //=. Qed.
Lemma seed_word_lt i v : mtg_seed_word i v < 2 ^ 32.
Proof. exact: trunc_lt. Qed.
Lemma mtg_seed_ok p s v : mtp_ok p -> v < 2 ^ 32 -> mtg_ok p (mtg_seed v (p, s)).
Proof.
move=> Hp Hv. have s1 := mtp_size1 Hp. split=> //; split; [|split]; cbn [mtg_seed fst snd rr_idx rr_arr].
- lia.
- rewrite /= fill_len. lia.
- case=> [//|j]. cbn [List.nth]. exact (@fill_small _ _ seed_word_lt _ _ _).
Qed.
Lemma mt19937_par_ok : mtp_ok mt19937_par.
Proof.
have E1 : m_size mt19937_par = N.to_nat 624 by [].
have E2 : m_mexp mt19937_par = N.to_nat 19937 by [].
have E3 : m_pos mt19937_par = N.to_nat 397 by [].
have Er : m_r mt19937_par = 31%N by rewrite /m_r E1 E2; lia.
split.
- rewrite E1 E2. split; lia.
- by rewrite Er.
- rewrite Er. split; reflexivity.
- rewrite E3 E1. lia.
- by split.
Qed.
Lemma mt19937_new_ok v : v < 2 ^ 32 -> mtg_ok mt19937_par (mt19937_new v).
Proof. exact: (mtg_seed_ok _ mt19937_par_ok). Qed.
Definition mt32_par (mexp : nat) (id : Z) (pos : nat) (mata maskb maskc : N) : mtp :=
  let r := (mt32_size mexp * 32 - mexp)%N in let upper := wshl 32 (wnot 32 0) (N.of_nat r) in
  MTP mexp (mt32_size mexp) false upper (wnot 32 upper) pos id mata maskb maskc 12.
Lemma mt32_size_bounds mexp : (mexp < mt32_size mexp * 32 <= mexp + 32)%N.
Proof.
rewrite /mt32_size. have := Nat.div_mod mexp 32. have := Nat.mod_upper_bound mexp 32. lia.
Qed.
Lemma mt32_new_ok mexp id pos mata maskb maskc v :
  (32 <= mexp)%N -> Nat.modulo mexp 32 <> 0%N -> (0 < pos < mt32_size mexp)%N ->
  mata < 2 ^ 32 -> maskb < 2 ^ 32 -> maskc < 2 ^ 32 -> v < 2 ^ 32 ->
  exists g, [/\ mt32_new mexp id pos mata maskb maskc v = Ret g, fst g = mt32_par mexp id pos mata maskb maskc,
                mtp_ok (fst g) & mtg_ok (fst g) g].
Proof.
move=> M1 M2 Hpos H1 H2 H3 Hv. have B := mt32_size_bounds mexp.
have R : (0 < mt32_size mexp * 32 - mexp < 32)%N.
  move: B M2; rewrite /mt32_size. have := Nat.div_mod mexp 32. have := Nat.mod_upper_bound mexp 32. lia.
have P : mtp_ok (mt32_par mexp id pos mata maskb maskc).
  split=> //=; rewrite /m_r /=. split; [|lia]. move: B; lia.
rewrite /mt32_new. have -> : (32 <=? mt32_size mexp * 32 - mexp)%nat = false by lia.
eexists; split; [reflexivity|by []|exact: P|exact: mtg_seed_ok].
Qed.
Lemma mt32_new_undef mexp id pos mata maskb maskc v :
  Nat.modulo mexp 32 = 0%N -> mt32_new mexp id pos mata maskb maskc v = Undef.
Proof.
move=> M. rewrite /mt32_new. have -> : (32 <=? mt32_size mexp * 32 - mexp)%nat = true; last by [].
rewrite /mt32_size. have := Nat.div_mod mexp 32. lia.
Qed.
(** setUpParam keeps the invariant, and the position is never 0 or 1. *)
Lemma mt32_setUpParam_ok p s u1 u2 : mtp_ok p -> mtg_ok p (p, s) -> (2 < m_size p)%N -> (N.of_nat (m_size p) < 2 ^ 31) -> u1 < 2 ^ 32 -> u2 < 2 ^ 32 ->
  exists q, [/\ mt32_setUpParam u1 u2 (p, s) = Ret (q, s), mtp_ok q, mtg_ok q (q, s) & (1 < m_pos q)%N] /\
    ((0 <= m_id p)%coqZ -> N.land (m_mata q) 0xffff = Z.to_N (m_id p mod 2 ^ 16)%coqZ).
Proof.
move=> Hp Hs S3 SB Hu1 Hu2. rewrite /mt32_setUpParam.
have D : wsub 32 (N.of_nat (m_size p)) 2 = N.of_nat (m_size p) - 2.
  rewrite /wsub /trunc. have -> : 2 mod 2 ^ 32 = 2 by [].
  have -> : N.of_nat (m_size p) + (2 ^ 32 - 2) = N.of_nat (m_size p) - 2 + 1 * 2 ^ 32 by lia.
  rewrite N.mod_add //. apply: N.mod_small. lia.
rewrite D. have -> : (N.of_nat (m_size p) - 2 =? 0) = false by lia.
have M := N.mod_lt u1 (N.of_nat (m_size p) - 2).
set pos := wadd 32 _ _. have Epos : pos = u1 mod (N.of_nat (m_size p) - 2) + 2.
  by rewrite /pos /wadd /trunc; apply: N.mod_small; lia.
set mata := (if _ then _ else _).
have L : mata < 2 ^ 32.
  rewrite /mata; case: ifP => // _. apply: (lor_lt 32); apply: (land_lt 32) => //.
  rewrite /of_int. have := Z.mod_pos_bound (m_id p) (2 ^ Z.of_N 32)%coqZ. lia.
eexists; split; [split; [reflexivity| | |]|].
- case: Hp => A B C D' [E1 E2 E3]. split=> //=. rewrite Epos. lia.
- by case: Hs => _ /= Hs; split.
- cbn [m_pos]. rewrite Epos. lia.
- move=> Hid. cbn [m_mata]. rewrite /mata. have -> : (0 <=? m_id p)%coqZ = true by lia.
  rewrite N.land_lor_distr_l -!N.land_assoc. have -> : N.land 0xffff0000 0xffff = 0 by []. have -> : N.land 0xffff 0xffff = N.ones 16 by [].
  rewrite N.land_0_r N.lor_0_l N.land_ones /of_int.
  apply: N2Z.inj. rewrite N2Z.inj_mod !Z2N.id; try by apply Z.mod_pos_bound.
  have -> : (2 ^ Z.of_N 32 = 2 ^ 16 * 2 ^ 16)%coqZ by []. rewrite Z.rem_mul_r // (Z.mul_comm (2 ^ 16)%coqZ) Z_mod_plus_full.
  exact: Z.mod_mod.
Qed.

(** * MT19937 of mt1.cpp and the generator of the library give the same sequence *)
Lemma seed_wordE v i : mtg_seed_word i.+1 (genrand ref32 v i) = genrand ref32 v i.+1.
Proof.
rewrite /mtg_seed_word /wadd /wmul /trunc. cbn [genrand r_w r_f r_sh ref32].
rewrite N.add_mod_idemp_l // N.add_mod_idemp_r //. by rewrite /scr /wshr N.shiftr_div_pow2.
Qed.
Lemma fill_nth v c : forall i prev j, (j < c)%N -> prev = genrand ref32 v i ->
  List.nth j (rr_fill c i.+1 prev mtg_seed_word) 0 = genrand ref32 v (i.+1 + j)%N.
Proof.
elim: c => [//|c IH] i prev [|j] Hj E; cbn [rr_fill List.nth].
- by rewrite addn0 E seed_wordE.
- rewrite IH; [by rewrite addSnnS|lia|]. by rewrite E seed_wordE.
Qed.
Lemma mt1_win0 v k : v < 2 ^ 32 -> (k < N.to_nat 624)%N -> mtg_win mt19937_par (mt19937_new v) k = genrand ref32 v k.
Proof.
move=> Hv Hk. rewrite /mtg_win /ar_win /win.
have E1 : m_size mt19937_par = N.to_nat 624 by cbn [m_size mt19937_par]. rewrite E1.
rewrite /mt19937_new /mtg_seed. cbn [fst snd rr_idx rr_arr]. rewrite E1.
move: Hk; have : (0 < N.to_nat 624)%N by lia. move: (N.to_nat 624) => n Hn Hk. clear E1.
have -> : (Nat.add (Nat.add (Nat.sub n 1) 1) k) = Nat.add k (Nat.mul 1 n) by lia.
rewrite Nat.mod_add; last lia. rewrite Nat.mod_small; last lia.
case: k Hk => [|k] Hk; first by cbn [List.nth genrand r_w ref32]; rewrite N.mod_small.
cbn [List.nth]. have H := @fill_nth v (Nat.sub n 1) 0 v k. rewrite H; [by rewrite add1n|lia|].
by cbn [genrand r_w ref32]; rewrite N.mod_small.
Qed.
Lemma mt1_F x t a : mt_recurrence ref32 x -> a 0%N < 2 ^ 32 ->
  (forall k, (k < N.to_nat 624)%N -> a k = x (t + k)%N) -> mF mt19937_par a = x (t + N.to_nat 624)%N.
Proof.
move=> R X E. have := R t. cbn [r_n r_m ref32]. move=> Rt.
have -> : (t + N.to_nat 624)%N = (t + 624)%coq_nat by lia. rewrite Rt.
rewrite /mF /mY. change (m_upper mt19937_par) with (N.shiftl (N.ones 1) 31). change (m_lower mt19937_par) with (N.ones 31).
rewrite !E; try (cbn [m_pos mt19937_par]; lia). rewrite addn0 addn1.
have X0 : x t < 2 ^ 32 by rewrite -(addn0 t) -E; [exact: X|lia].
rewrite (join_mask 1) //.
rewrite -twist_mag. cbn [m_pos m_mata mt19937_par r_a ref32].
have -> : (t + N.to_nat 397)%N = (t + 397)%coq_nat by lia. congr (N.lxor _ _). rewrite /sel.
have T0 u : N.testbit u 0 = ~~ (N.land u 1 =? 0).
  rewrite N.bit0_odd. by case: u => [|[u|u|]].
by rewrite T0; case: (_ =? 0).
Qed.
Section Stream.
Variables (x : nat -> N) (v : N).
Hypothesis R : mt_recurrence ref32 x.
Hypothesis Hv : v < 2 ^ 32.
Hypothesis X0 : forall i, (i < N.to_nat 624)%N -> x i = genrand ref32 v i.
Notation P1 := mt19937_par.
Notation stp := (ar_step (m_size P1) (mF P1)).
Lemma mt1_iter t : forall k, (k < N.to_nat 624)%N -> mtg_win P1 (iter t stp (mt19937_new v)) k = x (t + k)%N.
Proof.
have A := mtg_ag mt19937_par_ok. have E1 : m_size P1 = N.to_nat 624 by [].
elim: t => [|t IH] k Hk; first by rewrite mt1_win0 // X0.
have Ht := ag_iter_ok A t (mt19937_new_ok Hv).
have Hk' : (k < m_size P1)%N by rewrite E1.
rewrite iterS /mtg_win (ag_step_win A Ht Hk').
case: eqP => [Ek|Nk].
- have L0 : ar_win (m_size P1) (iter t stp (mt19937_new v)) 0 < 2 ^ 32 by have [_ [_ [_ Hl]]] := Ht; apply: (Hl _).
  rewrite (mt1_F (t := t) R L0 IH). congr x. move: Ek; rewrite E1. lia.
- have Hs : (k.+1 < N.to_nat 624)%N by move: Nk; rewrite E1; lia.
  have := IH _ Hs. rewrite /mtg_win => ->. congr x. lia.
Qed.
Lemma mt1_outputs m : outputs mtg_ops m (mt19937_new v) = [seq ref_temper32 (x (N.to_nat 624 + i)%N) | i <- iota 0 m].
Proof.
rewrite (mtg_iter_outputs mt19937_par_ok _ (mt19937_new_ok Hv)). apply: eq_map => i.
have Ht := ag_iter_ok (mtg_ag mt19937_par_ok) i (mt19937_new_ok Hv).
have L0 : mtg_win P1 (iter i stp (mt19937_new v)) 0 < 2 ^ 32 by have [_ [_ [_ Hl]]] := Ht; apply: (Hl _).
rewrite (mt1_F (t := i) R L0 (@mt1_iter i)) addnC -temper32_ref. by [].
Qed.
End Stream.

(** * States, the output of generate() *)
Section State.
Variable p : mtp.
Hypothesis Hp : mtp_ok p.
Notation size := (m_size p).
Notation r := (m_r p).
Lemma mtg_state s t : mtg_ok p s -> mtg_ok p t ->
  (mtg_vec p s = mtg_vec p t <->
   (N.shiftr (mtg_win p s 0) (N.of_nat r) = N.shiftr (mtg_win p t 0) (N.of_nat r) /\
    forall k, (0 < k < size)%N -> mtg_win p s k = mtg_win p t k)).
Proof. exact: (ag_state (mtg_ag Hp)). Qed.
Lemma mtg_temper_wf : wfun 32 size r (fun a => mtg_temper p (mF p a)).
Proof.
have W := mF_wf Hp. split.
- by move=> a Ha; apply: (temper_lt Hp); exact: (wf_lt W).
- by move=> a b Ha Hb; rewrite (wf_add W) // temper_add.
- by move=> a b Ha Hb E; rewrite (wf_ext W Ha Hb E).
Qed.
Definition mtg_D : nat -> 'cV['F_2]_(m_mexp p) := @ar_D mtp p 32 size r (m_mexp p) (fun a => mtg_temper p (mF p a)).
Lemma mtg_linout : linear_out mtg_ops (mtg_ok p) (mtg_vec p) mtg_D.
Proof. by apply: (ag_linout (mtg_ag Hp) mtg_temper_wf) => s Hs; rewrite /= (mtg_generateE Hp Hs). Qed.
End State.

(** * The same sequence as the library *)
Lemma mt1_library v m (s : mt32) : v < 2 ^ 32 -> length (mt_mem s) = N.to_nat 1024 ->
  mt_run s (MSeed v :: List.repeat MGen32 m) = Ret (None :: List.map Some (outputs mtg_ops m (mt19937_new v))).
Proof.
move=> Hv Hl. have [x [R [X0 _]]] := ref32_sequence_exists (genrand ref32 v).
have X1 i : (i < N.to_nat 624)%N -> x i = genrand ref32 v i by move=> Hi; apply: X0; lia.
rewrite (mt1_outputs R Hv X1). rewrite (mt32_stream s (MSeed v) x m Hl erefl _ R X0) //.
congr (Ret (_ :: _)). rewrite List.map_map. have -> : iota 0 m = List.seq 0 m by elim: m 0%N => //= m IH i; rewrite IH.
by [].
Qed.
