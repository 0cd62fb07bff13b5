(** AlgorithmSIMDEquidistribution is AlgorithmEquidistribution for the generator
    whose output is the collected word. *)
From Coq Require Import NArith ZArith Lia Bool List.
From mathcomp Require Import all_ssreflect all_algebra.
From mathcomp Require Import zify.
From Verif Require Import Base WordLemmas WordVec UtilModel GenModel EquiModel LinSpec LinLemmas PeriodSpec EquiProofs6 EquiProps
  W128Model W128Spec W128Proofs W128Cert SfmtModel SfmtLin SimdModel SimdPack.
Set Implicit Arguments.
Unset Strict Implicit.
Unset Printing Implicit Defensive.
Import GRing.Theory.
Local Open Scope N_scope.
Delimit Scope Z_scope with coqZ.

Section Wrap.
Variables (S : Type) (G : gen_ops S) (n : nat) (ok : S -> Prop) (abs : S -> 'rV['F_2]_n)
  (A : 'M['F_2]_n) (C D : nat -> 'cV['F_2]_n) (nb : nat) (pos : N -> res Z).
Hypothesis HG : linear_gen G ok abs A C.
Hypothesis HO : linear_out G ok abs D.
Hypothesis Hw : g_width G = 128.
Hypothesis Hlt : forall s, ok s -> (g_generate G s).1 < 2 ^ 128.
Variables (info : simd_info) (ew L : nat) (lsb : bool) (v : nat).
Hypothesis Hi : good_info info ew L.
Hypothesis Hv : (1 <= v <= ew)%N.
Notation l := (v * L)%N.
Notation lz := (Z.of_nat (v * L)).
Notation lvec := (lvec S).

Definition pkv (x : N) : N := match sv_pack info lsb v (w_of x) with Ret r => wval r | _ => 0 end.
Definition Gv : gen_ops S :=
  {| g_width := 128; g_generate := g_generate G;
     g_generate_len := fun k s => (N.land (pkv (g_generate G s).1) (wshl 128 (wnot 128 0) (128 - Z.to_N k)), (g_generate G s).2);
     g_add := g_add G; g_setZero := g_setZero G; g_isZero := g_isZero G; g_seed := g_seed G; g_bitSize := g_bitSize G |}.
Definition Cv (j : nat) : 'cV['F_2]_n :=
  if (j < L * v)%N then D (bit_pos lsb ew (Nat.div j v) (Nat.modulo j v)) else 0%R.

Lemma L_facts : (L * v <= 128)%N /\ (L * ew = 128)%N /\ (1 <= L)%N /\ si_elementNo info = L /\ si_bitSize info = 128%coqZ.
Proof. have := Hv. by case: Hi => [[-> [-> ->]]|[-> [-> ->]]] Hv'; cbn [si_elementNo si_bitSize]; split; lia. Qed.
Lemma pack_E x : x < 2 ^ 128 -> exists r, [/\ sv_pack info lsb v (w_of x) = Ret r, wok r, wval r = pkv x & wval r < 2 ^ 128] /\
  forall j, (j < 128)%N -> N.testbit (pkv x) (N.of_nat (127 - j)) =
    (j < L * v)%N && N.testbit x (N.of_nat (bit_pos lsb ew (Nat.div j v) (Nat.modulo j v))).
Proof.
move=> Hx. have [Wx Vx] := w_of_ok Hx. have Hv' : Peano.le 1%N v /\ Peano.le v ew by move: Hv; clear; lia.
have [r [E [W B]]] := sv_pack_ok info ew L lsb v _ Hi Wx Hv'.
have Ep : pkv x = wval r by rewrite /pkv E.
exists r; split; first by split=> //; exact: wval_lt.
move=> j Hj. rewrite Ep B; last lia. rewrite Vx. congr andb. lia.
Qed.
Lemma pkv_mask x : x < 2 ^ 128 -> N.land (pkv x) (wshl 128 (wnot 128 0) (128 - Z.to_N lz)) = pkv x.
Proof.
move=> Hx. have [r [[_ _ Er Hr] B]] := pack_E Hx. have [F1 [F2 [F3 _]]] := L_facts. rewrite Er in Hr.
apply: (@word_ext 128) => //; first exact: (land_lt 128).
move=> i Hi'. rewrite N.land_spec top_mask_spec; [|nia|by []].
case: N.leb_spec => K; first by rewrite andb_true_r.
rewrite andb_false_r. have := B (127 - N.to_nat i)%N. have -> : N.of_nat (127 - (127 - N.to_nat i))%N = i by lia.
move=> ->; last lia. have -> : (127 - N.to_nat i < L * v)%N = false by nia. by [].
Qed.
Lemma bp_lt j : (j < L * v)%N -> (bit_pos lsb ew (Nat.div j v) (Nat.modulo j v) < 128)%N.
Proof.
move=> Hj. have [F1 [F2 [F3 _]]] := L_facts.
have H1 : (Nat.div j v < L)%coq_nat by apply: Nat.div_lt_upper_bound; lia.
have H2 : (Nat.modulo j v < v)%coq_nat by apply: Nat.mod_upper_bound; lia.
rewrite /bit_pos. move: (Nat.div j v) (Nat.modulo j v) H1 H2 => a b H1 H2.
have : (ew * a + ew <= 128)%N by nia. case: lsb; lia.
Qed.
Lemma Gv_lin : linear_gen Gv ok abs A Cv.
Proof.
have [F1 [F2 [F3 _]]] := L_facts.
split; cbn [g_width g_generate g_generate_len g_add g_setZero Gv fst snd].
- exact: (lin_generate_ok HG).
- exact: (lin_generate_abs HG).
- by move=> k s Hs _; exact: (lin_generate_ok HG).
- by move=> k s Hs _; exact: (lin_generate_abs HG).
- move=> k s Hs _. apply: (land_lt 128). have [r [[_ _ <- H] _]] := pack_E (Hlt Hs). exact: H.
- move=> k s j Hs Hk Hj. have Hj' : N.of_nat j < 128 by lia. rewrite /msb top_mask_land //.
  have [r [_ B]] := pack_E (Hlt Hs).
  have -> : 128 - 1 - N.of_nat j = N.of_nat (127 - j)%N by lia. rewrite B; last lia.
  case: (_ <? _)%coqZ; cbn [andb]; last by [].
  rewrite /obit /Cv. case: ifP => K; last by rewrite mulmx0 mxE.
  rewrite -(HO Hs) ?Hw //. have := bp_lt K. lia.
- exact: (lin_add_ok HG).
- exact: (lin_add_abs HG).
- exact: (lin_zero_ok HG).
- exact: (lin_zero_abs HG).
Qed.

(** The functions agree. *)
Notation wf := (@wf S Gv ok).
Notation wfl := (@wfl S Gv ok).
Lemma Hl : (1 <= lz <= Z.of_N (g_width Gv))%coqZ.
Proof. have [F1 [F2 [F3 _]]] := L_facts. cbn [g_width Gv]. nia. Qed.
Lemma wfs b : wf b -> wf (lv_step Gv lz b).
Proof. by move=> Hb; apply: (wf_step (lin_len_ok Gv_lin) (lin_len_lt Gv_lin)) => //; exact: Hl. Qed.
Lemma wfn b : wf b -> wf (next_state Gv lz b).
Proof. by move=> Hb; apply: (wf_next (lin_len_ok Gv_lin) (lin_len_lt Gv_lin)) => //; exact: Hl. Qed.
Lemma wfa a b : wf a -> wf b -> wf (lv_add Gv a b).
Proof. exact: (wf_add (lin_add_ok Gv_lin)). Qed.
Lemma step_eq b : wf b -> sv_step G info lsb v b = Ret (lv_step Gv lz b).
Proof.
move=> [H1 _]. rewrite /sv_step /sv_get_next /lv_step. cbn [g_generate_len Gv].
have := pkv_mask (Hlt H1). have [r [[E1 _ E2 _] _]] := pack_E (Hlt H1). move: E1 E2.
case: (g_generate G (lv_rand b)) => x r'. cbn [fst snd] => E1 E2 ->. by rewrite E1 /= E2.
Qed.
Lemma zero_eq b : wf b -> w_isZero (w_of (lv_next b)) = (lv_next b =? 0).
Proof.
move=> [_ H]. have [W V] := w_of_ok H. apply/idP/idP.
- by move/(w_isZero_ok _ W); rewrite V => /N.eqb_eq.
- by move/N.eqb_eq => E; apply/(w_isZero_ok _ W); rewrite V.
Qed.
Lemma ns_loop_eq r b : wf b -> sv_ns_loop G info lsb v r b = Ret (ns_loop Gv lz r b).
Proof.
elim: r b => [|r IH] b Hb; cbn [sv_ns_loop ns_loop]; rewrite (zero_eq Hb); case: (_ =? 0) => //.
rewrite (step_eq Hb). cbn [bind]. apply: IH. exact: wfs.
Qed.
Lemma next_eq b : wf b -> sv_next_state G info lsb v b = Ret (next_state Gv lz b).
Proof.
move=> Hb. rewrite /sv_next_state /next_state. case: (lv_zero b) => //. rewrite (step_eq Hb). cbn [bind].
apply: ns_loop_eq. exact: wfs.
Qed.
Lemma add_eq a b : wf a -> wf b -> sv_add G a b = lv_add Gv a b.
Proof.
move=> [_ Ha] [_ Hb]. rewrite /sv_add /lv_add. have [W1 V1] := w_of_ok Ha. have [W2 V2] := w_of_ok Hb.
have [_ ->] := w_xor_ok _ _ W1 W2. by rewrite V1 V2.
Qed.
Lemma unit_eq g i : (i < 128)%N -> sv_unit G g i = Ret (lv_unit Gv g (N.of_nat i)).
Proof.
move=> Hi'. rewrite /sv_unit /lv_unit. have W1 : wok w_one by split.
have Hs : (0 <= 128 - Z.of_nat i - 1 < 128)%coqZ by lia.
have [r [-> [_ E]]] := w_shl_spec w_one _ W1 Hs. cbn [bind g_width Gv g_setZero]. rewrite E /wshl /trunc N.shiftl_mul_pow2.
have -> : Z.to_N (128 - Z.of_nat i - 1) = 128 - N.of_nat i - 1 by lia. by [].
Qed.
Lemma units_eq g cnt i : (i + cnt <= 128)%N -> se_units G g cnt i = Ret (List.map (fun i => lv_unit Gv g (N.of_nat i)) (List.seq i cnt)).
Proof.
elim: cnt i => [//|c IH] i Hc. cbn [se_units]. rewrite unit_eq; last lia. cbn [bind].
rewrite IH; last lia. by rewrite Nat.add_1_r.
Qed.
Lemma new_eq g mexp : ok g -> se_new G info lsb g v = Ret (ae_basis (ae_new Gv g l mexp)).
Proof.
move=> Hg. have [F1 [F2 [F3 [F4 _]]]] := L_facts. rewrite /se_new F4 units_eq; last by move: F1; clear; lia.
cbn [bind]. rewrite next_eq; last by split.
by [].
Qed.
Lemma new_wf g mexp : ok g -> wfl (ae_basis (ae_new Gv g l mexp)).
Proof.
move=> Hg. apply/Forall_forall => b. cbn [ae_basis ae_new]. move/in_app_iff => [|[<-|[]]].
- move/in_map_iff => [i [<- _]]. split; first exact: (lin_zero_ok Gv_lin). cbn [lv_unit lv_next]. exact: wshl_lt.
- by apply: wfn => //; split.
Qed.
Lemma reduce_eq fuel b p : wfl b -> se_reduce G pos info lsb fuel v lz b p = reduce Gv pos fuel lz b p.
Proof.
elim: fuel b p => [//|f IH] b p Hb. cbn [se_reduce reduce].
case Ev : (geti b lz) => [bv||||] //. cbn [bind]. have Wv := geti_wf Hb Ev. case: (lv_zero bv) => //.
case Ep : (geti b p) => [bp||||] //. cbn [bind]. have Wp := geti_wf Hb Ep.
move: (_ >? _)%coqZ => sw. set b1 := if sw then bp else bv. set b2 := if sw then bv else bp.
have W1 : wf b1 by rewrite /b1; case: (sw). have W2 : wf b2 by rewrite /b2; case: (sw).
case E1 : (seti b p b2) => [bs||||] //. cbn [bind]. have Wl1 := seti_wf Hb W2 E1.
rewrite add_eq //. have W3 := wfa W1 W2. rewrite (zero_eq W3). case: (_ =? 0).
- rewrite next_eq //. cbn [bind]. have W4 := wfn W3.
  case E2 : (seti bs lz _) => [bs2||||] //. cbn [bind]. have Wl2 := seti_wf Wl1 W4 E2.
  by case: (pos _) => //= q; apply: IH.
- case E2 : (seti bs lz _) => [bs2||||] //. cbn [bind]. have Wl2 := seti_wf Wl1 W3 E2.
  case: (pos _) => //= q. case: (_ <=? _)%coqZ => //. case: (_ <=? _)%coqZ => //. exact: IH.
Qed.

(** Only the last vector can be marked as zero. *)
Definition nz (b : list lvec) : Prop := forall i x, i <> l -> nth_error b i = Some x -> lv_zero x = false.
Lemma nth_upd (b : list lvec) i x j y : nth_error (upd b i x) j = Some y -> (j = i /\ y = x) \/ (j <> i /\ nth_error b j = Some y).
Proof.
elim: b i j => [|z b IH] [|i] [|j] //=; try by (move=> E; right; split).
- by case=> <-; left.
- by move=> /IH [[-> ->]|[H1 H2]]; [left|right; split=> //; case].
Qed.
Lemma nz_upd b i x : nz b -> (i <> l -> lv_zero x = false) -> nz (upd b i x).
Proof. by move=> Hb Hx j y Hj /nth_upd [[E ->]|[_ E]]; [apply: Hx; rewrite -E|exact: (Hb j)]. Qed.
Lemma reduce_nz fuel b p b' : nz b -> reduce Gv pos fuel lz b p = Ret b' -> nz b'.
Proof.
elim: fuel b p => [//|f IH] b p Hb. cbn [reduce].
move/(@bind_ret _ _ _ _ _) => [bv [Ev]]. case Zv : (lv_zero bv); first by case=> <-.
move/(@bind_ret _ _ _ _ _) => [bp [Ep]].
have Zp : lv_zero bp = false.
  have [p0 Np] := geti_in Ep. have [_ Nv] := geti_in Ev. case: (Z.eqb_spec p lz) => [E|E].
  - by move: Ep Ev; rewrite E => -> [->].
  - apply: (Hb _ _ _ Np). lia.
move: (_ >? _)%coqZ => sw. set b2 := if sw then bv else bp. have Z2 : lv_zero b2 = false by rewrite /b2; case: (sw).
move/(@bind_ret _ _ _ _ _) => [b1 [/seti_in [_ E1]]].
have N1 : nz b1 by rewrite E1; apply: nz_upd.
case: (_ =? _).
- move/(@bind_ret _ _ _ _ _) => [b3 [/seti_in [_ E3]]].
  move/(@bind_ret _ _ _ _ _) => [q [_]]. apply: IH. rewrite E3. apply: nz_upd => // K. case: K. lia.
- move/(@bind_ret _ _ _ _ _) => [b3 [/seti_in [_ E3]]].
  move/(@bind_ret _ _ _ _ _) => [q [_]]. case: (_ <=? _)%coqZ => //. case: (_ <=? _)%coqZ => //. apply: IH.
  rewrite E3. apply: nz_upd => // K. case: K. lia.
Qed.
Lemma min_eq cnt i b m : nz b -> (0 <= i)%coqZ -> (i + Z.of_nat cnt <= lz)%coqZ -> se_min cnt i b m = min_loop cnt i b m.
Proof.
move=> Hb. elim: cnt i m => [//|c IH] i m H0 H1. cbn [se_min min_loop].
case E : (geti b i) => [x||||] //. cbn [bind].
have [_ Nx] := geti_in E. rewrite (Hb _ _ _ Nx); last lia. apply: IH; lia.
Qed.
Lemma new_nz g mexp : nz (ae_basis (ae_new Gv g l mexp)).
Proof.
move=> i x Hx. cbn [ae_basis ae_new] => E.
case: (leqP i l) => Lx; last first.
  have : (i < length (List.map (fun i0 => lv_unit Gv g (N.of_nat i0)) (List.seq 0 l) ++ [:: next_state Gv lz (lv_gen g)]))%coq_nat.
    by apply/nth_error_Some; rewrite E.
  rewrite app_length map_length seq_length /=. lia.
move: E. rewrite nth_error_app1; last by rewrite map_length seq_length; lia.
move=> K0. have K := nth_error_In _ _ K0. by have [j [<- _]] := proj1 (in_map_iff _ _ _) K.
Qed.

Lemma simd_dim s fuel : ok s -> (forall t, ok t -> g_bitSize G t = nb) -> (n <= 2 * nb + 1)%N -> pos_spec 128 pos ->
  (\rank (krylov A (abs s)) <= nb)%N -> ((2 * n + 2 * nb + 2) * 129 <= fuel)%N ->
  exists b k, [/\ se_new G info lsb s v = Ret b, se_get_equidist G pos info lsb fuel (Z.of_nat nb) v b = Ret (Z.of_nat k) &
    equidist_dim A Cv (abs s) l k].
Proof.
move=> Hs Hnb Hn Hp Hr Hf. have [F1 [F2 [F3 [F4 _]]]] := L_facts.
have Hset : setting Gv ok abs A Cv nb pos by split=> //; exact: Gv_lin.
have Hsb : sbs_fits abs A nb s 0 nb by split.
have Hen : enough Gv n nb fuel by rewrite /enough; cbn [g_width Gv]; lia.
pose veq := List.repeat 0%coqZ l.
have l1 : (1 <= l)%N by nia. have l2 : (N.of_nat l <= g_width Gv) by cbn [g_width Gv]; lia.
have l3 : (l <= length veq)%N by rewrite /veq List.repeat_length.
have [a1 [veq1 [sum1 [E1 D1]]]] := C32_dimension Hset Hs Hsb Hen l1 l2 l3.
have [a2 [veq2 [sum2 [a3 [sum3 [k [E2 [E3 [_ [_ [Hk _]]]]]]]]]]] := C34_sums Hset Hs Hsb Hen l1 l2 l3.
rewrite E1 in E2. case: E2 => _ Eq _. rewrite -Eq in Hk. have l4 : (1 <= l <= l)%N by lia. have [k' [Ek Hd]] := D1 l l4.
rewrite Hk in Ek. case: Ek => Ek. exists (ae_basis (ae_new Gv s l 0)), k'. split=> //; first exact: new_eq.
move: E3. rewrite /get_equidist. cbn [ae_bit_len ae_new ae_stateBitSize Z.eqb].
move/(@bind_ret _ _ _ _ _) => [[k2 b2] [E4]] /(@bind_ret _ _ _ _ _) [[b3 sum4] [_ []]] _ _ E5. rewrite -Ek -E5.
move: E4. rewrite /se_get_equidist /get_equidist_main F4. cbn [g_bitSize Gv]. rewrite (Hnb _ Hs).
change (List.app _ _) with (ae_basis (ae_new Gv s l 0)).
have Wb := new_wf 0%coqZ Hs. have Nb := @new_nz s 0%coqZ. move: (ae_basis _) Wb Nb => b Wb Nb.
case: (geti b lz) => [bv||||] //. cbn [bind]. case: (pos _) => [p||||] //. cbn [bind]. rewrite reduce_eq //.
case Er : (reduce _ _ _ _ _ _) => [b4||||] //. cbn [bind]. have N4 := reduce_nz Nb Er.
case: (geti b4 0) => [b0||||] //. cbn [bind]. have -> : Z.to_nat (lz - 1) = (l - 1)%N by lia.
rewrite min_eq //; [|lia]. case: (min_loop _ _ _ _) => [mm||||] //. cbn [bind].
case: (idiv _ _) => [q||||] //. cbn [bind]. case: (_ >? _)%coqZ => //. by case=> ->.
Qed.
End Wrap.
