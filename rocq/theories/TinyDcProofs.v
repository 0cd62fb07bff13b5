(** The program tinymt32dc lists exactly the parameter sets of maximal period,
    with their tempering parameters and defects. *)
From Coq Require Import NArith ZArith Lia List Bool Sorted.
From mathcomp Require Import all_ssreflect all_algebra.
From mathcomp Require Import zify.
From Verif Require Import Base WordLemmas WordVec GenModel UtilModel UtilSpec UtilProofs PolyF2 LinSpec LinLemmas LinInst LinOut PeriodSpec PeriodModel
  EquiModel EquiProofs5 EquiProofs6 EquiEx PeriodProofs PeriodProofs2 PolyAct PeriodProofs4 PeriodProofs5 PeriodProofs7 SequentialModel
  MersenneProofs SampleSpec SampleProofs TemperModel TemperSpec TemperProofs RecTemperModel RecTemperProofs TinyModel TinyDcModel TinyLin TinySpec TinyProofs.
Set Implicit Arguments.
Unset Strict Implicit.
Unset Printing Implicit Defensive.
Import GRing.Theory.
Local Open Scope ring_scope.
Delimit Scope Z_scope with coqZ.
Local Arguments tiny_next : simpl never.
Local Arguments tiny_temper : simpl never.

Lemma m127_prime : prime (2 ^ 127 - 1).
Proof. by apply: (@ll_small_prime 127%positive); vm_compute. Qed.
Lemma m127_decides : decides MersennePrimitivity 127.
Proof. exact: mersenne_decides m127_prime. Qed.

Definition tiny_start (p : tiny_param) : tiny := TM (0, 0, 0, 1)%num p false.
Lemma start_ok p : p_ok p -> tiny_ok (p, false) (tiny_start p).
Proof. by []. Qed.
Lemma start_neq0 p : p_ok p -> tiny_vec (tiny_start p) != 0.
Proof. by move=> Hp; apply/eqP => /(tiny_isZero_vec (start_ok Hp)). Qed.
Notation A p := (tiny_A (p, false)).
Notation D p := (tiny_D (p, false)).
Notation C p := (tiny_C (p, false)).
Notation G := tiny_ops.

(** Maximal period shows in the lowest bit of the outputs. *)
Lemma low_bit p : p_ok p -> tp_tmat p = 0%num -> full_period (A p) (tiny_vec (tiny_start p)) ->
  exists i, out_seq (A p) (D p) (tiny_vec (tiny_start p)) 0 i != 0.
Proof.
move=> Hp Ht F; have s0 := start_neq0 Hp.
have [q Hq Nq] : exists2 q : nat, (0 < q)%N & (2 ^ 127 - 1 = q)%N.
  by exists (2 ^ 127 - 1)%N => //; rewrite subn_gt0 -{1}(expn0 2) ltn_exp2l.
exists q.-1; have LG := tiny_lin_all (p, false).
have Hr := PeriodProofs4.run_ok LG q.-1 (start_ok Hp).
have Er := PeriodProofs4.run_abs LG q.-1 (start_ok Hp).
move: Hr Er; set u := run G q.-1 (tiny_start p) => okU Eu.
rewrite /out_seq -Eu -(@tiny_linout (p, false) u 0%N) //.
have En : tiny_vec (tiny_generate u).2 = tiny_vec (tiny_start p).
  have := lin_generate_abs LG okU; rewrite /= => ->; rewrite Eu -stS prednK // -Nq.
  by have [_ -> _] := F.
have [U1 U2 U3 U4] := okU; have [V1 V2 V3 V4] := lin_generate_ok LG okU.
have : q_norm (tiny_next (tm_par u) (tm_st u)) = q_norm (0, 0, 0, 1)%num by apply/(tiny_vec_eq (g := (tiny_generate u).2) (h := tiny_start p) V4).
move: V4; rewrite /= U1 /=; case: (tiny_next _ _) => [[[a0 a1] a2] a3] _ [E0 -> -> ->].
have B0 : N.testbit a0 0 = false by have := N.land_spec a0 0x7fffffff 0; rewrite E0 /= andbT.
rewrite tiny_temperE /tT Ht; cbn [fst snd].
have -> : sel (N.testbit (N.lxor a0 (wshr 0 8)) 0) 0 = 0%num by case: (N.testbit _ _).
by rewrite !N.lxor_spec B0.
Qed.

(** The test of one parameter set. *)
Section Program.
Variable M : seq 'F_2 -> nat -> f2x.
Variable pos : N -> res Z.
Hypothesis HM : minpolyseq_spec M.
Hypothesis Hpos : pos_spec 32 pos.
Variable id : N.

Lemma param_ok v : p_ok (tiny_params id v) /\ tp_tmat (tiny_params id v) = 0%num.
Proof. by split; first exact: setUp_ok. Qed.
Lemma trial_test p : p_ok p -> tp_tmat p = 0%num ->
  exists mu, PeriodModel.minpoly G M (tiny_start p) 0%coqZ 0%coqZ = Ret (mu, run G (2 * 127) (tiny_start p)) /\
  exists b, (if (deg mu =? Z.of_nat 127)%coqZ then pr_call MersennePrimitivity (Z.of_nat 127) mu else Ret false) = Ret b /\
  (b <-> tiny_maximal p) /\ (tiny_maximal p -> mu = char_poly (A p)).
Proof.
move=> Hp Ht.
have [|mu [E Hm]] := minpoly_spec (tiny_lin_all (p, false)) (@tiny_linout (p, false)) HM (stateSize := 0) (start_ok Hp) (p := 0%N) (erefl _); first by [].
exists mu; split; first exact: E.
have [b [Eb Hb]] := m127_decides mu.
have Hgood : primitive mu 127 <-> tiny_maximal p.
  split=> H.
  - by move=> x x0; apply: (@good_full _ (A p) (D p) (tiny_vec (tiny_start p)) 0%N) x0; exists mu.
  - have F := H _ (start_neq0 Hp).
    have [//|q Hq Pq] := full_good (A := A p) (D := D p) (p := 0%N) _ F (low_bit Hp Ht F).
    by rewrite (minpoly_unique Hm Hq).
have Hc : tiny_maximal p -> mu = char_poly (A p).
  move=> /Hgood [_ sz _ _]; apply: size_eq_dvd; [exact: minpoly_char Hm|by rewrite size_char_poly sz].
case: ifP => Ed.
  exists b; split; first exact: Eb.
  by split; [rewrite Hb; exact: Hgood|exact: Hc].
exists false; split; first exact: erefl.
split; last exact: Hc.
split; first by [].
move=> /Hgood [_ sz _ _].
by move: Ed; rewrite degZ_eq sz eqxx.
Qed.

Lemma maxP p : tiny_maximal p -> forall x, x != 0 -> full_period (A p) x.
Proof. by []. Qed.
Lemma max_eq p q : A p = A q -> tiny_maximal p -> tiny_maximal q.
Proof. by rewrite /tiny_maximal => ->. Qed.
Lemma max_st p k x : tiny_maximal p -> x != 0 -> st (A p) k x != 0.
Proof. exact: maximal_st (ltn0Sn 126). Qed.
Local Opaque tiny_maximal.

(** * The search for a recursion *)
Notation good v := (tiny_maximal (tiny_params id v)).
Notation sub v := (tiny_start (tiny_params id v)).
Definition inv (g : tiny) : Prop := tp_id (tm_par g) = id /\ tm_rev g = false.
Lemma setUp_stream v l b g : inv g -> stream (v :: l) b ->
  exists b' g', [/\ tiny_setUp g b = Ret (g', b'), g_seed G 1 g' = sub v & stream l b'].
Proof.
move=> [I1 I2] [b' [E H]]; exists b', (tiny_setUpParam v g); split; [by rewrite /tiny_setUp E| |exact: H].
rewrite /tiny_start /tiny_params /tiny_setUpParam /tiny_new; cbn [g_seed tiny_ops]; rewrite /tiny_seed.
by cbn [tm_par tm_rev tm_st tp_id]; rewrite I1 I2.
Qed.
Lemma sub_run v k : tiny_ok (tiny_params id v, false) (run G k (sub v)).
Proof. by apply: (PeriodProofs4.run_ok (tiny_lin_all _)); apply: start_ok; case: (param_ok v). Qed.
Lemma run_inv v k : inv (run G k (sub v)).
Proof. by have [E1 E2 _ _] := sub_run v k; split; rewrite ?E1 ?E2. Qed.

Lemma loop_spec tries o l : inv (rs_rand o) -> stream l (rs_base o) ->
  match rs_loop G M tiny_setUp 1 tries MersennePrimitivity 127 o with
  | Throw => forall v, List.In v l -> ~ good v
  | Ret (false, o') => exists l1 l2, [/\ l = l1 ++ l2, length l1 = tries, stream l2 (rs_base o'), inv (rs_rand o') &
                         forall v, List.In v l1 -> ~ good v]
  | Ret (true, o') => exists l1 v l2, [/\ l = l1 ++ v :: l2, stream l2 (rs_base o'),
                         forall v, List.In v l1 -> ~ good v, good v /\ rs_poly o' = char_poly (A (tiny_params id v)) &
                         rs_rand o' = run G (2 * 127) (sub v)]
  | _ => False
  end.
Proof.
elim: tries o l => [|c IH] o l Io Hl; first by exists nil, l.
cbn [rs_loop].
case: l Hl => [|v l] Hl; first by rewrite /tiny_setUp Hl.
have [b' [g' [-> Eg Hb']]] := setUp_stream Io Hl.
cbn [bind]; rewrite Eg.
have [P1 P2] := param_ok v.
have [mu [-> [b [Eb [Hb Hc]]]]] := trial_test P1 P2.
cbn [bind].
set o1 := Build_rs_state _ _ _ _.
have -> : (if (deg mu =? Z.of_nat 127)%coqZ then
   do p <- pr_call MersennePrimitivity (Z.of_nat 127) mu; (if p then Ret (true, o1) else rs_loop G M tiny_setUp 1 c MersennePrimitivity 127 o1)
   else rs_loop G M tiny_setUp 1 c MersennePrimitivity 127 o1) =
   if b then Ret (true, o1) else rs_loop G M tiny_setUp 1 c MersennePrimitivity 127 o1.
  by move: Eb; case: ifP => _; [move=> ->|case=> <-].
case: b Hb {Eb} => -[Hb1 Hb2].
  have Hg : good v by exact: Hb1.
  exists nil, v, l; split.
  - exact: erefl.
  - exact: Hb'.
  - by move=> u [].
  - by split; [exact: Hg|exact: Hc Hg].
  - exact: erefl.
have := IH o1 l (run_inv v _) Hb'.
case: (rs_loop _ _ _ _ _ _ _ _) => [[[|] o']||||]; [| |by case| |by case|by case].
- move=> [l1 [w [l2 [-> H1 H2 H3 H4]]]]; exists (v :: l1), w, l2; split; [exact: erefl|exact: H1| |exact: H3|exact: H4].
  by move=> u [<-|]; [move=> Hg; have := Hb2 Hg|exact: H2].
- move=> [l1 [l2 [-> H1 H2 H3 H4]]]; exists (v :: l1), l2; split; [exact: erefl|by rewrite /= H1|exact: H2|exact: H3|].
  by move=> u [<-|]; [move=> Hg; have := Hb2 Hg|exact: H4].
- by move=> H u [<-|]; [move=> Hg; have := Hb2 Hg|exact: H].
Qed.
Lemma find_spec fuel o l : inv (rs_rand o) -> stream l (rs_base o) -> (length l < fuel)%N ->
  match rt_find G M tiny_setUp 1 fuel MersennePrimitivity 127 o with
  | Throw => forall v, List.In v l -> ~ good v
  | Ret o' => exists l1 v l2, [/\ l = l1 ++ v :: l2, stream l2 (rs_base o'),
                         forall v, List.In v l1 -> ~ good v, good v /\ rs_poly o' = char_poly (A (tiny_params id v)) &
                         rs_rand o' = run G (2 * 127) (sub v)]
  | _ => False
  end.
Proof.
elim: fuel o l => [//|f IH] o l Io Hl Hf; cbn [rt_find]; rewrite /rs_start [g_bitSize _ _]/=.
have := loop_spec (Z.to_nat (1000 * 127)) Io Hl.
case: (rs_loop _ _ _ _ _ _ _ _) => [[[|] o']||||]; cbn [bind]; [move=> H; exact: H| |by case|move=> H; exact: H|by case|by case].
move=> [l1 [l2 [El H1 H2 H3 H4]]]; subst l.
have L2 : (length l2 < f)%N by move: Hf; rewrite List.app_length H1; lia.
have := IH o' l2 H3 H2 L2.
case: (rt_find _ _ _ _ _ _ _ _) => [o2||||]; [|by case| |by case|by case].
- move=> [k1 [v [k2 [-> K1 K2 K3 K4]]]]; exists (l1 ++ k1), v, k2; split; [by rewrite -catA|exact: K1| |exact: K3|exact: K4].
  by move=> u /List.in_app_iff [|]; [exact: H4|exact: K2].
- by move=> K u /List.in_app_iff [|]; [exact: H4|exact: K].
Qed.

(** * One line *)
Variables (efuel sfuel : nat) (veq0 : list Z).
Hypothesis Hfuel : (17000 <= N.of_nat efuel)%num.
Hypothesis Hsf : (23 < sfuel)%N.
Hypothesis Hveq : (32 <= length veq0)%N.
Notation cost := (tiny_cost pos efuel veq0).

Lemma total_ok g : tiny_legal g -> tiny_maximal (tm_par g) -> tiny_vec g != 0 ->
  total_defect (A (tm_par g)) (C (tm_par g)) 32 (cost g).
Proof.
move=> Hg Hm g0; have [_ [[k [K1 K2]] _]] := tiny_defect_ok Hpos Hfuel Hveq Hg.
exists k; split=> // v x Hv x0.
by apply/(start_maximal (C (tm_par g)) v _ (maxP Hm g0) x0); exact: K1.
Qed.
Lemma line_ok v : good v -> let g0 := run G (2 * 127) (sub v) in
  exists g1 g2, [/\ tiny_legal g0, stlsb32 pos efuel veq0 sfuel g0 = Ret (0%coqZ, g1), tiny_legal g1 /\ tm_rev g1 = false,
    st32 pos efuel veq0 sfuel g1 = Ret (0%coqZ, g2) & tiny_legal g2 /\ inv g2 /\
    tiny_line_for id v {| tl_poly := char_poly (A (tiny_params id v)); tl_par := tm_par g2;
                          tl_weight := weight (char_poly (A (tiny_params id v))); tl_delta := cost g2 |}].
Proof.
move=> H3 g0.
have [P1 P2 P3 P4] := sub_run v (2 * 127); rewrite -/g0 in P1 P2 P3 P4.
have L0 : tiny_legal g0 by split; [rewrite P1|].
have g00 : TM (tm_st g0) (tm_par g0) false = g0 by move: P2; clearbody g0; case: (g0) => st p r /= ->.
have [|g1 [E1 [L1 [R1 T1]]]] := stlsb32_ok Hpos Hfuel Hveq _ L0 (f := sfuel); first by lia.
have g10 : TM (tm_st g1) (tm_par g1) false = g1 by move: R1; case: (g1) => st p r /= ->.
have [g2 [E2 [L2 [R2 T2]]]] := st32_ok Hpos Hfuel Hveq Hsf L1.
rewrite g00 in T1; rewrite g10 in T2.
have [S1 I1 M1 N1 _] := tempered_par T1; have [S2 I2 M2 N2 _] := tempered_par T2.
have g0n : tiny_vec g0 != 0.
  have okS := start_ok (proj1 (param_ok v)).
  rewrite /g0 (PeriodProofs4.run_abs (tiny_lin_all (tiny_params id v, false)) _ okS).
  by apply: max_st; [exact: H3|apply: start_neq0; case: (param_ok v)].
have EA : A (tm_par g2) = A (tiny_params id v).
  by apply: tiny_A_mat; cbn [fst]; [rewrite M2 M1 P1|rewrite N2 N1 P1].
exists g1, g2; split; [exact: L0|exact: E1|by split|exact: E2|].
split; first exact: L2.
split; first by split; [rewrite I2 I1 P1|exact: R2].
exists g0, g1, g2, cost; split; [exact: P1|by split| |by split|].
- by move=> g' Hg'; have [_ [H _]] := tiny_defect_ok Hpos Hfuel Hveq Hg'.
- split; [exact: erefl|by rewrite EA| |exact: erefl|].
    by apply: weight_ok; rewrite size_char_poly.
  apply: total_ok; [exact: L2|exact: (max_eq (esym EA))|].
  have -> : tiny_vec g2 = tiny_vec g0 by apply/rowP => i; rewrite !mxE /tiny_bits S2 S1.
  exact: g0n.
Qed.
Lemma search_spec ffuel verbose g l b : inv g -> stream l b -> (length l < ffuel)%N ->
  match td_search M pos efuel sfuel ffuel veq0 verbose g b with
  | Throw => forall v, List.In v l -> ~ good v
  | Ret (found, r) => found /\ exists l1 v l2, [/\ l = l1 ++ v :: l2, stream l2 (rt_base r),
       forall v, List.In v l1 -> ~ good v, good v /\ inv (rt_rand r) &
       tiny_line_for id v {| tl_poly := rt_poly r; tl_par := tm_par (rt_rand r); tl_weight := rt_weight r; tl_delta := rt_delta r |}]
  | _ => False
  end.
Proof.
move=> Ig Hl Hf; rewrite /td_search /rt_search [g_bitSize _ _]/=.
set o := Build_rs_state _ _ _ _.
have := find_spec (o := o) Ig Hl Hf; rewrite -[Z.of_nat 127]/127%coqZ.
case: (rt_find _ _ _ _ _ _ _ _) => [o'||||]; cbn [bind]; [|by case|move=> H; exact: H|by case|by case].
move=> [l1 [v [l2 [-> H1 H2 [H3 H4] H5]]]].
have [g1 [g2 [L0 E1 [L1 R1] E2 [L2 [I2 HL]]]]] := line_ok H3.
rewrite -H5 in L0 E1.
have ED s : tiny_legal s -> rt_equidist G tiny_temper_ops pos efuel veq0 s = Ret (cost s).
  by move=> Hs; have [E _] := tiny_defect_ok Hpos Hfuel Hveq Hs.
have EV : (if verbose then rt_equidist G tiny_temper_ops pos efuel veq0 (rs_rand o') else Ret 0%coqZ) = Ret (if verbose then cost (rs_rand o') else 0%coqZ).
  by case: (verbose) => //; exact: ED.
rewrite EV; cbn [bind]; rewrite E1; cbn [bind].
have g10 : TM (tm_st g1) (tm_par g1) false = g1 by move: R1; case: (g1) => st p r /= ->.
have -> : (if verbose
       then let l := t_setRev tiny_temper_ops g1 in
            do _ <- rt_equidist G tiny_temper_ops pos efuel veq0 l; Ret (t_resetRev tiny_temper_ops l)
       else Ret g1) = Ret g1.
  case: (verbose) => //; cbv zeta; rewrite (ED (t_setRev tiny_temper_ops g1)); last exact: L1.
  by cbn [bind]; rewrite -{2}g10.
cbn [bind]; rewrite E2; cbn [bind]; rewrite (ED _ L2); cbn [bind].
split; first exact: erefl.
exists l1, v, l2; split; [exact: erefl|exact: H1|exact: H2|by split|].
by move: HL; rewrite -H4.
Qed.

(** * The program *)
Lemma decide v : good v \/ ~ good v.
Proof.
have [P1 P2] := param_ok v.
have [mu [_ [b [_ [[H1 H2] _]]]]] := trial_test P1 P2.
by case: b H1 H2 => H1 H2; [left; exact: H1|right=> Hg; have := H2 Hg].
Qed.
Lemma listing_exists l : StronglySorted (fun a b => (b < a)%num) l -> exists (rs : list N) (lines : list tiny_line),
    [/\ StronglySorted (fun a b => (b < a)%num) rs,
        forall r, List.In r rs <-> List.In r l /\ good r & List.Forall2 (tiny_line_for id) rs lines].
Proof.
elim: l => [|v l IH] Hs; first by exists nil, nil; split; [constructor|move=> r; split=> [[]|[[]]]|constructor].
inversion Hs as [|? ? S1 F1]; subst.
have [rs [lines [R1 R2 R3]]] := IH S1.
case: (decide v) => Hv.
- have [g1 [g2 [_ _ _ _ [_ [_ HL]]]]] := line_ok Hv.
  exists (v :: rs); eexists (_ :: lines); split; last by constructor; [exact: HL|exact: R3].
  + constructor; first exact: R1.
    by apply/List.Forall_forall => r /R2 [Hr _]; exact: (proj1 (List.Forall_forall _ _) F1).
  + move=> r; split=> [[<-|/R2 [H1 H2]]|[[<-|H1] H2]]; [by split; [left|]|by split; [right|]|by left|].
    by right; apply/R2.
- exists rs, lines; split; [exact: R1| |exact: R3].
  move=> r; split=> [/R2 [H1 H2]|[[E|H1] H2]]; [split; [by right|exact: H2]|case: Hv; rewrite E; exact: H2|apply/R2; split; [exact: H1|exact: H2]].
Qed.
Lemma skip_app rs l1 v l2 : (forall u, List.In u l1 -> ~ good u) -> good v ->
  (forall u, List.In u rs <-> List.In u l2 /\ good u) ->
  forall u, List.In u (v :: rs) <-> List.In u (l1 ++ v :: l2) /\ good u.
Proof.
move=> H1 Hv H2 u; split.
- case=> [<-|/H2 [K1 K2]]; split; [by apply/List.in_app_iff; right; left|exact: Hv|by apply/List.in_app_iff; right; right|exact: K2].
- case=> /List.in_app_iff [K1|[<-|K1]] K2; [case: (H1 _ K1 K2)|by left|right; apply/H2; split; [exact: K1|exact: K2]].
Qed.
Lemma main_spec ffuel verbose max_delta (every : bool) count loops l b g i :
  stream l b -> inv g -> StronglySorted (fun a b => (b < a)%num) l -> (length l < ffuel)%N -> (length l < loops)%N ->
  (0 <= i)%coqZ -> (count < 2 ^ 31)%coqZ ->
  (every -> (i + Z.of_nat (length l) < 2 ^ 31)%coqZ \/ (i + Z.of_nat (length l) <= 2 ^ 31)%coqZ /\ exists2 r, List.In r l & ~ good r) ->
  exists (rs : list N) (lines : list tiny_line),
    [/\ StronglySorted (fun a b => (b < a)%num) rs,
        forall r, List.In r rs <-> List.In r l /\ good r,
        List.Forall2 (tiny_line_for id) rs lines &
        let wanted := List.filter (fun l => (tl_delta l <=? max_delta)%coqZ) lines in
        td_loop M pos efuel sfuel ffuel veq0 loops max_delta every verbose count i g b =
          Ret (if every then wanted else List.firstn (Z.to_nat (count - i)) wanted)].
Proof.
elim: loops l b g i => [//|c IH] l b g i Hl Ig Sl Lf Ll i0 Hcount Hev; cbn [td_loop].
case: ifP => Hgo; last first.
  have [rs [lines [R1 R2 R3]]] := listing_exists Sl.
  exists rs, lines; split; [exact: R1|exact: R2|exact: R3|].
  move/negbT: Hgo; rewrite negb_or => /andP[/negbTE H1 /negbTE ->].
  have -> : Z.to_nat (count - i) = 0%N by move/Z.ltb_ge: H1; lia.
  exact: erefl.
have := search_spec verbose Ig Hl Lf.
case: (td_search _ _ _ _ _ _ _ _ _) => [[found r]||||]; [|by case| |by case|by case]; last first.
  move=> H; exists nil, nil; split; [by constructor| |by constructor|by case: (every); case: (Z.to_nat _)].
  by move=> u; split=> [[]|[H1 H2]]; case: (H u).
case=> -> [l1 [v [l2 [El K1 K2 [K3 K4] HL]]]].
have [S2 Slt] : StronglySorted (fun a b => (b < a)%num) (v :: l2) /\ True.
  by split=> //; move: Sl; rewrite El => /sorted_app [].
inversion S2 as [|? ? S3 F3]; subst l0 a.
have Elen : length l = (length l1 + (length l2).+1)%N by rewrite El List.app_length.
have Lf2 : (length l2 < ffuel)%N by lia.
have Ll2 : (length l2 < c)%N by lia.
have sorted_cons rs : StronglySorted (fun a b => (b < a)%num) rs -> (forall u, List.In u rs <-> List.In u l2 /\ good u) ->
  StronglySorted (fun a b => (b < a)%num) (v :: rs).
  move=> R1 R2; constructor; first exact: R1.
  by apply/List.Forall_forall => u /R2 [Hu _]; exact: (proj1 (List.Forall_forall _ _) F3).
have bad_rest : (exists2 u, List.In u l & ~ good u) -> (1 <= length l1)%N \/ exists2 u, List.In u l2 & ~ good u.
  case=> u; rewrite El => /List.in_app_iff [Hu _|[<- []|Hu Nu]]; [left|exact: K3|by right; exists u].
  by case: (l1) Hu.
have step j : (0 <= j <= i + 1)%coqZ -> (every -> (j + Z.of_nat (length l2) < 2 ^ 31)%coqZ \/
   (j + Z.of_nat (length l2) <= 2 ^ 31)%coqZ /\ exists2 u, List.In u l2 & ~ good u).
  move=> Hj He; case: (Hev He) => [H|[H Hb]]; first by left; lia.
  by case: (bad_rest Hb) => [H1|H1]; [left; lia|right; split=> //; lia].
case: ifP => Hd.
  have [|rs [lines [R1 R2 R3 R4]]] := IH l2 (rt_base r) (rt_rand r) i K1 K4 S3 Lf2 Ll2 i0 Hcount; first by apply: step; lia.
  exists (v :: rs); eexists (_ :: lines); split; [exact: sorted_cons R1 R2|by rewrite El; exact: skip_app K2 K3 R2|by constructor; [exact: HL|exact: R3]|].
  rewrite R4; cbn [List.filter tl_delta].
  have -> : (rt_delta r <=? max_delta)%coqZ = false by lia.
  exact: erefl.
have Hi : (i =? 2 ^ 31 - 1)%coqZ = false.
  apply/Z.eqb_neq => Ei; move: Hgo => /orP[/Z.ltb_lt H|/Hev [H|[H /bad_rest [H1|[u Hu _]]]]]; try lia.
  by case: (l2) Hu Elen => //= *; lia.
rewrite Hi.
have [||rs [lines [R1 R2 R3 R4]]] := IH l2 (rt_base r) (rt_rand r) (i + 1)%coqZ K1 K4 S3 Lf2 Ll2 _ Hcount; [lia|by apply: step; lia|].
exists (v :: rs); eexists (_ :: lines); split; [exact: sorted_cons R1 R2|by rewrite El; exact: skip_app K2 K3 R2|by constructor; [exact: HL|exact: R3]|].
rewrite R4; cbn [List.filter tl_delta bind].
have -> : (rt_delta r <=? max_delta)%coqZ by lia.
case: (every) Hgo => Hgo; first exact: erefl.
have -> : Z.to_nat (count - i) = (Z.to_nat (count - (i + 1))).+1 by lia.
exact: erefl.
Qed.
End Program.

Lemma down_len k : length (down k) = k.
Proof. by elim: k => //= k ->. Qed.
Lemma td_main_spec M pos : minpolyseq_spec M -> pos_spec 32 pos ->
  forall efuel sfuel ffuel loops veq0 start id max_delta (every : bool) verbose count,
  (17000 <= N.of_nat efuel)%num -> (23 < sfuel)%N -> (32 <= length veq0)%N ->
  (start < 2 ^ 31)%num -> (start + 1 < N.of_nat ffuel)%num -> (start + 1 < N.of_nat loops)%num -> (count < 2 ^ 31)%coqZ ->
  (every -> (start + 1 < 2 ^ 31)%num \/ exists2 r, (r <= start)%num & ~ tiny_maximal (tiny_params id r)) ->
  exists out, td_main M pos efuel sfuel ffuel veq0 loops start id max_delta every verbose count = Ret out /\
    tiny_listing id start max_delta every (Z.to_nat count) out.
Proof.
move=> HM Hpos efuel sfuel ffuel loops veq0 start id max_delta every verbose count He Hs Hv Hst Hf Hl Hc Hev.
have HS : stream (down (N.to_nat (start + 1))) (sq_make_seed 0 start).
  have := stream_down (k := N.to_nat (start + 1)); case E: (N.to_nat (start + 1)) => [|k]; first lia.
  have -> : start = N.of_nat k by lia.
  by apply; lia.
have I0 : inv id (tiny_new id) by [].
have [|||rs [lines [R1 R2 R3 R4]]] := main_spec HM Hpos He Hs Hv (ffuel := ffuel) verbose max_delta (every := every) (count := count) (loops := loops) (i := 0%coqZ)
  HS I0 (sorted_down _) _ _ (Z.le_refl _) Hc.
- by rewrite down_len; lia.
- by rewrite down_len; lia.
- rewrite down_len => /Hev [H|[r H1 H2]]; first by left; lia.
  right; split; first by lia.
  exists r; last exact: H2.
  by apply/in_down; lia.
- eexists; split; first exact: R4.
  exists rs, lines; split; [exact: R1| |exact: R3|by rewrite Z.sub_0_r].
  move=> r; rewrite R2 in_down; have -> : N.of_nat (N.to_nat (start + 1)) = (start + 1)%num by lia.
  by split=> -[H1 H2]; (split; [lia|exact: H2]).
Qed.
