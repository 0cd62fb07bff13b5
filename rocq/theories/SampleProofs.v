(** The search programs print exactly the parameters of maximal period. *)
From Coq Require Import NArith ZArith Lia List Bool Sorted.
From mathcomp Require Import all_ssreflect all_algebra.
From mathcomp Require Import zify.
From Verif Require Import Base WordLemmas WordVec GenModel UtilModel PolyF2 LinSpec LinLemmas LinInst PeriodSpec PeriodModel
  EquiModel EquiProofs5 EquiProofs6 EquiEx PeriodProofs PeriodProofs2 PolyAct PeriodProofs4 PeriodProofs5 PeriodProofs7 SequentialModel LinOut PrimeTables PrimeTableProofs
  XorshiftModel XorshiftSpec XorshiftProofs XorshiftLin XorshiftFamily SampleModel SampleSpec.
Set Implicit Arguments.
Unset Strict Implicit.
Unset Printing Implicit Defensive.
Import GRing.Theory.
Local Open Scope ring_scope.
Delimit Scope Z_scope with coqZ.

(** * The parameter generator as a finite stream *)
Fixpoint stream (l : list N) (b : sequential) : Prop :=
  match l with
  | nil => sq_getUint32 32 b = Throw
  | v :: l' => exists b', sq_getUint32 32 b = Ret (v, b') /\ stream l' b'
  end.
Fixpoint down (k : nat) : list N :=
  match k with O => nil | S k' => N.of_nat k' :: down k' end.

Lemma stream_down k : (N.of_nat k <= 2 ^ 32)%num ->
  stream (down k) (mkSeq (if k is k'.+1 then N.of_nat k' else 2 ^ 32 - 1)%num 0 (k == 0%N)).
Proof.
elim: k => [//|k IH] H; exists (mkSeq (if k is k'.+1 then N.of_nat k' else 2 ^ 32 - 1)%num 0 (k == 0%N)).
split; last by apply: IH; lia.
rewrite /sq_getUint32 /sq_next /= N.lxor_0_r.
have -> : trunc 32 (N.of_nat k) = N.of_nat k by rewrite /trunc N.mod_small //; lia.
congr (Ret (_, mkSeq _ _ _)).
- case: k H {IH} => [//|k] H; rewrite /wsub /trunc.
  have -> : (N.of_nat k.+1 + (2 ^ 32 - 1 mod 2 ^ 32) = N.of_nat k + 1 * 2 ^ 32)%num.
    by rewrite [(1 mod _)%num]/=; lia.
  by rewrite N.mod_add // N.mod_small //; lia.
- by case: k {H IH}.
Qed.

Lemma in_down k r : List.In r (down k) <-> (r < N.of_nat k)%num.
Proof. by elim: k => [|k IH] /=; [lia|rewrite IH; lia]. Qed.
Lemma sorted_down k : StronglySorted (fun a b => (b < a)%num) (down k).
Proof.
elim: k => [|k IH] /=; first by constructor.
by constructor=> //; apply/List.Forall_forall => r /in_down.
Qed.

(** Under maximal period no non-zero state leads to zero. *)
Lemma maximal_st n (B : 'M['F_2]_n) k x : (0 < n)%N -> maximal_period B -> x != 0 -> st B k x != 0.
Proof.
move=> n0 HB x0; elim: k => [//|k IH].
have [_ + _] := HB _ IH.
have [m ->] : exists m, (2 ^ n - 1 = m + 1)%N.
  exists (2 ^ n - 2)%N; have : (2 ^ 1 <= 2 ^ n)%N by rewrite leq_exp2l.
  by move: (2 ^ n)%N => e; lia.
rewrite st_add => E; apply: contraNneq IH => E0.
by rewrite -E -[st B 1 (st B k x)]st_add add1n E0 st0.
Qed.

(** * One program *)
Section Program.
Variables (P : Type) (gen : P -> xs -> N * xs) (setup : N -> P).
Variable M : seq 'F_2 -> nat -> f2x.
Variable pos : N -> res Z.
Hypothesis HM : minpolyseq_spec M.
Hypothesis Hpos : pos_spec 32 pos.
Hypothesis Hgen : forall p, exists g h, [/\ wlin g, wlin h & gen p = xs_shape g h].
Notation G := (xp_ops gen).
Notation A p := (xs_A (gen p)).
Notation C p := (xs_C (gen p)).
Notation D p := (xs_D (gen p)).

Definition xp_ok (p : P) (s : P * xs) : Prop := s.1 = p /\ xs_okw s.2.
Definition xp_vec (s : P * xs) : 'rV['F_2]_128 := xs_vec s.2.

Lemma gen_lin p : linear_gen (xs_ops (gen p)) xs_okw xs_vec (A p) (C p).
Proof. by have [g [h [Lg Lh ->]]] := Hgen p; exact: xs_shape_lin. Qed.
Lemma xp_lin p : linear_gen G (xp_ok p) xp_vec (A p) (C p).
Proof.
have [H1 H2 H3 H4 H5 H6 H7 H8 H9 H10] := gen_lin p.
split=> /=.
- by move=> s [Es Hs]; have := H1 _ Hs; rewrite /= -Es; case E: (gen s.1 s.2) => [r t]; split.
- by move=> s [Es Hs]; have := H2 _ Hs; rewrite /xp_vec /= -Es; case E: (gen s.1 s.2) => [r t].
- by move=> v s [Es Hs] Hv; have := H3 v _ Hs Hv; rewrite /= -Es; case E: (xs_generate_len _ _ _) => [r t]; split.
- by move=> v s [Es Hs] Hv; have := H4 v _ Hs Hv; rewrite /xp_vec /= -Es; case E: (xs_generate_len _ _ _) => [r t].
- by move=> v s [Es Hs] Hv; have := H5 v _ Hs Hv; rewrite /= -Es; case E: (xs_generate_len _ _ _) => [r t].
- by move=> v s j [Es Hs] Hv Hj; have := H6 v _ j Hs Hv Hj; rewrite /= /xp_vec -Es; case E: (xs_generate_len _ _ _) => [r t].
- by move=> s t [Es Hs] [Et Ht]; split=> //; exact: H7.
- by move=> s t [Es Hs] [Et Ht]; exact: H8.
- by move=> s [Es Hs]; split=> //; exact: H9 Hs.
- by move=> s [Es Hs]; exact: H10 Hs.
Qed.
Lemma xp_out p : linear_out G (xp_ok p) xp_vec (D p).
Proof.
move=> s q [Es Hs] Hq; have [g [h [Lg Lh E]]] := Hgen p.
have := shape_out Lg Lh (s := s.2) (p := q) Hs Hq; rewrite -E /xp_vec -Es /=.
by case: (gen s.1 s.2).
Qed.

Definition start p : P * xs := (p, xs_seed 1 xs_zero).
Lemma seed_start p t : g_seed G 1 (p, t) = start p.
Proof. by []. Qed.
Lemma start_ok p : xp_ok p (start p).
Proof. by []. Qed.
Lemma start_neq0 p : xp_vec (start p) != 0.
Proof.
apply/eqP; rewrite /xp_vec => E; have E0 : xs_vec xs_zero = 0 by apply/vec_zero => i _; exact: xs_bits_zero.
by have /(xs_vec_inj (proj2 (start_ok p)) xs_zero_ok) : xs_vec (start p).2 = xs_vec xs_zero by rewrite E E0.
Qed.

Lemma out_last p s : (gen p s).1 = xs_w (gen p s).2.
Proof. by have [g [h [Lg Lh ->]]] := Hgen p. Qed.

(** Maximal period shows in the lowest bit of the outputs. *)
Lemma low_bit p : full_period (A p) (xp_vec (start p)) ->
  exists i, out_seq (A p) (D p) (xp_vec (start p)) 0 i != 0.
Proof.
move=> F; pose t := (p, XS 0 0 0 1).
have t0 : xp_vec t != 0.
  apply/eqP => E; have E0 : xs_vec xs_zero = 0 by apply/vec_zero => i _; exact: xs_bits_zero.
  have ok1 : xs_okw (XS 0 0 0 1) by [].
  by have /(xs_vec_inj ok1 xs_zero_ok) : xs_vec (XS 0 0 0 1) = xs_vec xs_zero by rewrite -[LHS]/(xp_vec t) E E0.
have [i Ei] : exists i : nat, xp_vec t = st (A p) i (xp_vec (start p)).
  by have [i Ei] := st_onto F t0; exists i.
pose j := (i + (2 ^ 128 - 1) - 1)%N; exists j.
have Ej : st (A p) j.+1 (xp_vec (start p)) = xp_vec t.
  have -> : j.+1 = (i + (2 ^ 128 - 1))%N.
    rewrite /j; have : (0 < 2 ^ 128 - 1)%N by rewrite subn_gt0 -{1}(expn0 2) ltn_exp2l.
    by move: (2 ^ 128 - 1)%N => k; lia.
  by rewrite st_add; have [_ -> _] := F.
have Hr := PeriodProofs4.run_ok (xp_lin p) j (start_ok p).
have Er := PeriodProofs4.run_abs (xp_lin p) j (start_ok p).
move: Hr Er; set u := run G j (start p) => -[u1 u2] Eu.
rewrite /out_seq -Eu -(@xp_out p u 0%N) //.
have : xs_vec (gen p u.2).2 = xs_vec (XS 0 0 0 1).
  rewrite -[RHS]/(xp_vec t) -Ej stS -Eu.
  by have := lin_generate_abs (gen_lin p) u2.
have okn : xs_okw (gen p u.2).2 by exact: (lin_generate_ok (gen_lin p) u2).
move/(xs_vec_inj okn) => /(_ ltac:(by [])) En.
rewrite /= u1; have := out_last p u.2; rewrite En.
by case: (gen p u.2) => r s' /= ->.
Qed.

(** The test of one parameter set. *)
Variable ap : primitivity.
Hypothesis Hap : decides ap 128.
Lemma trial_test p : exists mu, PeriodModel.minpoly G M (start p) 0%coqZ 0%coqZ = Ret (mu, run G (2 * 128) (start p)) /\
  exists b, (if (deg mu =? Z.of_nat 128)%coqZ then pr_call ap (Z.of_nat 128) mu else Ret false) = Ret b /\
  (b <-> maximal_period (A p)).
Proof.
have [|mu [E Hm]] := minpoly_spec (xp_lin p) (@xp_out p) HM (stateSize := 0) (start_ok p) (p := 0%N) (erefl _); first by [].
exists mu; split; first by exact: E.
have [b [Eb Hb]] := Hap mu.
have Hgood : primitive mu 128 <-> maximal_period (A p).
  split=> H.
  - by move=> x x0; apply: (@good_full _ (A p) (D p) (xp_vec (start p)) 0%N) x0; exists mu.
  - have F := H _ (start_neq0 p).
    have [//|q Hq Pq] := full_good (A := A p) (D := D p) (p := 0%N) _ F (low_bit F).
    by rewrite (minpoly_unique Hm Hq).
case: ifP => Ed; first by exists b; split=> //; rewrite Hb.
exists false; split=> //; split=> // /Hgood [_ sz _ _].
by move: Ed; rewrite degZ_eq sz eqxx.
Qed.

Lemma setUp_stream v l b s : stream (v :: l) b ->
  exists b', xp_setUpParam setup s b = Ret ((setup v, s.2), b') /\ stream l b'.
Proof. by move=> [b' [E H]]; exists b'; rewrite /xp_setUpParam E. Qed.

Notation good v := (maximal_period (A (setup v))).
Lemma loop_spec tries o l : stream l (rs_base o) ->
  match rs_loop G M (xp_setUpParam setup) 1 tries ap 128 o with
  | Throw => forall v, List.In v l -> ~ good v
  | Ret (false, o') => exists l1 l2, [/\ l = l1 ++ l2, length l1 = tries, stream l2 (rs_base o') &
                         forall v, List.In v l1 -> ~ good v]
  | Ret (true, o') => exists l1 v l2, [/\ l = l1 ++ v :: l2, stream l2 (rs_base o'),
                         forall v, List.In v l1 -> ~ good v, good v &
                         rs_rand o' = run G (2 * 128) (start (setup v))]
  | _ => False
  end.
Proof.
elim: tries o l => [|c IH] o l Hl; first by exists nil, l.
cbn [rs_loop].
case: l Hl => [|v l] Hl; first by rewrite /xp_setUpParam Hl.
have [b' [-> Hb']] := setUp_stream (rs_rand o) Hl.
cbn [bind]; rewrite seed_start.
have [mu [-> [b [Eb Hb]]]] := trial_test (setup v).
cbn [bind].
set o1 := Build_rs_state _ _ _ _.
have -> : (if (deg mu =? Z.of_nat 128)%coqZ then
   do p <- pr_call ap (Z.of_nat 128) mu; (if p then Ret (true, o1) else rs_loop G M (xp_setUpParam setup) 1 c ap 128 o1)
   else rs_loop G M (xp_setUpParam setup) 1 c ap 128 o1) =
   if b then Ret (true, o1) else rs_loop G M (xp_setUpParam setup) 1 c ap 128 o1.
  by move: Eb; case: ifP => _; [move=> ->|case=> <-].
case: b Hb {Eb} => -[Hb1 Hb2].
  by exists nil, v, l; split=> //; apply: Hb1.
have := IH o1 l Hb'.
case: (rs_loop _ _ _ _ _ _ _ _) => [[[|] o']||||] //.
- move=> [l1 [w [l2 [-> H1 H2 H3 H4]]]]; exists (v :: l1), w, l2; split=> //.
  by move=> u [<-|]; [move/Hb2|exact: H2].
- move=> [l1 [l2 [-> H1 H2 H3]]]; exists (v :: l1), l2; split=> //=; first by rewrite H1.
  by move=> u [<-|]; [move/Hb2|exact: H3].
- by move=> H u [<-|]; [move/Hb2|exact: H].
Qed.

(** * The defect of an accepted generator *)
Variables (fuel : nat) (veq0 : list Z).
Hypothesis Hfuel : (17000 <= N.of_nat fuel)%num.
Hypothesis Hveq : (32 <= length veq0)%N.

Lemma xp_setting p : [/\ linear_gen G (xp_ok p) xp_vec (A p) (C p), forall s, xp_ok p s -> g_bitSize G s = 128%N,
  (128 <= 2 * 128 + 1)%N & pos_spec (g_width G) pos].
Proof. by split=> //; exact: xp_lin. Qed.

Lemma defect_ok p s : xp_ok p s -> maximal_period (A p) -> xp_vec s != 0 ->
  exists a' veq' delta, get_all_equidist G pos fuel (ae_new G s 32 0) veq0 = Ret (a', veq', delta) /\
  total_defect (A p) (C p) 32 delta.
Proof.
move=> Hs Hp s0.
have Hf : ((2 * 128 + 2 * 128 + 2) * (N.to_nat (g_width G)).+1 <= fuel)%N.
  by rewrite [g_width _]/= -/(N.to_nat 32); move: Hfuel; lia.
have Hsbs : (\rank (krylov (A p) (xp_vec s)) <= 128)%N /\
  (if (0 =? 0)%coqZ then Z.of_nat 128 else 0%coqZ) = Z.of_nat 128.
  by split=> //; exact: rank_leq_row.
have HL : (N.of_nat 32 <= g_width G)%num by [].
have [a' [veq' [[E V _ _ _] _]]] := EquiEx.run_ok (xp_setting p) (mexp := 0%coqZ) Hs Hsbs Hf (L := 32) isT HL Hveq.
exists a', veq', (defect_sum 128 32 veq'); split; first exact: E.
have HV i : (i < 32)%N -> exists k : nat, List.nth i veq' 0%coqZ = Z.of_nat k /\
  forall x, x != 0 -> equidist_dim (A p) (C p) x i.+1 k.
  move=> Hi; have [k [E1 [D1 _]]] := V i Hi; exists k; split.
    exact: List.nth_error_nth E1.
  by move=> x x0; apply/(start_maximal (C p) i.+1 k (Hp _ s0) x0).
exists (fun v => Z.to_nat (List.nth v.-1 veq' 0%coqZ)); split.
- by case=> [|v] x //= Hv x0; have [k [-> Hk]] := HV v Hv; rewrite Nat2Z.id; exact: Hk.
- rewrite /defect_sum; have -> : List.seq 1 32 = List.map S (List.seq 0 32) by [].
  rewrite List.map_map; congr (List.fold_right _ _ _).
  apply: List.map_ext_in => i /List.in_seq Hi.
  by have [k [Ek _]] := HV i ltac:(lia); rewrite /= Ek Nat2Z.id.
Qed.

Lemma run_neq0 p k : maximal_period (A p) -> xp_vec (run G k (start p)) != 0.
Proof.
move=> Hp; rewrite (PeriodProofs4.run_abs (xp_lin p)); last exact: start_ok.
by apply: maximal_st => //; exact: start_neq0.
Qed.

Lemma search_spec tries p0 l b : stream l b ->
  match xp_search gen setup M pos fuel tries p0 veq0 ap b with
  | Throw => forall v, List.In v l -> ~ good v
  | Ret (out, b') => exists l1 l2, [/\ l = l1 ++ l2, stream l2 b', Z.to_nat tries <> 0%N -> l1 <> nil &
      (out = nil /\ (forall v, List.In v l1 -> ~ good v)) \/
      (exists v delta l0, [/\ out = (delta, setup v) :: nil, l1 = l0 ++ v :: nil,
         forall v, List.In v l0 -> ~ good v, good v & total_defect (A (setup v)) (C (setup v)) 32 delta])]
  | _ => False
  end.
Proof.
move=> Hl; rewrite /xp_search /rs_start.
set o := Build_rs_state _ _ _ _.
have := loop_spec (Z.to_nat tries) (o := o) Hl.
rewrite [g_bitSize _ _]/=.
case: (rs_loop _ _ _ _ _ _ _ _) => [[[|] o']||||] //; cbn [bind].
- move=> [l1 [v [l2 [-> H1 H2 H3 H4]]]].
  have okr : xp_ok (setup v) (rs_rand o').
    by rewrite H4; apply: (PeriodProofs4.run_ok (xp_lin _)); exact: start_ok.
  have [|a' [veq' [delta [-> Hd]]]] := defect_ok okr H3; first by rewrite H4; exact: run_neq0.
  cbn [bind]; exists (l1 ++ v :: nil), l2; split=> //; first by rewrite -catA.
    by move=> _; case: (l1).
  by right; exists v, delta, l1; case: okr => ->.
- move=> [l1 [l2 [-> H1 H2 H3]]]; exists l1, l2; split=> //; last by left.
  by move=> H; case: (l1) H1 H => //= <-.
Qed.

Lemma sorted_app l1 l2 : StronglySorted (fun a b => (b < a)%num) (l1 ++ l2) ->
  StronglySorted (fun a b => (b < a)%num) l2 /\ forall a b, List.In a l1 -> List.In b l2 -> (b < a)%num.
Proof.
elim: l1 => [|x l1 IH] //= H; inversion H as [|? ? S1 F1]; subst.
have [H1 H2] := IH S1; split=> // a b [<-|Ha] Hb; last exact: H2.
by have := proj1 (List.Forall_forall _ _) F1 b; apply; apply/List.in_app_iff; right.
Qed.

Lemma main_spec loops tries p0 l b : stream l b -> StronglySorted (fun a b => (b < a)%num) l ->
  (length l < loops)%N -> Z.to_nat tries <> 0%N ->
  exists out, xp_main_loop gen setup M pos loops fuel tries p0 veq0 ap b = Ret out /\
  exists rs : list N,
    [/\ StronglySorted (fun a b => (b < a)%num) rs,
        forall r, List.In r rs <-> List.In r l /\ good r,
        List.map snd out = List.map setup rs &
        forall delta p, List.In (delta, p) out -> total_defect (A p) (C p) 32 delta].
Proof.
move=> + + + Ht; elim: loops l b => [//|c IH] l b Hl Sl Ll; cbn [xp_main_loop].
have := search_spec tries p0 Hl.
case: (xp_search _ _ _ _ _ _ _ _ _ _) => [[out b']||||] //.
- move=> [l1 [l2 [El Hl2 Hne Hout]]]; subst l.
  have [Sl2 Slt] := sorted_app Sl.
  have L2 : (length l2 < c)%N.
    by move: Ll (Hne Ht); case: (l1) => [|x l1'] //=; rewrite List.app_length => H _; lia.
  have [out2 [-> [rs2 [R1 R2 R3 R4]]]] := IH l2 b' Hl2 Sl2 L2.
  cbn [bind]; exists (out ++ out2); split=> //.
  have key v : List.In v (l1 ++ l2) <-> List.In v l1 \/ List.In v l2 by exact: List.in_app_iff.
  case: Hout => [[-> Hb]|[v [delta [l0 [-> El1 Hb Hg Hd]]]]].
    exists rs2; split=> // r; rewrite R2 key; split; first by case=> H1 H2; split=> //; right.
    by case=> [[H1|H1] H2]; [case: (Hb r)|split].
  exists (v :: rs2); split=> //=.
  + constructor=> //; apply/List.Forall_forall => r /R2 [Hr _]; apply: Slt => //.
    by rewrite El1; apply/List.in_app_iff; right; left.
  + move=> r; rewrite R2 key El1; split.
      case=> [<-|[H1 H2]]; last by split=> //; right.
      by split=> //; left; apply/List.in_app_iff; right; left.
    case=> [[/List.in_app_iff [H1|[->|//]]|H1] H2]; [by case: (Hb r)|by left|by right].
  + by rewrite R3.
  + by move=> d p [[<- <-]|H] //; exact: R4.
- move=> Hb; exists nil; split=> //; exists nil; split=> //.
    by constructor.
  by move=> r; split=> // -[H1 H2]; case: (Hb r).
Qed.
End Program.

Lemma program_spec (P : Type) (gen : P -> xs -> N * xs) (setup : N -> P) (M : seq 'F_2 -> nat -> f2x)
  (pos : N -> res Z) : minpolyseq_spec M -> pos_spec 32 pos ->
  (forall p, exists g h, [/\ wlin g, wlin h & gen p = xs_shape g h]) ->
  forall (m : N) loops fuel tries p0 veq0, (m <= 32)%num -> (17000 <= N.of_nat fuel)%num -> (32 <= length veq0)%N ->
  (2 ^ m < N.of_nat loops)%num -> (0 < tries)%coqZ ->
  exists out, xp_main gen setup M pos loops fuel (2 ^ m - 1) tries p0 veq0 = Ret out /\
    lists_maximal setup (fun p => xs_A (gen p)) (fun p => xs_C (gen p)) 32 m out.
Proof.
move=> HM Hpos Hgen m loops fuel tries p0 veq0 Hm Hf Hv Hlo Ht; rewrite /xp_main.
have [ap [-> Hap]] : exists ap, AlgorithmPrimitivity (List.map chars prime_factors2_128_1) = Ret ap /\ decides ap 128.
  by apply: shipped_decides; left.
cbn [bind].
have p32 : (2 ^ m <= 2 ^ 32)%num by apply: N.pow_le_mono_r.
have p1 : (0 < 2 ^ m)%num by apply/N.neq_0_lt_0; exact: N.pow_nonzero.
have Hs : stream (down (N.to_nat (2 ^ m))) (sq_make_seed 0 (2 ^ m - 1)).
  move: (2 ^ m)%num p32 p1 => e H1 H2.
  have := stream_down (k := N.to_nat e); case E: (N.to_nat e) => [|k]; first lia.
  have -> : (e - 1 = N.of_nat k)%num by lia.
  by apply; lia.
have len k : length (down k) = k by elim: k => //= k ->.
have L : (length (down (N.to_nat (2 ^ m))) < loops)%N.
  by rewrite len; move: (2 ^ m)%num Hlo => e; lia.
have T : Z.to_nat tries <> 0%N by lia.
have [out [E [rs [R1 R2 R3 R4]]]] := main_spec setup HM Hpos Hgen Hap Hf Hv p0 Hs (sorted_down _) L T.
exists out; split; first exact: E.
exists rs; split=> // r; rewrite R2 in_down N2Nat.id. by [].
Qed.

Lemma xs3_program M pos : minpolyseq_spec M -> pos_spec 32 pos ->
  forall loops fuel veq0, (32768 < N.of_nat loops)%num -> (17000 <= N.of_nat fuel)%num -> (32 <= length veq0)%N ->
  exists out, xs3_main M pos loops fuel veq0 = Ret out /\
    lists_maximal xs3_setUpParam (fun p => xs_A (xs3_generate p.1.1 p.1.2 p.2)) (fun p => xs_C (xs3_generate p.1.1 p.1.2 p.2))
      32 15 out.
Proof.
move=> HM Hpos loops fuel veq0 H1 H2 H3.
have Hg (p : N * N * N) : exists g h, [/\ wlin g, wlin h & xs3_generate p.1.1 p.1.2 p.2 = xs_shape g h].
  by case: p => [[a b] c]; exists (g3 c), (h3 a b); split; [exact: g3_lin|exact: h3_lin|].
exact: (program_spec xs3_setUpParam HM Hpos Hg (m := 15) (tries := 32767%coqZ)).
Qed.
Lemma xs4_program M pos : minpolyseq_spec M -> pos_spec 32 pos ->
  forall loops fuel pat0 veq0, (262144 < N.of_nat loops)%num -> (17000 <= N.of_nat fuel)%num -> (32 <= length veq0)%N ->
  exists out, xs4_main M pos loops fuel pat0 veq0 = Ret out /\
    lists_maximal xs4_setUpParam (fun p => xs_A (xs4_generate p.1.1.1 p.1.1.2 p.1.2 p.2))
      (fun p => xs_C (xs4_generate p.1.1.1 p.1.1.2 p.1.2 p.2)) 32 18 out.
Proof.
move=> HM Hpos loops fuel pat0 veq0 H1 H2 H3.
have Hg (p : N * N * N * N) : exists g h, [/\ wlin g, wlin h & xs4_generate p.1.1.1 p.1.1.2 p.1.2 p.2 = xs_shape g h].
  by case: p => [[[pat a] b] c]; exists (xs4_g pat a b), (xs4_h pat b c); split; [exact: xs4_g_lin|exact: xs4_h_lin|].
exact: (program_spec xs4_setUpParam HM Hpos Hg (m := 18) (tries := 262143%coqZ)).
Qed.
