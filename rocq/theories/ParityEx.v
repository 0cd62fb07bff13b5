(** Concrete case for searchParity: the rotation of three bits, whose
    characteristic polynomial X^3+1 has the large factor X^2+X+1. *)
From Coq Require Import NArith ZArith List Bool Lia.
From mathcomp Require Import all_ssreflect all_algebra.
From mathcomp Require Import zify.
From Verif Require Import Base UtilModel GenModel PolyF2 LinSpec LinLemmas LinInst PeriodModel PeriodSpec PolyAct.
From Verif Require Import PeriodProofs PeriodProofs2 PeriodProofs3 PeriodProofs4 PeriodProofs5 PeriodProofs6 PeriodProofs7 PeriodEx.
From Verif Require Import ParityModel ParitySpec ParityProofs ParityProofs2 ParityProofs3 ParityProofs4.
Set Implicit Arguments.
Unset Strict Implicit.
Unset Printing Implicit Defensive.
Import GRing.Theory.
Local Open Scope ring_scope.
Delimit Scope Z_scope with coqZ.

(** A kernel computation by exhaustion. *)
Fixpoint all_rows (r : nat) : list (list bool) :=
  match r with
  | O => nil :: nil
  | Datatypes.S r' => List.app (List.map (cons false) (all_rows r')) (List.map (cons true) (all_rows r'))
  end.
Definition dotb (r : nat) (m : nat -> nat -> bool) (y : list bool) (j : nat) : bool :=
  List.fold_right (fun i acc => xorb (List.nth i y false && m i j) acc) false (List.seq 0 r).
Definition brute (r c : nat) (m : nat -> nat -> bool) : list (list bool) :=
  List.filter (fun y => List.existsb (fun b => b) y && List.forallb (fun j => negb (dotb r m y j)) (List.seq 0 c)) (all_rows r).

Lemma all_rows_in r y : List.In y (all_rows r) <-> length y = r.
Proof.
elim: r y => [|r IH] y /=.
  by split=> [[<-|//]|]; [ | case: y => // _; left].
rewrite List.in_app_iff !List.in_map_iff; split.
  by case=> -[z [<- /IH <-]].
case: y => // b y [Hy]; case: b; [right|left]; exists y; split=> //; exact/IH.
Qed.
Lemma dotb_col r m y j : (dotb r m y j)%:R = dot_col r m (fun i => List.nth i y false) j.
Proof.
rewrite /dotb /dot_col -(big_mkord xpredT (fun i => (List.nth i y false && m i j)%:R)) /index_iota subn0.
have -> : List.seq 0 r = iota 0 r by elim: (r) (0%N) => //= k IH i; rewrite IH.
elim: (iota 0 r) => [|i l IH] /=; first by rewrite big_nil.
by rewrite big_cons -IH; case: (_ && _); case: (List.fold_right _ _ _); apply/eqP.
Qed.
Lemma brute_spec : kernel_spec brute.
Proof.
move=> r c m; split.
  move=> y /List.filter_In[/all_rows_in ly /andP[/List.existsb_exists[b [Hb Eb]] /List.forallb_forall Hc]].
  split=> // [j Hj|].
    rewrite -dotb_col; have /negbTE -> // : negb (dotb r m y j).
    by apply: Hc; apply/List.in_seq; lia.
  have [i [Hi Ei]] := List.In_nth _ _ false Hb; exists i; first by rewrite -ly; apply/ltP.
  by rewrite Ei.
move=> E y Hy i Hi; apply: contraTF isT => yi.
pose l := List.map y (List.seq 0 r).
have ln k : (k < r)%N -> List.nth k l false = y k.
  move=> Hk; rewrite /l (List.nth_indep _ false (y 0%N)); last by rewrite List.map_length List.seq_length; apply/ltP.
  by rewrite List.map_nth List.seq_nth //; apply/ltP.
have : List.In l (brute r c m).
  apply/List.filter_In; split; first by apply/all_rows_in; rewrite List.map_length List.seq_length.
  apply/andP; split.
    apply/List.existsb_exists; exists true; split=> //; rewrite -yi.
    by apply/List.in_map/List.in_seq; lia.
  apply/List.forallb_forall => j /List.in_seq Hj; have jc : (j < c)%N by lia.
  have := dotb_col r m l j; rewrite /dot_col (eq_bigr (fun i : 'I_r => (y i && m i j)%:R)) => [|k _]; last by rewrite ln.
  have := Hy j jc; rewrite /dot_col => ->; by case: dotb.
by rewrite E.
Qed.

(** The rotation as a reducible generator with Mersenne exponent two; the
    parity word is the state. *)
Definition toy_par : par_ops toy := {|
  p_getMexp := fun _ => 2%coqZ;
  p_setOneBit := fun i s => Ret (s.1, 2 ^ N.of_nat i)%num;
  p_getParityValue := fun s => s.2;
  p_setParityValue := fun v s => (s.1, v) |}.
Definition toy_e (i : nat) : 'rV['F_2]_3 := tabs (false, 2 ^ N.of_nat i)%num.

Lemma toy_parity : parity_gen toy_ops toy_par (toy_ok false) tabs 3 toy_e (tC false).
Proof.
split=> //.
- move=> [a x] [/= -> Hx]; rewrite /vec_of; apply/idP/eqP => [/N.eqb_spec ->|/rowP E].
    by apply/rowP => i; rewrite !mxE /toy_bits N.bits_0.
  have H (i : nat) (Hi : (i < 3)%N) : N.testbit x (N.of_nat i) = false.
    by have := E (Ordinal Hi); rewrite !mxE /toy_bits /=; case: N.testbit.
  have := H 0%N isT; have := H 1%N isT; have := H 2%N isT.
  by move: Hx {H E} => Hx; cases8 Hx.
- move=> [a x] i [/= -> Hx] Hi; right; exists (false, 2 ^ N.of_nat i)%num; split=> //.
  by case: (lt3 Hi) => ->.
- apply/row_fullP; exists 1%:M; rewrite mul1mx; apply/matrixP => i j; rewrite !mxE /toy_bits /=.
  by case: i => -[|[|[|//]]] Hi; case: j => -[|[|[|//]]] Hj.
- by move=> [a x] [].
- move=> [a x] j Hs Hj.
  have Hw : (1 <= 3 <= 3)%coqZ by [].
  have Hj' : (Z.of_nat j < 3)%coqZ by move: Hj => /=; lia.
  have := lin_len_out (toy_lin false) Hs (v := 3%coqZ) Hw (j := j) Hj'.
  rewrite (_ : (Z.of_nat j <? 3)%coqZ = true); last by apply/Z.ltb_spec0.
  move=> <-; congr msb; case: Hs => _ /= Hx; by cases8 Hx.
Qed.
Definition toy_of (x : 'rV['F_2]_3) : toy :=
  toy_mk false (fun i => if insub i is Some o then x 0 (o : 'I_3) != 0 else false).
Lemma toy_of_ok x : toy_ok false (toy_of x).
Proof. by split=> //; rewrite /toy_of /toy_mk /=; case: insub => [?|]; case: insub => [?|]; case: insub => [?|]; do ?case: (_ != _). Qed.
Lemma toy_ofK x : tabs (toy_of x) = x.
Proof.
apply/rowP => i; rewrite mxE /toy_of.
have E : toy_bits (toy_mk false (fun i => if insub i is Some o then x 0 (o : 'I_3) != 0 else false)) i = (x 0 i != 0).
  have K (f : nat -> bool) k : (k < 3)%N -> toy_bits (toy_mk false f) k = f k.
    by move=> /lt3[] ->; rewrite /toy_bits /toy_mk /=; case: (f 0%N); case: (f 1%N); case: (f 2%N).
  by rewrite K // valK.
by rewrite E; case: (eqVneq (x 0 i) 0) => [->|/f2_neq0 ->].
Qed.
Lemma toy_observable : observable (tA false) (tC false) 3.
Proof.
move=> x H; have oks := toy_of_ok x; rewrite -(toy_ofK x) in H *.
suff -> : toy_of x = (false, 0%num) by apply/rowP => i; rewrite !mxE /toy_bits N.bits_0.
move: oks H; case: (toy_of x) => a y [/= -> Hy] H; congr (_, _).
apply: (@msb_inj0 3 y) => // j Hj; rewrite -(H 0%N j Hj) /=.
by apply: (@pg_parity _ _ _ _ _ _ _ _ _ toy_parity (false, y)).
Qed.

(** annihilate with X^2+X+1: the sum of the state and its two rotations. *)
Lemma toy_ann s : annihilate toy_ops s quad_poly =
  (s.1, N.lxor (N.lxor (N.lxor 0 s.2) (toy_next s).2) (toy_next (toy_next s)).2).
Proof.
rewrite /annihilate (_ : Z.to_nat (deg quad_poly + 1) = 3%N); last by rewrite /deg size_quad.
have c0 : (quad_poly`_0 == 0) = false by rewrite /quad_poly !coefD coefXn coefX coef1.
have c1 : (quad_poly`_1 == 0) = false by rewrite /quad_poly !coefD coefXn coefX coef1.
have c2 : (quad_poly`_2 == 0) = false by rewrite /quad_poly !coefD coefXn coefX coef1.
by rewrite /= c0 c1 c2.
Qed.
Lemma toy_search_parity : searchParity toy_ops toy_par toy_pos brute (Some 5%num) 3 (false, 4%num) quad_poly = Ret (3%num, (false, 3%num)).
Proof.
rewrite /searchParity; set E := Build_internal_state _ _ _.
have -> : search_loop toy_ops toy_par toy_pos 3 3 quad_poly 3 (3 - 2) (List.repeat E 3) E 0 =
  Ret [:: E; E; Build_internal_state true 7%num (false, 7%num)].
  rewrite /search_loop [(0 < 3)%N]/= /calc_basis.
  rewrite [calc_basis_loop _ _ _ _ _ _ _]/= toy_ann.
  by vm_compute.
by vm_compute.
Qed.

Notation toyC := (out_col 3 (toy_mk false) (fun s j => N.testbit s.2 (2 - N.of_nat j)%num)).
Lemma toy_setting : parity_setting toy_ops toy_par (toy_ok false) tabs (tA false) toyC toy_pos brute 3 toy_e (tC false) 2 ('X^2 + 'X + 1).
Proof.
split=> //; [exact: toy_lin | exact: toy_parity | exact: toy_pos_spec | exact: brute_spec | exact: toy_unit
  | exact: quad_irred | exact: size_quad | split; [exact: toy_quad | exact: toy_quad2]].
Qed.
Lemma toy_sur x : exists2 s, toy_ok false s & tabs s = x.
Proof. by exists (toy_of x); [exact: toy_of_ok | exact: toy_ofK]. Qed.
Lemma toy_undef : searchParity toy_ops toy_par toy_pos brute None 3 (false, 4%num) quad_poly = Undef.
Proof.
rewrite /searchParity; set E := Build_internal_state _ _ _.
have -> : search_loop toy_ops toy_par toy_pos 3 3 quad_poly 3 (3 - 2) (List.repeat E 3) E 0 =
  Ret [:: E; E; Build_internal_state true 7%num (false, 7%num)].
  rewrite /search_loop [(0 < 3)%N]/= /calc_basis.
  rewrite [calc_basis_loop _ _ _ _ _ _ _]/= toy_ann.
  by vm_compute.
by vm_compute.
Qed.
Lemma toy_inner : inner 3 3 2 = 1 /\ inner 3 3 7 = 0.
Proof. by rewrite /inner !big_ord_recl !big_ord0; split; apply/eqP. Qed.

(** The rotation with parity word zero. *)
Definition blind_par : par_ops toy := {|
  p_getMexp := fun _ => 2%coqZ;
  p_setOneBit := fun i s => Ret (s.1, 2 ^ N.of_nat i)%num;
  p_getParityValue := fun s => 0%num;
  p_setParityValue := fun v s => (s.1, v) |}.
Lemma blind_parity : parity_gen toy_ops blind_par (toy_ok false) tabs 3 toy_e (fun _ => 0).
Proof.
case: toy_parity => h1 h2 h3 h4 _ _; split=> // s j _ _.
by rewrite /obit mulmx0 mxE /msb N.bits_0.
Qed.
Lemma blind_loop fuel x : (0 < x < 8)%num -> set_state_loop toy_ops blind_par fuel (false, x) 0 = NoFuel.
Proof.
elim: fuel x => [|fuel IH] x Hx; rewrite /set_state_loop -/(set_state_loop _ _ _ _); have -> : (0 =? 0)%num by [].
  have -> // : g_isZero toy_ops (false, x) = false by rewrite /=; apply/N.eqb_spec; lia.
have -> : g_isZero toy_ops (false, x) = false by rewrite /=; apply/N.eqb_spec; lia.
have [Hx0 H8] := Hx; have -> : (g_generate toy_ops (false, x)).2 = (false, (toy_next (false, x)).2) by [].
by apply: IH; move: Hx0; cases8 H8.
Qed.
Lemma blind_search : exists (P : par_ops toy) nb e Q,
  parity_setting toy_ops P (toy_ok false) tabs (tA false) toyC toy_pos brute nb e Q 2 ('X^2 + 'X + 1) /\
  forall fuel, searchParity toy_ops P toy_pos brute (Some 5%num) fuel (false, 4%num) ('X^2 + 'X + 1) = NoFuel.
Proof.
exists blind_par, 3%N, toy_e, (fun _ => 0); split.
  by case: toy_setting => *; split=> //; exact: blind_parity.
move=> fuel; rewrite -/quad_poly.
rewrite /searchParity; set E := Build_internal_state _ _ _.
have -> // : search_loop toy_ops blind_par toy_pos fuel 3 quad_poly 3 (3 - 2) (List.repeat E 3) E 0 = NoFuel.
have H : calc_basis toy_ops blind_par fuel E quad_poly 0 = NoFuel.
  have -> : calc_basis toy_ops blind_par fuel E quad_poly 0 =
    do st' <- set_state toy_ops blind_par fuel (Build_internal_state true 0%num (annihilate toy_ops (false, 1%num) quad_poly));
    if is_zero st' then calc_basis_loop toy_ops blind_par fuel 2 quad_poly st' 1 else Ret (st', 1%N) by [].
  rewrite toy_ann /set_state; cbn [is_rg].
  have -> : (false, N.lxor (N.lxor (N.lxor 0 1) (toy_next (false, 1)).2) (toy_next (toy_next (false, 1))).2)%num = (false, 7%num) by vm_compute.
  have -> : (g_generate toy_ops (false, 7%num)).2 = (false, 7%num) by vm_compute.
  rewrite [g_isZero _ _]/= [p_getParityValue _ _]/=.
  by rewrite blind_loop.
by rewrite /search_loop [(0 < 3)%N]/= H.
Qed.

(** The rotation with one bit of output, which is also the parity word: the
    state 111 of period one fills the whole space of parity words. *)
Definition toy1_ops : gen_ops toy := {|
  g_width := 1%num;
  g_generate := fun s => (N.shiftr s.2 2, toy_next s);
  g_generate_len := fun v s => (N.shiftr s.2 2, toy_next s);
  g_add := fun s t => (s.1, N.lxor s.2 t.2);
  g_setZero := fun s => (s.1, 0%num);
  g_isZero := fun s => (s.2 =? 0)%num;
  g_seed := fun v s => (s.1, N.land v 7);
  g_bitSize := fun _ => 3%N |}.
Definition toy1_par : par_ops toy := {|
  p_getMexp := fun _ => 2%coqZ;
  p_setOneBit := fun i s => Ret (s.1, 2 ^ N.of_nat i)%num;
  p_getParityValue := fun s => N.shiftr s.2 2;
  p_setParityValue := fun v s => (s.1, v) |}.
Definition toy1_pos (x : N) : res Z := Ret (if (x =? 0)%num then (-1)%coqZ else 0%coqZ).

Lemma toy1_lin : linear_gen toy1_ops (toy_ok false) tabs (tA false) toyC.
Proof.
case: (toy_lin false) => a1 a2 a3 a4 a5 a6 a7 a8 a9 a10.
have L1 v : (1 <= v <= Z.of_N (g_width toy1_ops))%coqZ -> v = 1%coqZ by rewrite [g_width _]/=; lia.
split=> //.
- by move=> v s oks /L1 ->; exact: a1.
- by move=> v s oks /L1 ->; exact: a2.
- by move=> v [a x] [/= _ Hx] _; cases8 Hx.
- move=> v [a x] j oks /L1 -> Hj; have -> : j = 0%N by move: Hj; rewrite [g_width _]/=; lia.
  have Hv : (1 <= 1 <= Z.of_N (g_width toy_ops))%coqZ by [].
  have Hz : (Z.of_nat 0 < Z.of_N (g_width toy_ops))%coqZ by []. have := a6 1%coqZ (a, x) 0%N oks Hv Hz; rewrite [(_ <? _)%coqZ]/= => <-.
  case: oks => _ /= Hx; by cases8 Hx.
Qed.
Lemma toy1_parity : parity_gen toy1_ops toy1_par (toy_ok false) tabs 3 toy_e (tC false).
Proof.
case: toy_parity => h1 h2 h3 h4 h5 h6; split=> //.
- by move=> [a x] [/= _ Hx]; cases8 Hx.
- move=> [a x] j oks Hj; have -> : j = 0%N by move: Hj; rewrite [g_width _]/=; lia.
  rewrite -(h6 _ 0%N oks) //; case: oks => _ /= Hx; by cases8 Hx.
Qed.
Lemma toy1_setting : parity_setting toy1_ops toy1_par (toy_ok false) tabs (tA false) toyC toy1_pos brute 3 toy_e (tC false) 2 ('X^2 + 'X + 1).
Proof.
case: toy_setting => *; split=> //; [exact: toy1_lin|exact: toy1_parity|].
split=> // x; rewrite [(2 ^ _)%num]/= => Hx; have -> : x = 1%num by lia.
by exists 0%N; do !split=> //; rewrite [g_width _]/=; lia.
Qed.
Lemma toy1_throw : searchParity toy1_ops toy1_par toy1_pos brute (Some 5%num) 3 (false, 4%num) ('X^2 + 'X + 1) = Throw.
Proof.
rewrite -/quad_poly /searchParity; set E := Build_internal_state _ _ _.
have -> : search_loop toy1_ops toy1_par toy1_pos 3 3 quad_poly 3 (3 - 2) (List.repeat E 1) E 0 =
  Ret [:: Build_internal_state true 1%num (false, 7%num)].
  rewrite /search_loop [(0 < 3)%N]/= /calc_basis.
  rewrite [calc_basis_loop _ _ _ _ _ _ _]/=.
  have -> s : annihilate toy1_ops s quad_poly = annihilate toy_ops s quad_poly by [].
  rewrite toy_ann.
  by vm_compute.
by vm_compute.
Qed.
Lemma toy_search_undef : exists (S : Type) (G : gen_ops S) P (n : nat) ok (abs : S -> 'rV['F_2]_n) A C pos kernel nb e Q d (f : f2x) g,
  [/\ parity_setting G P ok abs A C pos kernel nb e Q d f, ok g, p_getMexp P g = Z.of_nat d &
      searchParity G P pos kernel None 3 g f = Undef].
Proof. do 15!eexists; exists (false, 4%num); split; [exact: toy_setting | by [] | by [] | exact: toy_undef]. Qed.
Lemma toy_example : parity_setting toy_ops toy_par (toy_ok false) tabs (tA false) toyC toy_pos brute 3 toy_e (tC false) 2 ('X^2 + 'X + 1) /\
  [/\ toy_ok false (false, 4%num), primitive ('X^2 + 'X + 1 : f2x) 2, observable (tA false) (tC false) 3 &
   [/\ searchParity toy_ops toy_par toy_pos brute (Some 5%num) 3 (false, 4%num) ('X^2 + 'X + 1) = Ret (3%num, (false, 3%num)),
      inner 3 3 2 = 1, inner 3 3 7 = 0 & forall x, exists2 s, toy_ok false s & tabs s = x]].
Proof.
split; first exact: toy_setting.
split; [by [] | exact: quad_primitive | exact: toy_observable |].
by split; [exact: toy_search_parity | exact: toy_inner.1 | exact: toy_inner.2 | exact: toy_sur].
Qed.
