(** Concrete cases for the period and search theorems: a generator with three
    bits of state and two parameter sets. *)
From Coq Require Import NArith ZArith List Bool Lia.
From mathcomp Require Import all_ssreflect all_algebra.
From mathcomp Require Import zify.
From Verif Require Import Base UtilModel GenModel PolyF2 LinSpec LinLemmas LinInst PeriodModel PeriodSpec PolyAct.
From Verif Require Import PeriodProofs PeriodProofs2 PeriodProofs3 PeriodProofs4 PeriodProofs5 PeriodProofs6 PeriodProofs7.
Set Implicit Arguments.
Unset Strict Implicit.
Unset Printing Implicit Defensive.
Import GRing.Theory.
Local Open Scope ring_scope.
Delimit Scope Z_scope with coqZ.

(** When generate() and generate(int) agree, the output is linear. *)
Lemma out_of_gen S (G : gen_ops S) n ok (abs : S -> 'rV['F_2]_n) A C :
  linear_gen G ok abs A C -> (0 < g_width G)%num ->
  (forall s, ok s -> (g_generate G s).1 = (g_generate_len G (Z.of_N (g_width G)) s).1) ->
  linear_out G ok abs (fun p => C (N.to_nat (g_width G) - 1 - p)%N).
Proof.
move=> LG w0 E s p oks Hp; rewrite E //.
have Hw : (1 <= Z.of_N (g_width G) <= Z.of_N (g_width G))%coqZ by lia.
set j := (N.to_nat (g_width G) - 1 - p)%N.
have Hj : (Z.of_nat j < Z.of_N (g_width G))%coqZ by rewrite /j; lia.
have := lin_len_out LG oks Hw Hj; rewrite (_ : (Z.of_nat j <? _)%coqZ = true); last by apply/Z.ltb_spec0.
by rewrite /msb /obit => <-; congr (N.testbit _ _)%:R; rewrite /j; lia.
Qed.

(** The state: a parameter and three bits.  With parameter false the bits are
    rotated (polynomial X^3+1), with true they form a feedback shift register
    (polynomial X^3+X+1).  The output is the state. *)
Definition toy := (bool * N)%type.
Definition toy_next (s : toy) : toy :=
  (s.1, N.lor (N.shiftr s.2 1)
     (if xorb (N.testbit s.2 0) (s.1 && N.testbit s.2 1) then 4 else 0)%num).
Definition toy_ops : gen_ops toy := {|
  g_width := 3%num;
  g_generate := fun s => (s.2, toy_next s);
  g_generate_len := fun v s => (N.land s.2 (7 - N.ones (3 - Z.to_N v))%num, toy_next s);
  g_add := fun s t => (s.1, N.lxor s.2 t.2);
  g_setZero := fun s => (s.1, 0%num);
  g_isZero := fun s => (s.2 =? 0)%num;
  g_seed := fun v s => (s.1, N.land v 7);
  g_bitSize := fun _ => 3%N |}.
Definition toy_ok (th : bool) (s : toy) : Prop := s.1 = th /\ (s.2 < 8)%num.
Definition toy_bits (s : toy) (i : nat) : bool := N.testbit s.2 (N.of_nat i).
Definition toy_mk (th : bool) (f : nat -> bool) : toy :=
  (th, (N.b2n (f 0%N) + 2 * N.b2n (f 1%N) + 4 * N.b2n (f 2%N))%num).

Lemma lt8 (x : N) : (x < 8)%num -> [\/ [\/ x = 0%num, x = 1%num, x = 2%num | x = 3%num] | [\/ x = 4%num, x = 5%num, x = 6%num | x = 7%num]].
Proof.
move=> H; have : x = 0%num \/ x = 1%num \/ x = 2%num \/ x = 3%num \/ x = 4%num \/ x = 5%num \/ x = 6%num \/ x = 7%num by lia.
by case=> [|[|[|[|[|[|[]]]]]]] ->; [left; constructor 1 | left; constructor 2 | left; constructor 3 | left; constructor 4 | right; constructor 1| right; constructor 2 | right; constructor 3 | right; constructor 4].
Qed.
Ltac cases8 H := case: (lt8 H) => -[] ->.
Lemma lt3 i : (i < 3)%N -> [\/ i = 0%N, i = 1%N | i = 2%N].
Proof. by case: i => [|[|[|i]]] // _; [constructor 1|constructor 2|constructor 3]. Qed.

Lemma v3 v : (1 <= v <= 3)%coqZ -> [\/ v = 1, v = 2 | v = 3]%coqZ.
Proof.
move=> H; have : (v = 1 \/ v = 2 \/ v = 3)%coqZ by lia.
by case=> [|[]] ->; [constructor 1|constructor 2|constructor 3].
Qed.

Lemma toy_lin th : linear_gen toy_ops (toy_ok th) (vec_of 3 toy_bits)
  (trans_mat 3 toy_bits (toy_mk th) toy_ops) (out_col 3 (toy_mk th) (fun s j => N.testbit s.2 (2 - N.of_nat j)%num)).
Proof.
apply: (@linear_gen_intro toy 3 (toy_ok th) toy_bits (toy_mk th) (g_add toy_ops)).
- by move=> f; split=> //; rewrite /toy_mk /=; case: (f 0%N); case: (f 1%N); case: (f 2%N).
- by move=> f i /lt3[] ->; rewrite /toy_bits /toy_mk /=; case: (f 0%N); case: (f 1%N); case: (f 2%N).
- by move=> [a x] [b y] [/= -> Hx] [/= E Hy]; split=> //=; cases8 Hx; cases8 Hy.
- by move=> [a x] [b y] i _ _ _; rewrite /toy_bits /= N.lxor_spec.
- by [].
- by move=> [a x] [/= <- Hx]; split=> //=; cases8 Hx; case: a.
- by move=> [a x] [b y] i [/= -> Hx] [/= -> Hy] /lt3[] ->; rewrite /toy_bits /=; cases8 Hx; cases8 Hy; case: th.
- move=> [a x] [/= -> Hx] Hz i /lt3 Hi; have /= H0 := Hz 0%N isT; have /= H1 := Hz 1%N isT; have /= H2 := Hz 2%N isT.
  by move: H0 H1 H2 => {Hz}; rewrite /toy_bits /=; cases8 Hx => //; case: Hi => ->; case: th.
- by move=> [a x] [b y] j _ _ _; rewrite /= N.lxor_spec.
- move=> [a x] [/= -> Hx] Hz j Hj; have /= H0 := Hz 0%N isT; have /= H1 := Hz 1%N isT; have /= H2 := Hz 2%N isT.
  by move: H0 H1 H2 => {Hz}; rewrite /toy_bits /=; cases8 Hx => //; rewrite N.bits_0.
- by [].
- move=> v [a x] [/= _ Hx] Hv; have := v3 Hv.
  by case=> ->; cases8 Hx.
- move=> v [a x] j [/= _ Hx] Hv Hj; have Hj3 : (j < 3)%N by lia.
  have := v3 Hv.
  by case=> ->; case: (lt3 Hj3) => ->; cases8 Hx.
- by move=> [a x] [/= -> _].
- by move=> [a x] i _ _.
Qed.

Notation tabs := (vec_of 3 toy_bits).
Notation tA th := (trans_mat 3 toy_bits (toy_mk th) toy_ops).
Notation tC th := (out_col 3 (toy_mk th) (fun s j => N.testbit s.2 (2 - N.of_nat j)%num)).
Definition tD (th : bool) (p : nat) : 'cV['F_2]_3 := tC th (2 - p)%N.

Lemma toy_out th : linear_out toy_ops (toy_ok th) tabs (tD th).
Proof.
apply: (out_of_gen (toy_lin th)) => // -[a x] [/= _ Hx]; by cases8 Hx.
Qed.

(** The parameter source: a counter; odd numbers choose the shift register. *)
Definition toy_setUp (s : toy) (b : N) : res (toy * N) := Ret ((N.odd b, s.2), (b + 1)%num).
Lemma toy_family : family toy_ops toy_ok (fun _ => tabs) (fun th => tA th) (fun th => tC th) tD
  (fun s => (s.2 < 8)%num) toy_setUp 1.
Proof.
split=> //.
- exact: toy_lin.
- exact: toy_out.
- by move=> th s [].
- by move=> s b s' b' _ [<- _] /=; exists (N.odd b).
Qed.

(** The lowest bits from the seeded state. *)
Definition toy_one (th : bool) : toy := (th, 1%num).
Lemma toy_one_ok th : toy_ok th (toy_one th).
Proof. by []. Qed.
Lemma toy_run_ok th k s : toy_ok th s -> toy_ok th (run toy_ops k s).
Proof. exact: (PeriodProofs4.run_ok (toy_lin th)). Qed.
Lemma toy_bit th s i : toy_ok th s ->
  out_seq (tA th) (tD th) (tabs s) 0 i = (N.testbit (run toy_ops i s).2 0)%:R.
Proof.
move=> oks; rewrite /out_seq -(PeriodProofs4.run_abs (toy_lin th)) //.
by rewrite -(toy_out (p := 0%N) (toy_run_ok i oks)).
Qed.

Lemma toy_min (u : nat -> 'F_2) (f : f2x) : size f = 4%N -> generates f u ->
  u 0%N = 1 -> u 1%N = 0 -> u 2%N = 0 -> u 3%N = 1 -> is_minpoly u f.
Proof.
move=> sf gf u0 u1 u2 u3.
have f0 : f != 0 by rewrite -size_poly_gt0 sf.
split=> // h gh; rewrite /dvdp; set r := h %% f.
have gr : generates r u by apply: gen_mod.
have sr : (size r <= 3)%N by rewrite -ltnS -sf ltn_modp.
have E i : r`_0 * u i + r`_1 * u i.+1 + r`_2 * u i.+2 = 0.
  have := gr i; rewrite -/(sact r u i) (sactE u i sr) !big_ord_recl big_ord0 /= /bump /= addr0 addrA.
  by rewrite !addnS !addn0 => H; exact: H.
have := E 0%N; rewrite u0 u1 u2 !mulr0 mulr1 !addr0 => r0.
have := E 1%N; rewrite r0 u1 u2 u3 !mulr0 mulr1 !add0r => r2.
have := E 2%N; rewrite r0 r2 u2 u3 !mul0r mulr1 add0r addr0 => r1.
apply/eqP/polyP => -[|[|[|i]]]; rewrite coef0 //.
by rewrite nth_default // (leq_trans sr).
Qed.

Definition rot_poly : f2x := 'X^3 + 1.
Definition lfsr_poly : f2x := 'X^3 + 'X + 1.
Lemma size_rot : size rot_poly = 4%N.
Proof. by rewrite /rot_poly size_addl ?size_polyXn // size_poly1. Qed.
Lemma size_lfsr : size lfsr_poly = 4%N.
Proof.
rewrite /lfsr_poly size_addl size_addl ?size_polyXn ?size_polyX ?size_poly1 //.
Qed.
Lemma run_add k j s : run toy_ops (k + j) s = run toy_ops j (run toy_ops k s).
Proof. by rewrite /run addnC iterD. Qed.

Lemma toy_low th : let u := out_seq (tA th) (tD th) (tabs (toy_one th)) 0 in
  is_minpoly u (if th then lfsr_poly else rot_poly).
Proof.
move=> u; have uE i : u i = (N.testbit (run toy_ops i (toy_one th)).2 0)%:R by apply: toy_bit.
have v0 : u 0%N = 1 by rewrite uE; case: (th); apply/eqP.
have v1 : u 1%N = 0 by rewrite uE; case: (th); apply/eqP.
have v2 : u 2%N = 0 by rewrite uE; case: (th); apply/eqP.
have v3 : u 3%N = 1 by rewrite uE; case: (th); apply/eqP.
apply: toy_min v0 v1 v2 v3; first by case: (th); [exact: size_lfsr | exact: size_rot].
move=> i; rewrite -/(sact _ u i).
have [Es Hx] := toy_run_ok i (toy_one_ok th).
have u3 : u (i + 3)%N = u i + (if th then u (i + 1)%N else 0).
  rewrite !uE !run_add; move: Hx Es; case: (run toy_ops i _) => a x /= Hx ->.
  by case: (th); cases8 Hx; apply/eqP.
have sX : sact 'X u i = u (i + 1)%N by rewrite -(sactX 1) expr1.
case: (th) u3 => u3; rewrite ?sactD !sactX ?sact1 ?sX u3.
  by rewrite -addrA [u (i + 1)%N + u i]addrC f2_addxx.
by rewrite addr0 f2_addxx.
Qed.

(** Irreducible polynomials of degree two and three. *)
Lemma f2_01 (x : 'F_2) : x = 0 \/ x = 1.
Proof. by case: x => [[|[|x]] H]; [left|right|]; first [exact/eqP | by []]. Qed.
Lemma irred_low (f : f2x) : (1 < size f <= 4)%N -> f.[0] != 0 -> f.[1] != 0 -> irreducible_poly f.
Proof.
move=> /andP[s1 s4] f0 f1; have nz : f != 0 by rewrite -size_poly_gt0 (ltn_trans _ s1).
have noroot (q : f2x) : size q = 2%N -> ~~ (q %| f).
  move=> sq; apply/negP => Dq; have /poly2_root [x Hx] := sq.
  have : root f x by move: Hx; rewrite !root_factor_theorem => /dvdp_trans; apply.
  by case: (f2_01 x) => ->; rewrite /root ?(negbTE f0) ?(negbTE f1).
split=> // q sq Dq; have q0 : q != 0 by apply: contraNneq nz => E; move: Dq; rewrite E dvd0p.
have [r rE] := dvdpP _ _ Dq.
have r0 : r != 0 by apply: contraNneq nz => E; rewrite rE E mul0r.
have sz := size_mul r0 q0; rewrite -rE in sz.
have Dr : r %| f by rewrite rE dvdp_mulr.
have n2 : size q <> 2%N by move=> /noroot; rewrite Dq.
have m2 : size r <> 2%N by move=> /noroot; rewrite Dr.
rewrite -size_poly_gt0 in q0; rewrite -size_poly_gt0 in r0.
have szE : size q = size f.
  by move: s1 s4 sq sz n2 m2 q0 r0; move: (size f) (size q) (size r) => a b c; lia.
by rewrite (size_eq_dvd Dq szE) eqpxx.
Qed.
Lemma lfsr_irred : irreducible_poly lfsr_poly.
Proof.
apply: irred_low; rewrite ?size_lfsr // /lfsr_poly !hornerE /= ?expr0n ?expr1n /= ?add0r ?oner_neq0 //.
Qed.
Lemma lfsr_primitive : primitive lfsr_poly 3.
Proof. by apply: mersenne_primitive lfsr_irred size_lfsr _. Qed.

Definition quad_poly : f2x := 'X^2 + 'X + 1.
Lemma size_quad : size quad_poly = 3%N.
Proof. rewrite /quad_poly size_addl size_addl ?size_polyXn ?size_polyX ?size_poly1 //. Qed.
Lemma quad_irred : irreducible_poly quad_poly.
Proof.
apply: irred_low; rewrite ?size_quad // /quad_poly !hornerE /= ?expr0n ?expr1n /= ?add0r ?oner_neq0 //.
Qed.
Lemma quad_primitive : primitive quad_poly 2.
Proof. by apply: mersenne_primitive quad_irred size_quad _. Qed.
Lemma rot_factor : rot_poly = quad_poly * ('X + 1).
Proof.
rewrite /rot_poly /quad_poly !mulrDl !mulrDr !mul1r !mulr1 -exprSr -expr2 -!addrA; congr (_ + _).
by rewrite addrA f2x_addxx add0r addrA f2x_addxx add0r.
Qed.
Lemma rot_large : large_factor rot_poly quad_poly 2.
Proof.
split; [exact: quad_irred | exact: size_quad | exists ('X + 1); first exact: rot_factor].
move=> h _ /dvdp_leq; rewrite size_addl ?size_polyX ?size_poly1 //; apply.
by rewrite -size_poly_gt0 size_addl ?size_polyX ?size_poly1.
Qed.

(** * The searches on the toy family *)
Lemma toy_minpoly th : minpoly toy_ops mps (toy_one th) 0 0 =
  Ret (if th then lfsr_poly else rot_poly, run toy_ops 6 (toy_one th)).
Proof.
have [|mu [E Hm]] := minpoly_spec (s := toy_one th) (p := 0%N) (toy_lin th) (@toy_out th) mps_spec (stateSize := 0%coqZ) (toy_one_ok th) (erefl _).
  by [].
by rewrite (minpoly_unique (toy_low th) Hm) E.
Qed.

Definition toy_start : rs_state toy N := Build_rs_state (false, 0%num) 0%num (0 : f2x) 0%coqZ.
Lemma rot_not_irred : irredb rot_poly = false.
Proof.
apply/negbTE/irredP => -[_ H]; have := H quad_poly; rewrite size_quad rot_factor dvdp_mulr // => /(_ isT isT).
by move/f2x_eqp/(congr1 (fun p : f2x => size p)); rewrite -rot_factor size_quad size_rot.
Qed.
Lemma rs_step (S B : Type) (G : gen_ops S) M (su : S -> B -> res (S * B)) one c prim size o s b poly r' ok :
  su (rs_rand o) (rs_base o) = Ret (s, b) -> minpoly G M (g_seed G one s) 0 0 = Ret (poly, r') ->
  pr_call prim (Z.of_nat size) poly = Ret ok -> (deg poly =? Z.of_nat size)%coqZ ->
  rs_loop G M su one c.+1 prim size o =
  let o1 := Build_rs_state r' b poly (rs_count o + 1)%coqZ in
  if ok then Ret (true, o1) else rs_loop G M su one c prim size o1.
Proof. by move=> E1 E2 E3 E4; rewrite /= E1 /= E2 /= E4 E3. Qed.
Lemma pr_rot : pr_call MersennePrimitivity 3 rot_poly = Ret false.
Proof. by rewrite /pr_call Z.eqb_sym (degZ_eq _ 3) size_rot rot_not_irred. Qed.
Lemma pr_lfsr : pr_call MersennePrimitivity 3 lfsr_poly = Ret true.
Proof. by rewrite /pr_call Z.eqb_sym (degZ_eq _ 3) size_lfsr; have /irredP -> := lfsr_irred. Qed.
Lemma toy_search : rs_start toy_ops mps toy_setUp 1 MersennePrimitivity 5 toy_start =
  Ret (true, Build_rs_state (run toy_ops 6 (toy_one true)) 2%num lfsr_poly 2%coqZ).
Proof.
have d1 : (deg rot_poly =? Z.of_nat 3)%coqZ by rewrite degZ_eq size_rot.
have d2 : (deg lfsr_poly =? Z.of_nat 3)%coqZ by rewrite degZ_eq size_lfsr.
rewrite /rs_start (_ : Z.to_nat 5 = 5%N) //.
rewrite (@rs_step _ _ toy_ops mps toy_setUp 1 4 _ 3 toy_start (false, 0%num) 1%num _ _ _ (erefl _) (toy_minpoly false) pr_rot d1).
set o1 := Build_rs_state (run _ _ _) _ _ _; cbv zeta beta iota.
have E1 : toy_setUp (rs_rand o1) (rs_base o1) = Ret ((true, (rs_rand o1).2), 2%num) by [].
by rewrite (@rs_step _ _ toy_ops mps toy_setUp 1 3 _ 3 o1 _ _ _ _ _ E1 (toy_minpoly true) pr_lfsr d2).
Qed.
Lemma rr_step (S B : Type) (G : gen_ops S) M (su : S -> B -> res (S * B)) one fuel c mexp o s b poly r' irr :
  su (rr_rand o) (rr_base o) = Ret (s, b) -> minpoly G M (g_seed G one s) 0 0 = Ret (poly, r') ->
  (deg poly <? mexp)%coqZ = false -> hasFactorOfDegree fuel poly mexp = Ret (irr, true) -> (deg irr =? mexp)%coqZ ->
  rr_loop G M su one fuel c.+1 mexp o = Ret (true, Build_rr_state r' b poly irr (rr_count o + 1)%coqZ).
Proof. by move=> E1 E2 E3 E4 E5; rewrite /= E1 /= E2 /= E3 E4 /= E5. Qed.

Lemma sizeX1 : size ('X + 1 : f2x) = 2%N.
Proof. by rewrite size_addl ?size_polyX ?size_poly1. Qed.
Lemma rot0 : rot_poly != 0.
Proof. by rewrite -size_poly_gt0 size_rot. Qed.
Lemma toy_factor : hasFactorOfDegree 5 rot_poly 2 = Ret (quad_poly, true).
Proof.
have s5 : (size rot_poly <= 5)%N by rewrite size_rot.
have [f [b [E Ht Hf]]] := hasFactor_spec 2 rot0 s5; rewrite E.
case: b Ht Hf {E} => [Ht _|_ /(_ isT quad_poly)/(_ rot_large) []//].
have [If sf [g gE _]] := Ht isT; congr (Ret (_, _)).
have Df : f %| quad_poly * ('X + 1) by rewrite -rot_factor gE dvdp_mulr.
have /orP[D1|D1] := irred_prime If Df.
  by apply: size_eq_dvd D1 _; rewrite sf size_quad.
have x0 : ('X + 1 : f2x) != 0 by rewrite -size_poly_gt0 sizeX1.
by have := dvd_size x0 D1; rewrite sizeX1 sf.
Qed.
Definition toy_start_red : rr_state toy N := Build_rr_state (false, 0%num) 0%num (0 : f2x) (0 : f2x) 0%coqZ.
Lemma toy_red_search : rr_start toy_ops mps toy_setUp 1 5 2 5 toy_start_red =
  Ret (true, Build_rr_state (run toy_ops 6 (toy_one false)) 1%num rot_poly quad_poly 1%coqZ).
Proof.
have d1 : (deg rot_poly <? 2)%coqZ = false by rewrite (degZ_lt _ 2) size_rot.
have d2 : (deg quad_poly =? 2)%coqZ by rewrite (degZ_eq _ 2) size_quad.
rewrite /rr_start (_ : Z.to_nat 5 = 5%N) //.
by rewrite (@rr_step _ _ toy_ops mps toy_setUp 1 5 4 2 toy_start_red (false, 0%num) 1%num _ _ _ (erefl _) (toy_minpoly false) d1 toy_factor d2).
Qed.

(** * The component of the rotation that belongs to X^2+X+1 *)
Lemma toy_char : char_poly (tA false) = rot_poly.
Proof. by apply/esym/ccp_full; [apply: minpoly_char (toy_low false) | rewrite size_rot]. Qed.
Lemma toy_full c : (forall p, (N.of_nat p < g_width toy_ops)%num ->
    generates c (out_seq (tA false) (tD false) (tabs (toy_one false)) p)) -> char_poly (tA false) %| c.
Proof. by move=> H; rewrite toy_char; have [_ _] := toy_low false; apply; apply: H. Qed.
Lemma toy_quad : quad_poly %| char_poly (tA false).
Proof. by rewrite toy_char rot_factor dvdp_mulr. Qed.
Lemma toy_quad2 : ~~ (quad_poly ^+ 2 %| char_poly (tA false)).
Proof.
rewrite toy_char; apply/negP => /(dvd_size rot0); rewrite size_rot expr2.
have q0 : quad_poly != 0 by rewrite -size_poly_gt0 size_quad.
by rewrite size_mul // size_quad.
Qed.
Lemma toy_unit : tA false \in unitmx.
Proof.
have E := char_poly_det (tA false); rewrite toy_char /rot_poly coefD coefXn coef1 /= in E.
by rewrite unitmxE unitfE; apply: contraPneq E => ->; rewrite mulr0 => /eqP; rewrite add0r oner_eq0.
Qed.


(** calc_1pos for three-bit words. *)
Definition toy_pos (x : N) : res Z :=
  Ret (if N.testbit x 0 then 2 else if N.testbit x 1 then 1 else if N.testbit x 2 then 0 else -1)%coqZ.
Lemma toy_pos_spec : pos_spec 3 toy_pos.
Proof.
split=> // x Hx; have {Hx} [x0 Hx] : (0 < x)%num /\ (x < 8)%num by [].
have P (p : nat) : toy_pos x = Ret (Z.of_nat p) -> (N.of_nat p < 3)%num -> msb 3 x p = 1 ->
    (forall j, (p < j)%N -> (N.of_nat j < 3)%num -> msb 3 x j = 0) ->
    exists p : nat, toy_pos x = Ret (Z.of_nat p) /\ (N.of_nat p < 3)%num /\
      msb 3 x p = 1 /\ forall j, (p < j)%N -> (N.of_nat j < 3)%num -> msb 3 x j = 0.
  by move=> *; exists p.
have J j : (N.of_nat j < 3)%num -> [\/ j = 0%N, j = 1%N | j = 2%N] by move=> ?; apply: lt3; lia.
move: x0 P; cases8 Hx => // _ P; [apply: (P 2%N) | apply: (P 1%N) | apply: (P 2%N) | apply: (P 0%N) | apply: (P 2%N) | apply: (P 1%N) | apply: (P 2%N)] => //.
all: try by apply/eqP.
all: by move=> j + /J[] E; rewrite E // => _; apply/eqP.
Qed.
Lemma print_rot : print_binary rot_poly false = [:: 49; 48; 48; 49; 100; 101; 103; 61; 51; 10]%num.
Proof.
rewrite /print_binary /deg size_rot (_ : (Z.of_nat 4 - 1 <? 0)%coqZ = false) //.
rewrite (_ : Z.to_nat _ = 4%N) // /List.seq /List.flat_map /print_digit /rot_poly.
by rewrite !coefD !coefXn !coef1.
Qed.
