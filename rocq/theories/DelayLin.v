(** Round robin generators with one more word of memory: the output is made of
    the low w - m bits of the new value R and the m high bits of the value R of
    the call before, as the weight modes of sfmt and dsfmt do it.  Such a
    generator meets the contract of the toolbox with n = size * w + m. *)
From Coq Require Import NArith ZArith Lia Bool.
From mathcomp Require Import all_ssreflect all_algebra.
From mathcomp Require Import zify.
From Verif Require Import Base WordLemmas WordVec GenModel LinSpec LinLemmas LinInst LinOut PeriodSpec ArrayOut ArrayModel ArrayWin ArrayLin.
Set Implicit Arguments.
Unset Strict Implicit.
Unset Printing Implicit Defensive.
Local Open Scope N_scope.
Delimit Scope Z_scope with coqZ.

(** The word with the low bits of x and the m high bits of y. *)
Definition mixw (w m : nat) (x y : N) : N :=
  N.lxor (trunc (N.of_nat (w - m)) x) (N.shiftl (N.shiftr y (N.of_nat (w - m))) (N.of_nat (w - m))).
Lemma mixw_bit w m x y i : N.testbit (mixw w m x y) i = N.testbit (if (i <? N.of_nat (w - m)) then x else y) i.
Proof.
rewrite /mixw N.lxor_spec trunc_spec. case: N.ltb_spec => H.
- by rewrite N.shiftl_spec_low // xorb_false_r.
- rewrite N.shiftl_spec_high' // N.shiftr_spec' xorb_false_l. congr N.testbit. lia.
Qed.
Lemma mixw_lt w m x y : x < 2 ^ N.of_nat w -> y < 2 ^ N.of_nat w -> mixw w m x y < 2 ^ N.of_nat w.
Proof.
move=> Hx Hy; apply: lt_pow2_bits => i Hi. rewrite mixw_bit. by case: (_ <? _); apply: (bits_above (N.of_nat w)).
Qed.
Lemma mixw_add w m x y x' y' : mixw w m (N.lxor x x') (N.lxor y y') = N.lxor (mixw w m x y) (mixw w m x' y').
Proof. apply: N.bits_inj => i. rewrite N.lxor_spec !mixw_bit. by case: (_ <? _); rewrite N.lxor_spec. Qed.

(** A linear map of words. *)
Record wlin (w : nat) (T : N -> N) : Prop := {
  wl_lt : forall x, x < 2 ^ N.of_nat w -> T x < 2 ^ N.of_nat w;
  wl_add : forall x y, x < 2 ^ N.of_nat w -> y < 2 ^ N.of_nat w -> T (N.lxor x y) = N.lxor (T x) (T y) }.
Lemma wl_0 w T : wlin w T -> T 0 = 0.
Proof. move=> H. have := wl_add H (pow2_pos _) (pow2_pos _). by rewrite N.lxor_0_l N.lxor_nilpotent. Qed.

Section Delay.
Variables (P : Type) (th : P) (w size m n : nat).
Variables (F R : (nat -> N) -> N) (T : N -> N) (G : gen_ops ((P * rr) * N)).
Notation st' := ((P * rr) * N)%type.
Definition dl_ok (s : st') : Prop := ar_ok th w size s.1 /\ s.2 < 2 ^ N.of_nat w.
Definition dl_out (s : st') : N := mixw w m (R (ar_win size s.1)) s.2.
Definition dl_next (s : st') : st' := (ar_step size F s.1, R (ar_win size s.1)).
Definition dl_bits (s : st') (i : nat) : bool :=
  if (i < n)%N then ar_bits w size 0 s.1 i else N.testbit s.2 (N.of_nat (w - m + (i - n))).
Definition dl_mk (f : nat -> bool) : st' :=
  (ar_mk th w size 0 f, N.shiftl (mkw m (fun j => f (n + j)%N)) (N.of_nat (w - m))).
Definition dl_addS (s t : st') : st' := (ar_addS size s.1 t.1, N.lxor s.2 t.2).
Definition dl_ob (s : st') (j : nat) : bool := N.testbit (T (dl_out s)) (N.of_nat (w - 1 - j)).
Definition dl_vec : st' -> 'rV['F_2]_(n + m) := vec_of (n + m) dl_bits.
Definition dl_A : 'M['F_2]_(n + m) := trans_mat (n + m) dl_bits dl_mk G.
Definition dl_C : nat -> 'cV['F_2]_(n + m) := out_col (n + m) dl_mk dl_ob.

Record delay_gen : Prop := {
  dg_w : (0 < w)%N;
  dg_size : (0 < size)%N;
  dg_m : (m <= w)%N;
  dg_n : n = (size * w)%N;
  dg_F : wfun w size 0 F;
  dg_R : wfun w size 0 R;
  dg_T : wlin w T;
  dg_width : g_width G = N.of_nat w;
  dg_step : forall s, dl_ok s -> g_generate G s = (dl_out s, dl_next s);
  dg_len : forall v s, dl_ok s -> (1 <= v <= Z.of_nat w)%coqZ ->
    g_generate_len G v s =
      (N.land (T (dl_out s)) (wshl (N.of_nat w) (wnot (N.of_nat w) 0) (N.of_nat w - Z.to_N v)), dl_next s);
  dg_add : forall s t, dl_ok s -> dl_ok t -> g_add G s t = dl_addS s t;
  dg_zero : forall s, dl_ok s -> dl_ok (g_setZero G s) /\
    (forall k, (k < size)%N -> ar_win size (g_setZero G s).1 k = 0) /\ (g_setZero G s).2 = 0
}.
Hypothesis H : delay_gen.

(** The array alone. *)
Definition base_ops : gen_ops (P * rr) :=
  {| g_width := N.of_nat w; g_generate := fun s => (R (ar_win size s), ar_step size F s);
     g_generate_len := fun v s =>
       (N.land (R (ar_win size s)) (wshl (N.of_nat w) (wnot (N.of_nat w) 0) (N.of_nat w - Z.to_N v)), ar_step size F s);
     g_add := ar_addS size; g_setZero := fun s => (s.1, RR 0 (List.repeat 0 size)); g_isZero := fun=> false;
     g_seed := fun _ s => s; g_bitSize := fun=> n |}.
Lemma base_ag : arr_gen th w size 0 n F R base_ops.
Proof.
case: H => w0 s0 _ -> HF HR _ _ _ _ _ _. split=> //.
- by rewrite subn0.
- move=> s [E [Hi [Hl _]]]. have N0 i : List.nth i (List.repeat 0 size) 0 = 0.
    elim: size i {s0 HF HR Hi Hl} => [|k IH] [|i] //=.
  split.
  + split=> //. split; cbn [base_ops g_setZero snd rr_idx rr_arr]; first lia. split; first exact: List.repeat_length.
    by move=> i; rewrite N0; exact: pow2_pos.
  + by move=> k _; rewrite /ar_win /win /=.
Qed.

Lemma dl_small s : dl_ok s -> small w size (ar_win size s.1).
Proof. by move=> [[_ Hs] _] k _; exact: win_lt. Qed.
Lemma dl_addS_ok s t : dl_ok s -> dl_ok t -> dl_ok (dl_addS s t).
Proof.
move=> [H1 H2] [H3 H4]. split; last exact: lxor_lt.
exact: (lin_add_ok (ag_lin base_ag) H1 H3).
Qed.
Lemma dl_add_R f s t : wfun w size 0 f -> dl_ok s -> dl_ok t ->
  f (ar_win size (dl_addS s t).1) = N.lxor (f (ar_win size s.1)) (f (ar_win size t.1)).
Proof.
move=> Wf Hs Ht. rewrite -(wf_add Wf); [|exact: dl_small|exact: dl_small].
have [[_ A1] _] := Hs; have [[_ A2] _] := Ht. have s0 := dg_size H.
apply: (wf_ext Wf); first exact: (dl_small (dl_addS_ok Hs Ht)).
- by move=> k Hk; apply: lxor_lt; exact: dl_small.
- split=> [|k /andP[_ Hk]]; [congr N.shiftr|]; rewrite /ar_win /= (win_xor w) //; lia.
Qed.
Lemma dl_bits_zero s : dl_ok s -> (forall i, (i < n + m)%N -> dl_bits s i = false) ->
  agree size 0 (ar_win size s.1) (fun=> 0) /\ forall i, N.of_nat (w - m) <= i -> N.testbit s.2 i = false.
Proof.
move=> Hs E. have [w0 s0 Hm En _ _ _ _ _ _ _ _] := H. split.
- apply/(ag_vec_zero base_ag Hs.1)/vec_zero => i Hi. have := E i. rewrite /dl_bits Hi. apply. lia.
- move=> i Hi. case: (N.ltb_spec i (N.of_nat w)) => L; last by apply: (bits_above (N.of_nat w)) => //; exact: Hs.2.
  have := E (n + (N.to_nat i - (w - m)))%N. rewrite /dl_bits.
  have -> : (n + (N.to_nat i - (w - m)) < n)%N = false by lia.
  have -> : N.of_nat (w - m + (n + (N.to_nat i - (w - m)) - n))%N = i by lia.
  apply; lia.
Qed.
Lemma wf0' f : wfun w size 0 f -> f (fun=> 0) = 0.
Proof.
move=> Wf. have Z : small w size (fun=> 0) by move=> k _; exact: pow2_pos.
have := wf_add Wf Z Z. rewrite N.lxor_nilpotent => E.
by rewrite -[RHS]E; apply: (wf_ext Wf) => //; move=> k _; exact: pow2_pos.
Qed.
Lemma wf_z f s : wfun w size 0 f -> dl_ok s -> agree size 0 (ar_win size s.1) (fun=> 0) -> f (ar_win size s.1) = 0.
Proof.
by move=> Wf Hs E; rewrite -(wf0' Wf); apply: (wf_ext Wf) => //; [exact: dl_small|move=> k _; exact: pow2_pos].
Qed.
Lemma dl_next_ok s : dl_ok s -> dl_ok (dl_next s).
Proof.
move=> Hs. split; last by apply: (wf_lt (dg_R H)); exact: dl_small.
exact: (ag_step_ok base_ag Hs.1).
Qed.

(** linear_gen_intro asks for the equality of add on all pairs of states, so a
    copy of G with the total sum is used. *)
Definition dl_G' : gen_ops st' :=
  {| g_width := g_width G; g_generate := g_generate G; g_generate_len := g_generate_len G; g_add := dl_addS;
     g_setZero := g_setZero G; g_isZero := g_isZero G; g_seed := g_seed G; g_bitSize := g_bitSize G |}.
Lemma dl_mk_ok f : dl_ok (dl_mk f).
Proof.
have [w0 s0 Hm En _ _ _ _ _ _ _ _] := H. split.
- have nE : n = (size * w - 0)%N by lia. 
  split; first by []. apply: mk_ok; first lia. move=> k _. exact: mkw_lt.
- apply: lt_pow2_bits => i Hi. rewrite /dl_mk; cbn [snd]. rewrite N.shiftl_spec_high'; last lia.
  apply: (bits_above (N.of_nat m)); [exact: mkw_lt|lia].
Qed.
Lemma dl_bits_mk f i : (i < n + m)%N -> dl_bits (dl_mk f) i = f i.
Proof.
move=> Hi. have [w0 s0 Hm En FW RW _ _ _ _ _ _] := H. rewrite /dl_bits. case: ifP => L.
- have nE : n = (size * w - 0)%N by lia. exact: (@ar_bits_mk P th w size 0 n base_ops w0 s0 w0 nE (erefl _) f i L).
- rewrite /dl_mk; cbn [snd]. rewrite N.shiftl_spec_high'; last lia.
  have -> : N.of_nat (w - m + (i - n))%N - N.of_nat (w - m) = N.of_nat (i - n) by lia.
  rewrite mkw_bit. have -> : (i - n <? m)%nat = true by lia. rewrite /=. congr f. lia.
Qed.
Lemma dl_addS_bits s t i : dl_ok s -> dl_ok t -> (i < n + m)%N -> dl_bits (dl_addS s t) i = xorb (dl_bits s i) (dl_bits t i).
Proof.
move=> Hs Ht Hi. have [w0 s0 Hm En FW RW _ _ _ _ _ _] := H. rewrite /dl_bits. case: ifP => L; last by rewrite /= N.lxor_spec.
have := lin_add_abs (ag_lin base_ag) Hs.1 Ht.1. move/rowP/(_ (Ordinal L)). rewrite !mxE -f2D. exact: f2_inj.
Qed.
Lemma dl_next_bits s t i : dl_ok s -> dl_ok t -> (i < n + m)%N ->
  dl_bits (dl_next (dl_addS s t)) i = xorb (dl_bits (dl_next s) i) (dl_bits (dl_next t) i).
Proof.
move=> Hs Ht Hi. have La := ag_lin base_ag. have Hst := dl_addS_ok Hs Ht. rewrite /dl_bits. case: ifP => L.
- have E1 := lin_generate_abs La Hs.1. have E2 := lin_generate_abs La Ht.1. have E3 := lin_generate_abs La Hst.1.
  have : ar_vec w size 0 n (dl_next (dl_addS s t)).1 = (ar_vec w size 0 n (dl_next s).1 + ar_vec w size 0 n (dl_next t).1)%R.
    rewrite [LHS]E3 [X in (X + _)%R]E1 [X in (_ + X)%R]E2 -mulmxDl. congr mulmx. exact: (lin_add_abs La Hs.1 Ht.1).
  move/rowP/(_ (Ordinal L)). rewrite !mxE -f2D. exact: f2_inj.
- cbn [dl_next snd]. by rewrite (dl_add_R (dg_R H)) // N.lxor_spec.
Qed.
Lemma dl_next_zero s : dl_ok s -> (forall i, (i < n + m)%N -> dl_bits s i = false) ->
  forall i, (i < n + m)%N -> dl_bits (dl_next s) i = false.
Proof.
move=> Hs E i Hi. have [A0 _] := dl_bits_zero Hs E. have La := ag_lin base_ag. rewrite /dl_bits. case: ifP => L.
- have := lin_generate_abs La Hs.1. have /(ag_vec_zero base_ag Hs.1) -> := A0. rewrite mul0mx.
  move/rowP/(_ (Ordinal L)). rewrite !mxE. exact: (@f2_inj _ false).
- cbn [dl_next snd]. by rewrite (wf_z (dg_R H) Hs A0) N.bits_0.
Qed.
Lemma dl_out_lt s : dl_ok s -> dl_out s < 2 ^ N.of_nat w.
Proof. by move=> Hs; apply: mixw_lt; [apply: (wf_lt (dg_R H)); exact: dl_small|exact: Hs.2]. Qed.
Lemma dl_out_add s t : dl_ok s -> dl_ok t -> dl_out (dl_addS s t) = N.lxor (dl_out s) (dl_out t).
Proof. by move=> Hs Ht; rewrite /dl_out (dl_add_R (dg_R H)) // mixw_add. Qed.
Lemma dl_out_zero s : dl_ok s -> (forall i, (i < n + m)%N -> dl_bits s i = false) -> dl_out s = 0.
Proof.
move=> Hs E. have [A0 B0] := dl_bits_zero Hs E. apply: N.bits_inj => i. rewrite /dl_out mixw_bit N.bits_0.
case: N.ltb_spec => L; first by rewrite (wf_z (dg_R H) Hs A0) N.bits_0. exact: B0.
Qed.
Lemma dl_lin' : linear_gen dl_G' dl_ok dl_vec dl_A dl_C.
Proof.
have [w0 s0 Hm En FW RW TW GW Gs Gl Ga Gz] := H.
apply: (@linear_gen_intro st' (n + m) dl_ok dl_bits dl_mk dl_addS _ _ _ _ dl_G' dl_ob);
  cbn [g_width g_generate g_generate_len g_add g_setZero dl_G'].
- exact: dl_mk_ok.
- exact: dl_bits_mk.
- exact: dl_addS_ok.
- exact: dl_addS_bits.
- by [].
- by move=> s Hs; rewrite Gs //; exact: dl_next_ok.
- move=> s t i Hs Ht Hi. rewrite !Gs //; [|exact: dl_addS_ok]. cbn [snd]. exact: dl_next_bits.
- move=> s Hs E i Hi. rewrite Gs //. cbn [snd]. exact: dl_next_zero.
- move=> s t j Hs Ht _. rewrite /dl_ob dl_out_add // (wl_add TW) ?N.lxor_spec //; exact: dl_out_lt.
- move=> s Hs E j _. by rewrite /dl_ob dl_out_zero // (wl_0 TW) N.bits_0.
- by move=> v s Hs; rewrite GW => Hv; rewrite Gl //=; [rewrite Gs|lia].
- move=> v s Hs; rewrite GW => Hv; rewrite Gl //; last lia. apply: land_lt. exact: (wl_lt TW (dl_out_lt Hs)).
- move=> v s j Hs; rewrite GW => Hv Hj; rewrite Gl; [|by []|lia]. rewrite /dl_ob /=.
  have -> : N.of_nat (w - 1 - j)%N = N.of_nat w - 1 - N.of_nat j by lia.
  by rewrite top_mask_land //; lia.
- by move=> s Hs; have [] := Gz s Hs.
- move=> s i Hs Hi. have [_ [Z1 Z2]] := Gz s Hs. rewrite /dl_bits Z2 N.bits_0. case: ifP => // L.
  rewrite /ar_bits Z1 ?N.bits_0 //. suff : (Nat.div (i + 0) w < size)%coq_nat by lia. apply: Nat.div_lt_upper_bound; lia.
Qed.
Lemma dl_lin : linear_gen G dl_ok dl_vec dl_A dl_C.
Proof.
have L := dl_lin'. split; try by case: L.
- by move=> s t Hs Ht; rewrite (dg_add H) //; exact: dl_addS_ok.
- by move=> s t Hs Ht; rewrite (dg_add H) //; exact: (lin_add_abs L).
Qed.
Lemma dl_vec_zero s : dl_ok s -> dl_vec s = 0%R <->
  (forall k, (k < size)%N -> ar_win size s.1 k = 0) /\ forall i, N.of_nat (w - m) <= i -> N.testbit s.2 i = false.
Proof.
move=> Hs. have [w0 s0 Hm En _ _ _ _ _ _ _ _] := H. split.
- move/(vec_zero (n + m) dl_bits s)/(dl_bits_zero Hs) => [[E1 E2] E3]; split=> // -[|k] Hk; last exact: E2.
  by move: E1; rewrite !N.shiftr_0_r.
- move=> [E1 E2]. apply/(vec_zero (n + m) dl_bits s) => i Hi. rewrite /dl_bits. case: ifP => L; last by apply: E2; lia.
  rewrite /ar_bits E1 ?N.bits_0 //. suff : (Nat.div (i + 0) w < size)%coq_nat by lia. apply: Nat.div_lt_upper_bound; lia.
Qed.
Lemma dl_state s t : dl_ok s -> dl_ok t -> dl_vec s = dl_vec t <->
  (forall k, (k < size)%N -> ar_win size s.1 k = ar_win size t.1 k) /\
  forall i, N.of_nat (w - m) <= i -> N.testbit s.2 i = N.testbit t.2 i.
Proof.
move=> Hs Ht. have Hst := dl_addS_ok Hs Ht.
have W k : (k < size)%N -> ar_win size (dl_addS s t).1 k = N.lxor (ar_win size s.1 k) (ar_win size t.1 k).
  by move=> Hk; have [[_ R1] _] := Hs; have [[_ R2] _] := Ht; rewrite /ar_win /= (win_xor w) //; have := dg_size H; lia.
have -> : dl_vec s = dl_vec t <-> dl_vec (dl_addS s t) = 0%R.
  rewrite (lin_add_abs dl_lin' Hs Ht). split=> [->|E0]; first by rewrite addF2_self.
  by rewrite -[LHS]GRing.addr0 -(addF2_self (dl_vec t)) GRing.addrA E0 GRing.add0r.
rewrite dl_vec_zero //. split=> -[E1 E2]; split=> [k Hk|i Hi].
- by apply/N.lxor_eq_0_iff; rewrite -W // E1.
- have := E2 i Hi. rewrite /= N.lxor_spec. by case: N.testbit; case: N.testbit.
- by rewrite W // E1 // N.lxor_nilpotent.
- by rewrite /= N.lxor_spec E2 // xorb_nilpotent.
Qed.
Lemma dl_sur x : exists2 s, dl_ok s & dl_vec s = x.
Proof. exists (unvec dl_mk x); first exact: dl_mk_ok. by apply: unvecK => f i Hi; exact: dl_bits_mk. Qed.
Lemma dl_gen_vec s : dl_ok s -> dl_vec (dl_next s) = (dl_vec s *m dl_A)%R.
Proof. by move=> Hs; rewrite -(lin_generate_abs dl_lin Hs) (dg_step H). Qed.
(** The transition is invertible exactly without delayed word and with an
    invertible recursion. *)
Lemma dl_unit : m = 0%N -> ar_A th w size 0 n base_ops \in unitmx -> dl_A \in unitmx.
Proof.
move=> m0 UB. rewrite -row_free_unit -kermx_eq0. apply/eqP/row_matrixP => i. rewrite row0.
set x := row i _. have Ex : (x *m dl_A = 0)%R by apply/sub_kermxP; exact: row_sub.
have [s Hs Es] := dl_sur x. rewrite -Es in Ex *. rewrite -dl_gen_vec // in Ex.
have [w0 s0 Hm En _ _ _ _ _ _ _ _] := H.
have [/= E1 _] := (dl_vec_zero (dl_next_ok Hs)).1 Ex.
apply/(dl_vec_zero Hs). split.
- have E2 : (ar_vec w size 0 n s.1 *m ar_A th w size 0 n base_ops = 0)%R.
    rewrite -(lin_generate_abs (ag_lin base_ag) Hs.1). cbn [g_generate base_ops snd].
    apply/(ag_vec_zero base_ag (ag_step_ok base_ag Hs.1)). by split=> [|k /andP[_ Hk]]; rewrite E1.
  have : ar_vec w size 0 n s.1 = 0%R by rewrite -[LHS](mulmxK UB) E2 mul0mx.
  move/(ag_vec_zero base_ag Hs.1) => E3 [|k] Hk; have [A1 A2] := E3; last exact: A2.
  by move: A1; rewrite !N.shiftr_0_r.
- move=> j Hj. apply: (bits_above (N.of_nat w)); first exact: Hs.2. lia.
Qed.
Lemma dl_sing : (0 < m)%N -> dl_A \notin unitmx.
Proof.
move=> m0. have [w0 s0 Hm En _ _ _ _ _ _ _ _] := H. apply/negP => UA.
pose f i := (i == n + m - 1)%N. pose s := dl_mk f. have Hs := dl_mk_ok f.
have B i : (i < n + m)%N -> dl_bits s i = f i by exact: dl_bits_mk.
have Z : agree size 0 (ar_win size s.1) (fun=> 0).
  apply/(ag_vec_zero base_ag Hs.1)/vec_zero => i Hi. have := B i. rewrite /dl_bits Hi /f => -> //; lia.
have Z0 : forall k, (k < size)%N -> ar_win size s.1 k = 0.
  by have [A1 A2] := Z; case=> [|k] Hk; [move: A1; rewrite !N.shiftr_0_r|exact: A2].
have : dl_vec (dl_next s) = 0%R.
  apply/(dl_vec_zero (dl_next_ok Hs)); split=> [k Hk|i _]; cbn [dl_next fst snd].
  - have La := ag_lin base_ag. have := lin_generate_abs La Hs.1. have /(ag_vec_zero base_ag Hs.1) -> := Z. rewrite mul0mx.
    move/(ag_vec_zero base_ag (ag_step_ok base_ag Hs.1)) => [A1 A2]. case: k Hk => [|k] Hk; last exact: A2.
    by move: A1; rewrite !N.shiftr_0_r.
  - by rewrite (wf_z (dg_R H) Hs Z) N.bits_0.
rewrite dl_gen_vec // => E. have : dl_vec s = 0%R by rewrite -[LHS](mulmxK UA) E mul0mx.
move/(vec_zero (n + m) dl_bits s)/(_ (n + m - 1)%N). rewrite B; last lia. rewrite /f eqxx. have -> : (n + m - 1 < n + m)%N by lia. by move/(_ isT).
Qed.

(** The output of generate(), which T does not change. *)
Definition dl_D (j : nat) : 'cV['F_2]_(n + m) := out_col (n + m) dl_mk (fun s i => N.testbit (dl_out s) (N.of_nat (w - 1 - i))) (w - 1 - j)%N.
End Delay.

Section Out.
Variables (P : Type) (th : P) (w size m n : nat) (F R : (nat -> N) -> N) (T : N -> N) (G : gen_ops ((P * rr) * N)).
Hypothesis H : delay_gen th w size m n F R T G.
Definition id_ops : gen_ops ((P * rr) * N) :=
  {| g_width := N.of_nat w; g_generate := g_generate G;
     g_generate_len := fun v s => (N.land (dl_out w size m R s) (wshl (N.of_nat w) (wnot (N.of_nat w) 0) (N.of_nat w - Z.to_N v)), dl_next size F R s);
     g_add := g_add G; g_setZero := g_setZero G; g_isZero := g_isZero G; g_seed := g_seed G; g_bitSize := g_bitSize G |}.
Lemma id_dg : delay_gen th w size m n F R id id_ops.
Proof. by case: H => *; split. Qed.
Lemma dl_linout : linear_out G (dl_ok th w size) (@dl_vec P w size m n) (@dl_D P th w size m n R).
Proof.
have [w0 s0 Hm En FW RW TW GW Gs Gl Ga Gz] := H.
have E := @full_linear _ id_ops (n + m) _ _ _ _ (dl_lin id_dg).
move=> s i Hs Hi. rewrite GW in Hi. have := E _ _ s i Hs Hi. rewrite /full_col /dl_C /dl_D /dl_ob. cbn [g_width id_ops].
rewrite Nat2N.id. apply; cbn [g_width g_generate g_generate_len id_ops]; first lia.
move=> t Ht. rewrite Gs //. cbn [fst]. apply: N.bits_inj => k.
have -> : N.of_nat w - Z.to_N (Z.of_N (N.of_nat w)) = 0 by lia.
rewrite N.land_spec wshl_spec N.sub_0_r.
case: (N.ltb_spec k (N.of_nat w)) => L; first (rewrite wnot_spec // N.bits_0; have -> : (0 <=? k) = true by lia); first by rewrite /= andb_true_r.
rewrite (bits_above (N.of_nat w)) //. exact: (dl_out_lt H Ht).
Qed.
End Out.
