(** Generators on a round robin array: if the new word and the output are
    additive functions of the words, read from the oldest to the newest, that
    do not depend on the r low bits of the oldest word, the generator meets the
    contract of the toolbox with n = size * w - r. *)
From Coq Require Import NArith ZArith Lia Bool.
From mathcomp Require Import all_ssreflect all_algebra.
From mathcomp Require Import zify.
From Verif Require Import Base WordLemmas WordVec GenModel LinSpec LinLemmas LinInst ArrayModel ArrayWin.
Set Implicit Arguments.
Unset Strict Implicit.
Unset Printing Implicit Defensive.
Local Open Scope N_scope.
Delimit Scope Z_scope with coqZ.

(** Two windows that differ at most in the r low bits of the oldest word. *)
Definition agree (size r : nat) (a b : nat -> N) : Prop :=
  N.shiftr (a 0%N) (N.of_nat r) = N.shiftr (b 0%N) (N.of_nat r) /\ forall k, (0 < k < size)%N -> a k = b k.
Definition small (w size : nat) (a : nat -> N) : Prop := forall k, (k < size)%N -> a k < 2 ^ N.of_nat w.
Definition wxor (a b : nat -> N) (k : nat) : N := N.lxor (a k) (b k).
(** What is asked of a function of the window. *)
Record wfun (w size r : nat) (F : (nat -> N) -> N) : Prop := {
  wf_lt : forall a, small w size a -> F a < 2 ^ N.of_nat w;
  wf_add : forall a b, small w size a -> small w size b -> F (wxor a b) = N.lxor (F a) (F b);
  wf_ext : forall a b, small w size a -> small w size b -> agree size r a b -> F a = F b
}.

Section Arr.
Variables (P : Type) (th : P) (w size r n : nat).
Variables (F O : (nat -> N) -> N) (G : gen_ops (P * rr)).
Hypothesis w1 : (0 < w)%N.
Hypothesis size1 : (0 < size)%N.
Hypothesis rw : (r < w)%N.
Hypothesis nE : n = (size * w - r)%N.
Hypothesis FW : wfun w size r F.
Hypothesis OW : wfun w size r O.
Hypothesis GW : g_width G = N.of_nat w.

Definition ar_ok (s : P * rr) : Prop := s.1 = th /\ rr_ok w size s.2.
Definition ar_win (s : P * rr) : nat -> N := win size s.2.
Definition ar_bits (s : P * rr) (i : nat) : bool :=
  N.testbit (ar_win s (Nat.div (i + r) w)) (N.of_nat (Nat.modulo (i + r) w)).
Definition ar_mk (f : nat -> bool) : P * rr :=
  (th, rr_mk size (fun k => mkw w (fun j => (r <=? k * w + j)%nat && f (k * w + j - r)%N))).
Definition ar_vec : P * rr -> 'rV['F_2]_n := vec_of n ar_bits.
Definition ar_A : 'M['F_2]_n := trans_mat n ar_bits ar_mk G.
Definition ar_ob (s : P * rr) (j : nat) : bool := N.testbit (O (ar_win s)) (N.of_nat (w - 1 - j)).
Definition ar_C : nat -> 'cV['F_2]_n := out_col n ar_mk ar_ob.
Definition ar_step (s : P * rr) : P * rr := (s.1, rr_push size s.2 (F (ar_win s))).

Lemma ar_small s : ar_ok s -> small w size (ar_win s).
Proof. by move=> [_ H] k _; exact: win_lt. Qed.
Lemma small_xor a b : small w size a -> small w size b -> small w size (wxor a b).
Proof. by move=> Ha Hb k Hk; apply: lxor_lt; [exact: Ha|exact: Hb]. Qed.
Lemma small0 : small w size (fun=> 0).
Proof. by move=> k _; exact: pow2_pos. Qed.
Lemma wf0 H : wfun w size r H -> H (fun=> 0) = 0.
Proof.
move=> HW. have := wf_add HW small0 small0. rewrite N.lxor_nilpotent => E.
by rewrite -[RHS]E; apply: (wf_ext HW); [exact: small0|exact: small_xor small0 small0|split].
Qed.
Lemma divmod i : (Nat.div i w * w + Nat.modulo i w)%N = i.
Proof. have := Nat.div_mod i w. lia. Qed.
Lemma mod_w i : (Nat.modulo i w < w)%N.
Proof. have := Nat.mod_upper_bound i w. lia. Qed.
Lemma div_size i : (i < n)%N -> (Nat.div (i + r) w < size)%N.
Proof. move=> Hi. suff : (Nat.div (i + r) w < size)%coq_nat by lia. apply: Nat.div_lt_upper_bound; lia. Qed.
Lemma divmod_of k j : (j < w)%N -> Nat.div (k * w + j) w = k /\ Nat.modulo (k * w + j) w = j.
Proof.
move=> Hj. split.
- symmetry; apply: (Nat.div_unique _ _ _ j); lia.
- symmetry; apply: (Nat.mod_unique _ _ k); lia.
Qed.

Lemma ar_mk_ok f : ar_ok (ar_mk f).
Proof. split=> //; apply: mk_ok; first lia. move=> k _; exact: mkw_lt. Qed.
Lemma ar_bits_mk f i : (i < n)%N -> ar_bits (ar_mk f) i = f i.
Proof.
move=> Hi. rewrite /ar_bits /ar_win [(ar_mk f).2]/=. have H := div_size Hi.
rewrite win_mk; [|lia|lia]. rewrite mkw_bit divmod.
have := mod_w (i + r). move=> Hm.
have -> : (Nat.modulo (i + r) w <? w)%nat = true by lia.
have -> : (r <=? i + r)%nat = true by lia.
by rewrite addnK.
Qed.
(** The bits determine the window up to the unused ones. *)
Lemma ar_agree s t : ar_ok s -> ar_ok t -> (forall i, (i < n)%N -> ar_bits s i = ar_bits t i) ->
  agree size r (ar_win s) (ar_win t).
Proof.
move=> Hs Ht H.
have B k j : (k < size)%N -> (j < w)%N -> (r <= k * w + j)%N ->
    N.testbit (ar_win s k) (N.of_nat j) = N.testbit (ar_win t k) (N.of_nat j).
  move=> Hk Hj Hr. have [D M] := divmod_of k Hj.
  have := H (k * w + j - r)%N. rewrite /ar_bits subnK // D M. apply. nia.
have Ss := ar_small Hs. have St := ar_small Ht. split.
- apply: N.bits_inj => i; rewrite !N.shiftr_spec'.
  case: (N.ltb_spec (i + N.of_nat r) (N.of_nat w)) => L.
    have -> : i + N.of_nat r = N.of_nat (N.to_nat i + r)%N by lia.
    by apply: B => //; lia.
  by rewrite !(bits_above (N.of_nat w)) //; [apply: St|apply: Ss]; lia.
- move=> k /andP[k0 Hk]. apply: (@word_ext (N.of_nat w)); [exact: Ss|exact: St|].
  move=> i Hi. rewrite -(N2Nat.id i). apply: B; [lia|lia|]. clear -k0 rw. nia.
Qed.
Lemma ar_zero s : ar_ok s -> (forall i, (i < n)%N -> ar_bits s i = false) -> agree size r (ar_win s) (fun=> 0).
Proof.
move=> Hs H. pose z := ar_mk (fun=> false).
have Hz : ar_ok z by exact: ar_mk_ok.
have [E1 E2] : agree size r (ar_win s) (ar_win z).
  by apply: ar_agree => // i Hi; rewrite H // ar_bits_mk.
have Z k : (k < size)%N -> ar_win z k = 0.
  move=> Hk. rewrite /ar_win win_mk; [|lia|lia]. apply: N.bits_inj => i.
  by rewrite -(N2Nat.id i) mkw_bit N.bits_0 !andbF.
split; first by rewrite E1 Z.
by move=> k Hk; rewrite E2 // Z //; lia.
Qed.
Lemma win_zero_bits s : (forall k, (k < size)%N -> ar_win s k = 0) -> forall i, (i < n)%N -> ar_bits s i = false.
Proof. by move=> H i Hi; rewrite /ar_bits H ?N.bits_0 //; exact: div_size. Qed.
Lemma agree0_bits s : agree size r (ar_win s) (fun=> 0) -> forall i, (i < n)%N -> ar_bits s i = false.
Proof.
move=> [E1 E2] i Hi. rewrite /ar_bits. have H := div_size Hi. have D := divmod (i + r).
case: (posnP (Nat.div (i + r) w)) => [E|k0]; last by rewrite E2 ?N.bits_0 // k0.
rewrite E. rewrite E mul0n add0n in D. rewrite D.
have -> : N.of_nat (i + r)%N = N.of_nat i + N.of_nat r by lia.
by rewrite -N.shiftr_spec' E1 N.shiftr_spec' N.bits_0.
Qed.

Hypothesis G_step : forall s, ar_ok s -> (g_generate G s).2 = ar_step s.
Hypothesis G_len : forall v s, ar_ok s -> (1 <= v <= Z.of_nat w)%coqZ ->
  g_generate_len G v s =
    (N.land (O (ar_win s)) (wshl (N.of_nat w) (wnot (N.of_nat w) 0) (N.of_nat w - Z.to_N v)), ar_step s).
Hypothesis G_add : forall s t, ar_ok s -> ar_ok t -> g_add G s t = (s.1, rr_xor size s.2 t.2).
Hypothesis G_zero : forall s, ar_ok s -> ar_ok (g_setZero G s) /\ forall k, (k < size)%N -> ar_win (g_setZero G s) k = 0.

Lemma ar_step_ok s : ar_ok s -> ar_ok (ar_step s).
Proof. by move=> Hs; have [E R] := Hs; split=> //=; apply: push_ok => //; [lia|apply: (wf_lt FW); exact: ar_small]. Qed.
Lemma ar_step_win s k : ar_ok s -> (k < size)%N ->
  ar_win (ar_step s) k = if (k == size - 1)%N then F (ar_win s) else ar_win s k.+1.
Proof.
move=> [_ R] Hk; rewrite /ar_win /ar_step /= (win_push w) //; lia.
Qed.
Definition ar_addS (s t : P * rr) : P * rr := (s.1, rr_xor size s.2 t.2).
Lemma ar_add_ok s t : ar_ok s -> ar_ok t -> ar_ok (ar_addS s t).
Proof. by move=> [E R] [_ R']; split=> //=; apply: xor_ok => //; lia. Qed.
Lemma ar_add_win s t k : ar_ok s -> ar_ok t -> (k < size)%N -> ar_win (ar_addS s t) k = N.lxor (ar_win s k) (ar_win t k).
Proof. by move=> [_ R] [_ R'] Hk; rewrite /ar_win /= (win_xor w) //; lia. Qed.
Lemma wf_addS H s t : wfun w size r H -> ar_ok s -> ar_ok t -> H (ar_win (ar_addS s t)) = N.lxor (H (ar_win s)) (H (ar_win t)).
Proof.
move=> HW Hs Ht. rewrite -(wf_add HW (ar_small Hs) (ar_small Ht)).
apply: (wf_ext HW); [by apply: ar_small; exact: ar_add_ok|by apply: small_xor; exact: ar_small|].
by split=> [|k /andP[_ Hk]]; rewrite ar_add_win.
Qed.
Lemma ar_addS_bits s t i : ar_ok s -> ar_ok t -> (i < n)%N -> ar_bits (ar_addS s t) i = xorb (ar_bits s i) (ar_bits t i).
Proof. by move=> Hs Ht Hi; rewrite /ar_bits ar_add_win //; [rewrite N.lxor_spec|exact: div_size]. Qed.

Lemma wf_zero H s : wfun w size r H -> ar_ok s -> agree size r (ar_win s) (fun=> 0) -> H (ar_win s) = 0.
Proof. by move=> HW Hs E; rewrite -(wf0 HW); apply: (wf_ext HW) => //; [exact: ar_small|exact: small0]. Qed.

(** linear_gen_intro asks for the equality of add on all pairs of states, so a
    copy of G with the total sum is used. *)
Definition ar_G' : gen_ops (P * rr) :=
  {| g_width := g_width G; g_generate := g_generate G; g_generate_len := g_generate_len G; g_add := ar_addS;
     g_setZero := g_setZero G; g_isZero := g_isZero G; g_seed := g_seed G; g_bitSize := g_bitSize G |}.
Lemma ar_lin' : linear_gen ar_G' ar_ok ar_vec ar_A ar_C.
Proof.
apply: (@linear_gen_intro (P * rr) n ar_ok ar_bits ar_mk ar_addS _ _ _ _ ar_G' ar_ob); cbn [g_width g_generate g_generate_len g_add g_setZero ar_G'].
- exact: ar_mk_ok.
- exact: ar_bits_mk.
- exact: ar_add_ok.
- exact: ar_addS_bits.
- by [].
- by move=> s Hs; rewrite G_step //; exact: ar_step_ok.
- move=> s t i Hs Ht Hi. have Ha := ar_add_ok Hs Ht. have Hd := div_size Hi.
  rewrite !G_step // /ar_bits !ar_step_win //.
  by case: eqP => [_|/eqP E]; [rewrite (wf_addS FW)|rewrite ar_add_win //; [|lia]]; rewrite ?N.lxor_spec.
- move=> s Hs H. rewrite G_step //. apply: agree0_bits. have E := ar_zero Hs H. split.
    rewrite ar_step_win; [|by []|lia]. case: eqP => [_|K]; first by rewrite (wf_zero FW).
    by rewrite (E.2 1%N) //; lia.
  move=> k Hk. rewrite ar_step_win; [|by []|lia]. case: eqP => [_|K]; first by rewrite (wf_zero FW).
  by rewrite E.2 //; lia.
- by move=> s t j Hs Ht _; rewrite /ar_ob (wf_addS OW) // N.lxor_spec.
- by move=> s Hs H j _; rewrite /ar_ob (wf_zero OW) ?N.bits_0 //; exact: ar_zero.
- by move=> v s Hs; rewrite GW => Hv; rewrite G_len //=; [rewrite G_step|lia].
- move=> v s Hs; rewrite GW => Hv; rewrite G_len //; last lia. apply: land_lt. exact: (wf_lt OW (ar_small Hs)).
- move=> v s j Hs; rewrite GW => Hv Hj; rewrite G_len; [|by []|lia]. rewrite /ar_ob /=.
  have -> : N.of_nat (w - 1 - j)%N = N.of_nat w - 1 - N.of_nat j by lia.
  by rewrite top_mask_land //; lia.
- by move=> s Hs; have [] := G_zero Hs.
- by move=> s i Hs Hi; have [_ H] := G_zero Hs; exact: win_zero_bits.
Qed.
Lemma ar_lin : linear_gen G ar_ok ar_vec ar_A ar_C.
Proof.
have L := ar_lin'. split; try by case: L.
- by move=> s t Hs Ht; rewrite G_add //; exact: ar_add_ok.
- by move=> s t Hs Ht; rewrite G_add //; exact: (lin_add_abs L).
Qed.

(** Invertibility: nothing but the zero state is mapped to the zero state. *)
Lemma ar_unit : (1 < size)%N ->
  (ar_A \in unitmx) <->
  (forall a, small w size a -> N.shiftr (a 1%N) (N.of_nat r) = 0 -> (forall k, (1 < k < size)%N -> a k = 0) -> F a = 0 ->
     agree size r a (fun=> 0)).
Proof.
move=> s2. rewrite /ar_A -(@trans_unit _ n ar_ok ar_bits ar_mk ar_addS ar_mk_ok ar_bits_mk ar_add_ok ar_addS_bits G).
- split=> [H a Ha E1 Ek EF|H s Hs E].
  + pose s : P * rr := (th, rr_mk size a). have Hs : ar_ok s by split=> //; apply: mk_ok; [lia|move=> k Hk; apply: Ha; lia].
    have W k : (k < size)%N -> ar_win s k = a k by move=> Hk; rewrite /ar_win win_mk //; lia.
    have AG : agree size r (ar_win s) a by split=> [|k /andP[_ Hk]]; rewrite W.
    have : forall i, (i < n)%N -> ar_bits s i = false.
      apply: H => //. rewrite G_step //. apply: agree0_bits.
      have EF' : F (ar_win s) = 0 by rewrite (wf_ext FW (ar_small Hs) Ha).
      split; first by rewrite ar_step_win; [case: eqP => K; [lia|rewrite W // E1 N.shiftr_0_l]|by []|lia].
      move=> k Hk; rewrite ar_step_win; [|by []|lia]. case: eqP => K; first by [].
      by rewrite W; [rewrite Ek //|]; lia.
    move/(ar_zero Hs) => [A1 A2]. by split=> [|k Hk]; [rewrite -W //; lia|rewrite -W; [exact: A2|lia]].
  + move=> i Hi; apply: agree0_bits => //. 
    move: E. rewrite G_step // => E. have [B1 B2] := ar_zero (ar_step_ok Hs) E.
    apply: H; first exact: ar_small.
    * by move: B1; rewrite N.shiftr_0_l ar_step_win; [case: eqP => K; [lia|]|by []|lia].
    * move=> k Hk. have := B2 (k - 1)%N. rewrite ar_step_win; [|by []|lia]. case: eqP => K; first lia.
      have -> : (k - 1).+1 = k by lia. by apply; lia.
    * have := B2 (size - 1)%N. rewrite ar_step_win; [|by []|lia]. rewrite eqxx. apply; lia.
- move=> s t i Hs Ht Hi. have Ha := ar_add_ok Hs Ht. have Hd := div_size Hi.
  rewrite !G_step // /ar_bits !ar_step_win //.
  by case: eqP => [_|/eqP E]; [rewrite (wf_addS FW)|rewrite ar_add_win //; [|lia]]; rewrite ?N.lxor_spec.
- move=> s Hs H. rewrite G_step //. apply: agree0_bits. have E := ar_zero Hs H. split.
    rewrite ar_step_win; [|by []|lia]. case: eqP => [_|K]; first by rewrite (wf_zero FW).
    by rewrite (E.2 1%N) //; lia.
  move=> k Hk. rewrite ar_step_win; [|by []|lia]. case: eqP => [_|K]; first by rewrite (wf_zero FW).
  by rewrite E.2 //; lia.
Qed.

(** * Several steps *)
Lemma ar_iter_ok m s : ar_ok s -> ar_ok (iter m ar_step s).
Proof. by move=> Hs; elim: m => //= m IH; exact: ar_step_ok. Qed.
Lemma ar_iter_win m s k : ar_ok s -> (k < size)%N ->
  ar_win (iter m ar_step s) k = if (k + m < size)%N then ar_win s (k + m)%N else F (ar_win (iter (k + m - size) ar_step s)).
Proof.
move=> Hs. elim: m k => [|m IH] k Hk; first by rewrite addn0 Hk.
rewrite iterS ar_step_win //; last exact: ar_iter_ok. case: eqP => [E|E].
  have -> : (k + m.+1 < size)%N = false by lia. by have -> : (k + m.+1 - size = m)%N by lia.
by rewrite IH; [rewrite addSnnS|lia].
Qed.
Lemma ar_iter_vec m s : ar_ok s -> ar_vec (iter m ar_step s) = st ar_A m (ar_vec s).
Proof.
move=> Hs. elim: m => //= m IH. rewrite /st /= -/(st ar_A m (ar_vec s)) -IH.
by rewrite -(lin_generate_abs ar_lin (ar_iter_ok m Hs)) G_step //; exact: ar_iter_ok.
Qed.
Lemma st_inv (A : 'M['F_2]_n) m x : A \in unitmx -> st A m (st (invmx A) m x) = x.
Proof.
move=> UA. elim: m x => [//|m IH x].
have D z : st A m.+1 z = st A m (z *m A)%R by rewrite /st iterSr.
have -> : st (invmx A) m.+1 x = (st (invmx A) m x *m invmx A)%R by [].
by rewrite D mulmxKV // IH.
Qed.
Lemma ar_reach m t : ar_A \in unitmx -> ar_ok t ->
  exists s, ar_ok s /\ agree size r (ar_win (iter m ar_step s)) (ar_win t).
Proof.
move=> UA Ht. pose s := unvec ar_mk (st (invmx ar_A) m (ar_vec t)).
have Hs : ar_ok s by apply: (@unvec_ok _ n ar_ok ar_mk ar_mk_ok).
exists s; split=> //. apply: ar_agree => //; first exact: ar_iter_ok.
have E : ar_vec (iter m ar_step s) = ar_vec t.
  by rewrite ar_iter_vec // /ar_vec (@unvecK _ n ar_bits ar_mk ar_bits_mk) st_inv.
move=> i Hi. have := congr1 (fun v : 'rV['F_2]_n => v ord0 (Ordinal Hi)) E. rewrite !mxE. exact: f2_inj.
Qed.
(** Any size - 1 words are produced one after the other from some state. *)
Lemma ar_words (y : nat -> N) : (1 < size)%N -> ar_A \in unitmx -> (forall i, (i < size - 1)%N -> y i < 2 ^ N.of_nat w) ->
  exists s, ar_ok s /\ forall i, (i < size - 1)%N -> F (ar_win (iter i ar_step s)) = y i.
Proof.
move=> s2 UA Hy. pose a k := if k is k'.+1 then y k' else 0.
have Ha k : (k < size)%coq_nat -> a k < 2 ^ N.of_nat w by case: k => [|k] Hk; [exact: pow2_pos|apply: Hy; lia].
pose t : P * rr := (th, rr_mk size a).
have Ht : ar_ok t by split=> //; apply: mk_ok => //; lia.
have [s [Hs [_ E]]] := ar_reach (size - 1) UA Ht. exists s; split=> // i Hi.
have := E i.+1. rewrite ar_iter_win; [|by []|lia].
have -> : (i.+1 + (size - 1) < size)%N = false by lia.
have -> : (i.+1 + (size - 1) - size = i)%N by lia.
rewrite /ar_win win_mk; [|lia|lia]. by apply; lia.
Qed.
End Arr.

(** All that is asked of a generator, in one record. *)
Record arr_gen (P : Type) (th : P) (w size r n : nat) (F O : (nat -> N) -> N) (G : gen_ops (P * rr)) : Prop := {
  ag_w : (0 < w)%N;
  ag_size : (0 < size)%N;
  ag_r : (r < w)%N;
  ag_n : n = (size * w - r)%N;
  ag_F : wfun w size r F;
  ag_O : wfun w size r O;
  ag_width : g_width G = N.of_nat w;
  ag_step : forall s, ar_ok th w size s -> (g_generate G s).2 = ar_step size F s;
  ag_len : forall v s, ar_ok th w size s -> (1 <= v <= Z.of_nat w)%coqZ ->
    g_generate_len G v s =
      (N.land (O (ar_win size s)) (wshl (N.of_nat w) (wnot (N.of_nat w) 0) (N.of_nat w - Z.to_N v)), ar_step size F s);
  ag_add : forall s t, ar_ok th w size s -> ar_ok th w size t -> g_add G s t = (s.1, rr_xor size s.2 t.2);
  ag_zero : forall s, ar_ok th w size s ->
    ar_ok th w size (g_setZero G s) /\ forall k, (k < size)%N -> ar_win size (g_setZero G s) k = 0
}.
Section Bundle.
Variables (P : Type) (th : P) (w size r n : nat) (F O : (nat -> N) -> N) (G : gen_ops (P * rr)).
Hypothesis H : arr_gen th w size r n F O G.
Lemma ag_lin : linear_gen G (ar_ok th w size) (@ar_vec P w size r n) (ar_A th w size r n G) (ar_C th w size r n O).
Proof. case: H => *. by apply: (@ar_lin P th w size r n F O G). Qed.
Lemma ag_unit : (1 < size)%N ->
  (ar_A th w size r n G \in unitmx) <->
  (forall a, small w size a -> N.shiftr (a 1%N) (N.of_nat r) = 0 -> (forall k, (1 < k < size)%N -> a k = 0) -> F a = 0 ->
     agree size r a (fun=> 0)).
Proof. case: H => *. by apply: (@ar_unit P th w size r n F O G). Qed.
Lemma ag_words (y : nat -> N) : (1 < size)%N -> ar_A th w size r n G \in unitmx ->
  (forall i, (i < size - 1)%N -> y i < 2 ^ N.of_nat w) ->
  exists s, ar_ok th w size s /\ forall i, (i < size - 1)%N -> F (ar_win size (iter i (ar_step size F) s)) = y i.
Proof. case: H => *. by apply: (@ar_words P th w size r n F O G). Qed.
(** The vector of a state determines the state up to the unused bits, and the
    state is zero exactly if the window is, up to those bits. *)
Lemma ag_vec_zero s : ar_ok th w size s ->
  (@ar_vec P w size r n s = 0%R <-> agree size r (ar_win size s) (fun=> 0)).
Proof.
case: H => H1 H2 H3 H4 _ _ GW _ _ _ _ Hs. split.
- move/(vec_zero n (ar_bits w size r) s) => E. exact: (ar_zero H1 H2 H3 H4 GW Hs E).
- move=> E; apply/(vec_zero n (ar_bits w size r) s) => i Hi. exact: (agree0_bits H1 H2 H3 H4 GW E).
Qed.
Lemma ag_step_ok s : ar_ok th w size s -> ar_ok th w size (ar_step size F s).
Proof. by move=> Hs; have := lin_generate_ok ag_lin Hs; rewrite (ag_step H). Qed.
Lemma ag_iter_ok m s : ar_ok th w size s -> ar_ok th w size (iter m (ar_step size F) s).
Proof. by move=> Hs; elim: m => [//|m IH]; exact: ag_step_ok. Qed.
Lemma ag_step_win s k : ar_ok th w size s -> (k < size)%N ->
  ar_win size (ar_step size F s) k = if (k == size - 1)%N then F (ar_win size s) else ar_win size s k.+1.
Proof. case: H => *. by apply: (@ar_step_win P th w size r n F O G). Qed.
End Bundle.
