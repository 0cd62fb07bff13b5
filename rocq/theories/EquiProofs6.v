(** calc_1pos: instances; what its undefined case means for the algorithm;
    a second call on the same object. *)
From Coq Require Import NArith ZArith Lia List.
From mathcomp Require Import all_ssreflect all_algebra.
From mathcomp Require Import zify.
From Verif Require Import Base WordLemmas UtilModel UtilSpec UtilProofs UtilProofs3 GenModel EquiModel LinSpec LinLemmas.
From Verif Require Import EquiProofs3 EquiProofs4.
Set Implicit Arguments.
Unset Strict Implicit.
Unset Printing Implicit Defensive.
Import GRing.Theory.
Local Open Scope ring_scope.
Delimit Scope Z_scope with coqZ.

(** * Instances *)
Lemma lowest_pos w x p : lowest_one_from_msb w x p ->
  exists q : nat, p = Z.of_nat q /\ (N.of_nat q < w)%num /\ msb w x q = 1 /\
    forall j, (q < j)%N -> (N.of_nat j < w)%num -> msb w x j = 0.
Proof.
move=> [i [Hi [-> [Hb Hl]]]]. exists (N.to_nat (w - 1 - i)); split; first lia.
split; first lia. rewrite /msb. split.
  by replace (w - 1 - N.of_nat (N.to_nat (w - 1 - i)))%num with i by lia; rewrite Hb.
move=> j Hj Hjw. rewrite Hl //. lia.
Qed.
Lemma pos_spec16 : pos_spec 16 calc_1pos16.
Proof.
split=> // x Hx. have [|p [E [_ H]]] := calc_1pos16_all x; first lia.
have [|q [Eq Hq]] := lowest_pos (H _); first lia. by exists q; rewrite E Eq.
Qed.
Lemma pos_spec32 : pos_spec 32 (fun x => Ret (calc_1pos32_wrap x)).
Proof.
split=> // x Hx. have [|_ H] := calc_1pos32_wrap_all x; first lia.
have [|q [Eq Hq]] := lowest_pos (H _); first lia. by exists q; rewrite Eq.
Qed.
Lemma pos_spec64 : pos_spec 64 (fun x => Ret (calc_1pos64_wrap x)).
Proof.
split=> // x Hx. have [|_ H] := calc_1pos64_wrap_all x; first lia.
have [|q [Eq Hq]] := lowest_pos (H _); first lia. by exists q; rewrite Eq.
Qed.

(** * A more undefined calc_1pos *)
Definition less_def {A} (x y : res A) : Prop := x = y \/ x = Undef.
Lemma less_bind {A B} (x y : res A) (f g : A -> res B) :
  less_def x y -> (forall a, less_def (f a) (g a)) -> less_def (bind x f) (bind y g).
Proof. by case=> -> Hfg; [case: y => /=; try by left | right]. Qed.
Lemma less_refl {A} (x : res A) : less_def x x. Proof. by left. Qed.

Section Mono.
Variables (S : Type) (G : gen_ops S) (pos pos' : N -> res Z).
Hypothesis Hpos : forall x, less_def (pos' x) (pos x).
Ltac mono := repeat first [apply: less_refl | apply: less_bind => [|?] | exact: Hpos].
Lemma reduce_less fuel v basis p : less_def (reduce G pos' fuel v basis p) (reduce G pos fuel v basis p).
Proof.
elim: fuel basis p => [|f IH] basis p; first exact: less_refl.
cbn [reduce]. mono. case: ifP => _; mono. case: ifP => _; mono; first exact: IH.
case: ifP => _; mono. case: ifP => _; mono. exact: IH.
Qed.
Lemma main_less fuel sbs v basis : less_def (get_equidist_main G pos' fuel sbs v basis) (get_equidist_main G pos fuel sbs v basis).
Proof. rewrite /get_equidist_main. mono. exact: reduce_less. Qed.
Lemma all_loop_less fuel sbs n basis veq sum :
  less_def (all_loop G pos' fuel sbs n basis veq sum) (all_loop G pos fuel sbs n basis veq sum).
Proof.
elim: n basis veq sum => [|n IH] basis veq sum; first exact: less_refl.
cbn [all_loop]. apply: less_bind; first exact: main_less. move=> [k b]. mono. exact: IH.
Qed.
Lemma all_less fuel a veq : less_def (get_all_equidist G pos' fuel a veq) (get_all_equidist G pos fuel a veq).
Proof.
rewrite /get_all_equidist. apply: less_bind; first exact: main_less. move=> [k b]. mono; exact: all_loop_less.
Qed.
End Mono.

(** * If calc_1pos never returns 0, the first basis vector never changes *)
Section First.
Variables (S : Type) (G : gen_ops S) (pos : N -> res Z) (ok : S -> Prop).
Notation w := (g_width G).
Notation lvec := (lvec S).
Hypothesis len_ok : forall v s, ok s -> (1 <= v <= Z.of_N w)%coqZ -> ok (g_generate_len G v s).2.
Hypothesis len_lt : forall v s, ok s -> (1 <= v <= Z.of_N w)%coqZ -> ((g_generate_len G v s).1 < 2 ^ w)%num.
Hypothesis add_ok : forall s t, ok s -> ok t -> ok (g_add G s t).
Hypothesis zero_ok : forall s, ok s -> ok (g_setZero G s).
Hypothesis pos_n0 : forall x, (x < 2 ^ w)%num -> pos x <> Ret 0%coqZ.

Definition wf (b : lvec) := ok (lv_rand b) /\ (lv_next b < 2 ^ w)%num.
Lemma wf_step v b : (1 <= v <= Z.of_N w)%coqZ -> wf b -> wf (lv_step G v b).
Proof.
move=> Hv [H1 H2]. rewrite /lv_step. have := len_ok H1 Hv. have := len_lt H1 Hv.
by case: (g_generate_len G v (lv_rand b)).
Qed.
Lemma wf_loop v r b : (1 <= v <= Z.of_N w)%coqZ -> wf b -> wf (ns_loop G v r b).
Proof.
move=> Hv. elim: r b => [|r IH] b Hb /=; case: ifP => // _. apply: IH. exact: wf_step.
Qed.
Lemma wf_next v b : (1 <= v <= Z.of_N w)%coqZ -> wf b -> wf (next_state G v b).
Proof. by move=> Hv Hb; rewrite /next_state; case: ifP => // _; apply: wf_loop => //; exact: wf_step. Qed.
Lemma wf_add a b : wf a -> wf b -> wf (lv_add G a b).
Proof. by move=> [A1 A2] [B1 B2]; split; [exact: add_ok | exact: (WordLemmas.lxor_lt w)]. Qed.
Lemma wf_adjust v b : (1 <= v <= Z.of_N w)%coqZ -> wf b -> wf (adjust_vec G v b).
Proof.
move=> Hv [H1 H2]. rewrite /adjust_vec. set b' := {| lv_rand := _ |}.
have Hb' : wf b' by split=> //; exact: (WordLemmas.land_lt w).
by case: ifP => // _; exact: wf_next.
Qed.
Definition wfl (l : list lvec) := Forall wf l.

Lemma geti_in (l : list lvec) i b : geti l i = Ret b -> (0 <= i)%coqZ /\ nth_error l (Z.to_nat i) = Some b.
Proof.
rewrite /geti. case: Z.ltb_spec => // H. case E : (nth_error _ _) => [x|] //. by case=> <-.
Qed.
Lemma geti_wf l i b : wfl l -> geti l i = Ret b -> wf b.
Proof. by move=> Hl /geti_in [_ Hi]; apply: (proj1 (Forall_forall _ _) Hl); exact: nth_error_In Hi. Qed.
Lemma upd_wf l i b : wfl l -> wf b -> wfl (upd l i b).
Proof.
elim: l i => [|x l IH] [|i] H Hb //=; inversion H; subst; constructor=> //. exact: IH.
Qed.
Lemma seti_in (l : list lvec) i b l' : seti l i b = Ret l' -> (0 <= i)%coqZ /\ l' = upd l (Z.to_nat i) b.
Proof. rewrite /seti. case: Z.ltb_spec => //= H. case: ifP => // _. by case. Qed.
Lemma seti_wf l i b l' : wfl l -> wf b -> seti l i b = Ret l' -> wfl l'.
Proof. by move=> Hl Hb /seti_in [_ ->]; exact: upd_wf. Qed.
Lemma upd_first (l : list lvec) i b : (0 < i)%N -> nth_error (upd l i b) 0 = nth_error l 0.
Proof. by case: l i => [|x l] [|i]. Qed.
Lemma seti_first (l : list lvec) i b l' : i <> 0%coqZ -> seti l i b = Ret l' -> nth_error l' 0 = nth_error l 0.
Proof. by move=> Hi /seti_in [Hi0 ->]; apply: upd_first; lia. Qed.

Lemma bind_ret (A B : Type) (m : res A) (f : A -> res B) b : bind m f = Ret b -> exists a, m = Ret a /\ f a = Ret b.
Proof. by case: m => //= a H; exists a. Qed.

Lemma reduce_first fuel v l p l' : (1 <= v <= Z.of_N w)%coqZ -> wfl l -> p <> 0%coqZ ->
  reduce G pos fuel v l p = Ret l' -> wfl l' /\ nth_error l' 0 = nth_error l 0.
Proof.
move=> Hv. have v0 : v <> 0%coqZ by lia.
elim: fuel l p => // f IH l p Hl Hp. cbn [reduce].
move/(@bind_ret _ _ _ _ _) => [bv [Ebv]]. have Wbv := geti_wf Hl Ebv.
case: (lv_zero bv); first by case=> <-.
move/(@bind_ret _ _ _ _ _) => [bp [Ebp]]. have Wbp := geti_wf Hl Ebp.
move: (_ >? _)%coqZ => sw. set bv1 := if sw then bp else bv. set bp1 := if sw then bv else bp.
have W1 : wf bv1 by rewrite /bv1; case: (sw). have W2 : wf bp1 by rewrite /bp1; case: (sw).
move/(@bind_ret _ _ _ _ _) => [l1 [E1]]. have Wl1 := seti_wf Hl W2 E1. have F1 := seti_first Hp E1.
have W3 := wf_add W1 W2.
case: (_ =? _)%num.
  have W4 := wf_next Hv W3.
  move/(@bind_ret _ _ _ _ _) => [l2 [E2]]. have Wl2 := seti_wf Wl1 W4 E2. have F2 := seti_first v0 E2.
  move/(@bind_ret _ _ _ _ _) => [q [Eq]] /IH [||W F] //; last by rewrite F F2 F1.
  by move=> Eq0; move: Eq; rewrite Eq0; apply: pos_n0; case: W4.
move/(@bind_ret _ _ _ _ _) => [l2 [E2]]. have Wl2 := seti_wf Wl1 W3 E2. have F2 := seti_first v0 E2.
move/(@bind_ret _ _ _ _ _) => [q [Eq]]. case: (_ <=? _)%coqZ => //. case: (_ <=? _)%coqZ => // /IH [||W F] //; last by rewrite F F2 F1.
by move=> Eq0; move: Eq; rewrite Eq0; apply: pos_n0; case: W3.
Qed.
Lemma main_first fuel sbs v l k l' : (1 <= v <= Z.of_N w)%coqZ -> wfl l ->
  get_equidist_main G pos fuel sbs v l = Ret (k, l') ->
  [/\ wfl l', nth_error l' 0 = nth_error l 0 &
      v = 1%coqZ -> exists b, nth_error l' 0 = Some b /\ k = lv_count b].
Proof.
move=> Hv Hl. rewrite /get_equidist_main.
move/(@bind_ret _ _ _ _ _) => [bv [Ebv]]. have Wbv := geti_wf Hl Ebv.
move/(@bind_ret _ _ _ _ _) => [p [Ep]] /(@bind_ret _ _ _ _ _) [l1 [E1]].
have p0 : p <> 0%coqZ by move=> E0; move: Ep; rewrite E0; apply: pos_n0; case: Wbv.
have [W F] := reduce_first Hv Hl p0 E1.
move/(@bind_ret _ _ _ _ _) => [b0 [E0]] /(@bind_ret _ _ _ _ _) [m [Em]] /(@bind_ret _ _ _ _ _) [q [_]].
case: (_ >? _)%coqZ => // -[<- <-]. split=> // v1. exists b0. have [_ H] := geti_in E0. split=> //.
by move: Em; rewrite v1 /=; case.
Qed.
Lemma adjust_wf v l : (1 <= v <= Z.of_N w)%coqZ -> wfl l -> wfl (adjust G v l).
Proof. move=> Hv. elim: l => [|b l IH] H; constructor; inversion H; subst; [exact: wf_adjust | exact: IH]. Qed.

Definition top_unit (b : lvec) := lv_count b = 0%coqZ /\ lv_next b = wshl w 1 (w - 1).
Lemma adjust_top v b : (1 <= v <= Z.of_N w)%coqZ -> top_unit b -> top_unit (adjust_vec G v b).
Proof.
move=> Hv [H1 H2]. rewrite /adjust_vec.
set mask := wshl w (wnot w 0) _. have E : N.land (lv_next b) mask = lv_next b.
  rewrite H2. apply: N.bits_inj => i. rewrite /mask N.land_spec !wshl_spec.
  case: (N.ltb_spec i w) => //= Hi. case: (N.leb_spec (w - 1) i) => //= Hi1.
  have -> : i = (w - 1)%num by lia. rewrite N.sub_diag.
  case: N.leb_spec; last lia. move=> _. by rewrite N.ones_spec_low; [|lia].
cbn [lv_next]. rewrite E. case: N.eqb_spec => [E0|_]; last by split.
exfalso. have : N.testbit (lv_next b) (w - 1) = false by rewrite E0 N.bits_0.
rewrite H2 wshl_spec. case: N.ltb_spec; last lia. case: N.leb_spec; last lia. by rewrite N.sub_diag.
Qed.
Definition first_top (l : list lvec) := exists b, nth_error l 0 = Some b /\ top_unit b.
Lemma first_top_eq l l' : nth_error l' 0 = nth_error l 0 -> first_top l -> first_top l'.
Proof. by move=> E [b [H1 H2]]; exists b; rewrite E. Qed.
Lemma first_top_adjust v l : (1 <= v <= Z.of_N w)%coqZ -> first_top l -> first_top (adjust G v l).
Proof.
move=> Hv [b [H1 H2]]. exists (adjust_vec G v b). split; last exact: adjust_top.
by case: l H1 => //= x l [->].
Qed.
Lemma veq_keep {A : Type} (l : list A) (i : Z) x l' j : seti l i x = Ret l' -> (Z.of_nat j <> i)%coqZ ->
  nth_error l' j = nth_error l j.
Proof.
rewrite /seti. case: Z.ltb_spec => //= Hi. case: ifP => // _ [<-] Hj.
have : j <> Z.to_nat i by lia. move: (Z.to_nat i) => k {Hi Hj}.
elim: l j k => [|y l IH] [|j] [|k] //= H. by apply: IH => E; apply: H; rewrite E.
Qed.
Lemma veq_set {A : Type} (l : list A) x l' : seti l 0 x = Ret l' -> nth_error l' 0 = Some x.
Proof. by case: l => //= y l [<-]. Qed.
Lemma all_loop_first fuel sbs n l veq sum l' veq' sum' : (1 <= n)%N -> (N.of_nat n <= w)%num -> wfl l -> first_top l ->
  all_loop G pos fuel sbs n l veq sum = Ret (l', veq', sum') -> nth_error veq' 0 = Some 0%coqZ.
Proof.
elim: n l veq sum => // n IH l veq sum _ Hn Hl Ht. cbn [all_loop].
have Hv : (1 <= Z.of_nat n.+1 <= Z.of_N w)%coqZ by lia.
have W1 := adjust_wf Hv Hl. have T1 := first_top_adjust Hv Ht.
move/(@bind_ret _ _ _ _ _) => [[k l2] [E]] /(@bind_ret _ _ _ _ _) [q1 [Es]] /(@bind_ret _ _ _ _ _) [q [_]].
have [W2 F2 K] := main_first Hv W1 E. have T2 := first_top_eq F2 T1.
case: n IH Hn Hv W1 T1 E Es K F2 T2 => [|n] IH Hn Hv W1 T1 E Es K F2 T2.
  case=> _ <- _. have [//|b [B1 Ek]] := K. have [b' [B2 [C1 _]]] := T2.
  move: B1; rewrite B2 => -[Eb]. rewrite Ek -Eb C1 in Es. exact: veq_set Es.
apply: IH => //. lia.
Qed.
Lemma all_first fuel s L mexp veq a' veq' sum : (1 <= L)%N -> (N.of_nat L <= w)%num -> ok s ->
  get_all_equidist G pos fuel (ae_new G s L mexp) veq = Ret (a', veq', sum) -> nth_error veq' 0 = Some 0%coqZ.
Proof.
move=> HL1 HLw Hs. rewrite /get_all_equidist.
have Hv : (1 <= Z.of_nat L <= Z.of_N w)%coqZ by lia.
have W0 : wfl (ae_basis (ae_new G s L mexp)).
  rewrite /wfl /=. apply/Forall_app; split.
    apply/Forall_forall => b /in_map_iff [i [<- _]]. split; [exact: zero_ok | exact: wshl_lt].
  constructor=> //. apply: wf_next => //. split=> //=. exact: pow2_pos.
have T0 : first_top (ae_basis (ae_new G s L mexp)).
  exists (lv_unit G s 0). split; last by split=> //=; rewrite N.sub_0_r.
  by case: L HL1 {HLw Hv W0}.
rewrite [ae_bit_len _]/= [ae_stateBitSize _]/=.
move/(@bind_ret _ _ _ _ _) => [[k l2] [E]] /(@bind_ret _ _ _ _ _) [q1 [Es]] /(@bind_ret _ _ _ _ _) [q [_]] /(@bind_ret _ _ _ _ _) [[[b2 v2] s2] [El]] [_ <- _].
have [W2 F2 K] := main_first Hv W0 E. have T2 := first_top_eq F2 T0.
case: (ltnP 1 L) => HL.
  apply: (all_loop_first _ _ W2 T2 El); lia.
have L1 : L = 1%N by lia. subst L. move: El => /= -[_ <- _].
have [//|b [B1 Ek]] := K. have [b' [B2 [C1 _]]] := T2.
move: B1; rewrite B2 => -[Eb]. rewrite Ek -Eb C1 in Es. exact: veq_set Es.
Qed.
End First.

(** * The strict calc_1pos makes the algorithm undefined *)
Section Strict.
Variables (S : Type) (G : gen_ops S) (n : nat) (ok : S -> Prop) (abs : S -> 'rV['F_2]_n)
  (A : 'M['F_2]_n) (C : nat -> 'cV['F_2]_n).
Hypothesis LG : linear_gen G ok abs A C.
Variables (nb : nat) (s0 : S) (sbs fuel : nat) (pos pos' : N -> res Z).
Hypothesis Hnb : forall s, ok s -> g_bitSize G s = nb.
Hypothesis Hn : (n <= 2 * nb + 1)%N.
Hypothesis Hpos : pos_spec (g_width G) pos.
Hypothesis Hless : forall x, less_def (pos' x) (pos x).
Hypothesis Hn0 : forall x, (x < 2 ^ g_width G)%num -> pos' x <> Ret 0%coqZ.
Hypothesis Hok : ok s0.
Hypothesis Hsbs : (\rank (krylov A (abs s0)) <= sbs)%N.
Hypothesis Hfuel : fuel_enough G n nb fuel.
Lemma strict_undef L mexp veq : (1 <= L)%N -> (N.of_nat L <= g_width G)%num -> (L <= length veq)%N ->
  sbs_of G s0 mexp = Z.of_nat sbs ->
  equidistributed A C (abs s0) 1 1 ->
  get_all_equidist G pos' fuel (ae_new G s0 L mexp) veq = Undef.
Proof.
move=> HL1 HLw Hveq Hs He.
have [a' [veq' [[E V _ _ _] _]]] := all_equidist_ok LG Hnb Hn Hpos Hok Hsbs Hfuel HL1 HLw Hveq Hs.
have [Eq|//] := all_less G Hless fuel (ae_new G s0 L mexp) veq.
exfalso. rewrite E in Eq.
have E0 := @all_first S G pos' ok (lin_len_ok LG) (lin_len_lt LG) (lin_add_ok LG) (lin_zero_ok LG) Hn0 _ _ _ _ _ _ _ _ HL1 HLw Hok Eq.
have [k [Ek [D _]]] := V 0%N HL1. 
move: Ek; rewrite E0 => -[Ek]. have k0 : k = 0%N by lia. subst k.
by have := proj2 D _ He.
Qed.
End Strict.

Definition total_of (pos' : N -> res Z) (p : N -> Z) (x : N) : res Z :=
  match pos' x with Undef => Ret (p x) | r => r end.
Lemma total_less pos' p x : less_def (pos' x) (total_of pos' p x).
Proof. by rewrite /total_of; case: (pos' x) => *; [left|right|left|left|left]. Qed.
Lemma pos_spec_ext w pos pos' : pos 0%num = pos' 0%num ->
  (forall x, (0 < x < 2 ^ w)%num -> pos x = pos' x) -> pos_spec w pos -> pos_spec w pos'.
Proof.
move=> E0 E [H1 H2]; split; first by rewrite -E0.
by move=> x Hx; rewrite -E //; exact: H2.
Qed.
Lemma total32 : pos_spec 32 (total_of calc_1pos32 calc_1pos32_wrap).
Proof.
apply: pos_spec_ext pos_spec32 => // x Hx. rewrite /total_of.
case: (N.eq_dec x (2 ^ 31)) => [->|H] //. rewrite calc_1pos32_strict //; lia.
Qed.
Lemma total64 : pos_spec 64 (total_of calc_1pos64 calc_1pos64_wrap).
Proof.
apply: pos_spec_ext pos_spec64 => // x Hx. rewrite /total_of.
case: (N.eq_dec x (2 ^ 63)) => [->|H] //. rewrite calc_1pos64_strict //; lia.
Qed.
Lemma lowest_top w x p : (0 < w)%num -> (x < 2 ^ w)%num -> lowest_one_from_msb w x p -> p = 0%coqZ -> x = (2 ^ (w - 1))%num.
Proof.
move=> Hw Hx [i [Hi [-> [Hb Hl]]]] E. have Ei : i = (w - 1)%num by lia. subst i.
apply: (@word_ext w) => //; first by apply: N.pow_lt_mono_r; lia.
move=> j Hj. rewrite N.pow2_bits_eqb. case: N.eqb_spec => [<-|Hne] //. apply: Hl. lia.
Qed.
Lemma strict32_n0 x : (x < 2 ^ 32)%num -> calc_1pos32 x <> Ret 0%coqZ.
Proof.
move=> Hx E. case: (N.eq_dec x (2 ^ 31)) => [Ex|H]; first by move: E; rewrite Ex.
have [//|p [E2 [Z0 Hp]]] := calc_1pos32_all x Hx _. move: E; rewrite E2 => -[Ep].
case: (N.eq_dec x 0) => [Ex|Hx0]; first by have := Z0 Ex; lia.
by apply: H; exact: (lowest_top _ Hx (Hp Hx0) Ep).
Qed.
Lemma strict64_n0 x : (x < 2 ^ 64)%num -> calc_1pos64 x <> Ret 0%coqZ.
Proof.
move=> Hx E. case: (N.eq_dec x (2 ^ 63)) => [Ex|H]; first by move: E; rewrite Ex.
have [//|p [E2 [Z0 Hp]]] := calc_1pos64_all x Hx _. move: E; rewrite E2 => -[Ep].
case: (N.eq_dec x 0) => [Ex|Hx0]; first by have := Z0 Ex; lia.
by apply: H; exact: (lowest_top _ Hx (Hp Hx0) Ep).
Qed.
(** The results do not depend on which total extension is used. *)
Section Reuse.
Variables (S : Type) (G : gen_ops S) (pos : N -> res Z).
(** A second call on the same object (bit_len is then 0) is undefined: it
    writes to veq[-1] or divides by zero. *)
Lemma second_call fuel (a : ae S) veq : ae_bit_len a = 0%coqZ ->
  forall r, get_all_equidist G pos fuel a veq <> Ret r.
Proof.
move=> E r. rewrite /get_all_equidist E.
move=> /(@bind_ret _ _ _ _ _) [[k l2] [E1]] /(@bind_ret _ _ _ _ _) [q1 [Es]]. by move: Es; rewrite /seti.
Qed.
Lemma second_call_k fuel (a : ae S) : ae_bit_len a = 0%coqZ ->
  forall r, get_equidist G pos fuel a <> Ret r.
Proof.
move=> E r. rewrite /get_equidist E.
move=> /(@bind_ret _ _ _ _ _) [[k l2] [E1 _]]. move: E1. rewrite /get_equidist_main.
by move=> /(@bind_ret _ _ _ _ _) [? [_]] /(@bind_ret _ _ _ _ _) [? [_]] /(@bind_ret _ _ _ _ _) [? [_]] /(@bind_ret _ _ _ _ _) [? [_]] /(@bind_ret _ _ _ _ _) [? [_]] /(@bind_ret _ _ _ _ _) [? []].
Qed.
End Reuse.
