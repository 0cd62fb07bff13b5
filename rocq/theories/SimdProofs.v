(** calc_SIMD_equidistribution on sfmt objects. *)
From Coq Require Import NArith ZArith Lia Bool List.
From mathcomp Require Import all_ssreflect all_algebra.
From mathcomp Require Import zify.
From Verif Require Import Base GenModel EquiModel LinSpec LinLemmas PeriodSpec EquiProofs3
  DelayLin SfmtModel SfmtLin SfmtProofs SimdModel SimdPack SimdSpec SimdSeq SimdEqui SimdBits.
Set Implicit Arguments.
Unset Strict Implicit.
Unset Printing Implicit Defensive.
Import GRing.Theory.
Local Open Scope nat_scope.
Delimit Scope Z_scope with coqZ.
Delimit Scope N_scope with num.

Lemma quot_nat a b : 0 < b -> Z.quot (Z.of_nat a) (Z.of_nat b) = Z.of_nat (a %/ b).
Proof.
move=> Hb. rewrite Z.quot_div_nonneg; [|lia|lia].
have H1 := ltn_pmod a Hb. have H2 := divn_eq a b. move: (a %% b) (a %/ b) H1 H2 => r q H1 H2.
symmetry. apply: (Z.div_unique _ _ _ (Z.of_nat r)); [left; lia|nia].
Qed.
(** * Arrays of int *)
Notation at0 a i := (List.nth i a 0%coqZ).
Lemma fill_ok cnt x : forall i a, i + cnt <= length a -> exists a', [/\ fill cnt (Z.of_nat i) x a = Ret a', length a' = length a &
  forall u, at0 a' u = if (i <= u) && (u < i + cnt) then x else at0 a u].
Proof.
elim: cnt => [|cnt IH] i a Hi /=.
  exists a; split=> // u. by have -> : (i <= u) && (u < i + 0) = false by lia.
rewrite seti_upd; last lia. cbn [bind].
have -> : (Z.of_nat i + 1)%coqZ = Z.of_nat i.+1 by lia.
have [|a' [E L H]] := IH i.+1 (upd a i x); first by rewrite upd_length; lia.
exists a'. split=> //; first by rewrite L upd_length. move=> u. rewrite H upd_nth; last lia.
case: (eqVneq u i) => [->|Hu]; first by (have -> : (i < i) && (i < i.+1 + cnt) = false by lia); have -> : (i <= i) && (i < i + cnt.+1) by lia.
by have -> : (i < u) && (u < i.+1 + cnt) = (i <= u) && (u < i + cnt.+1) by lia.
Qed.
Lemma min_ok cnt vw : forall i a, i + cnt <= length a -> i + cnt <= length vw ->
  exists a', [/\ min_veq cnt (Z.of_nat i) vw a = Ret a', length a' = length a &
  forall u, at0 a' u = if (i <= u) && (u < i + cnt) then Z.min (at0 a u) (at0 vw u) else at0 a u].
Proof.
elim: cnt => [|cnt IH] i a Hi Hw /=.
  exists a; split=> // u. by have -> : (i <= u) && (u < i + 0) = false by lia.
rewrite (geti_nth 0%coqZ); last lia. rewrite (geti_nth 0%coqZ); last lia. cbn [bind].
have -> : (Z.of_nat i + 1)%coqZ = Z.of_nat i.+1 by lia.
have [a1 [-> L1 H1]] : exists a1, [/\ (if (at0 a i >? at0 vw i)%coqZ then seti a (Z.of_nat i) (at0 vw i) else Ret a) = Ret a1,
    length a1 = length a & forall u, at0 a1 u = if u == i then Z.min (at0 a u) (at0 vw u) else at0 a u].
  case: Z.gtb_spec => G.
  - rewrite seti_upd; last lia. exists (upd a i (at0 vw i)). split=> //; first exact: upd_length.
    move=> u. rewrite upd_nth; last lia. case: eqP => [->|//]. lia.
  - exists a. split=> // u. case: eqP => [->|//]. lia.
cbn [bind]. have [||a' [E L H]] := IH i.+1 a1; [lia|lia|].
exists a'. split=> //; first by rewrite L. move=> u. rewrite H H1.
case: (eqVneq u i) => [->|Hu]; first by (have -> : (i < i) && (i < i.+1 + cnt) = false by lia); have -> : (i <= i) && (i < i + cnt.+1) by lia.
by have -> : (i < u) && (u < i.+1 + cnt) = (i <= u) && (u < i + cnt.+1) by lia.
Qed.
Lemma sum_ok mexp veq : forall cnt i sum, i + cnt <= length veq ->
  sum_veq (Z.of_nat mexp) cnt i.+1 veq sum =
  Ret (sum + List.fold_right Z.add 0 (List.map (fun j => Z.of_nat (mexp %/ j.+1)%N - at0 veq j) (List.seq i cnt)))%coqZ.
Proof.
elim=> [|cnt IH] i sum Hi. 
  by cbn [sum_veq List.seq List.map List.fold_right]; rewrite Z.add_0_r.
cbn [sum_veq List.seq List.map List.fold_right]. rewrite /idiv.
have -> : (Z.of_nat i.+1 =? 0)%coqZ = false by lia. cbn [bind].
have -> : (Z.of_nat i.+1 - 1)%coqZ = Z.of_nat i by lia. rewrite (geti_nth 0%coqZ); last lia. cbn [bind].
have -> : (i.+1 + 1)%coq_nat = i.+2 by lia. rewrite IH; last lia. congr Ret.
rewrite quot_nat //. lia.
Qed.

Lemma md_facts' L sm wm ph wl : md_ok L sm wm ph wl -> 1 <= wl <= L /\ 1 <= ph <= L.
Proof.
move=> Hm. have A : 1 <= sm_phase sm <= 4 by rewrite /sm_phase; case: sm {Hm} => [|[[?|?|]|[?|?|]|]|?].
have B : 1 <= wm_words wm <= 4 by rewrite /wm_words; case: wm {Hm} => [|[[[?|?|]|[?|?|]|]|[[?|?|]|[[?|?|]|[?|?|]|]|]|]|?].
case: Hm => -[E0 [E1 E2]]; move: A B E0; rewrite -E1 -E2; clear; lia.
Qed.

Section Abs.
Variables (S : Type) (G : gen_ops S) (setStart setWeight : Z -> S -> S).
Variables (info : simd_info) (ew L : nat) (lsb : bool) (size : nat) (s : S) (W : nat -> N) (pos : N -> res Z) (fuel mexp bit_len : nat).
Hypothesis Hi : good_info info ew L.
Hypothesis s2 : 2 <= size.
Hypothesis Hr : recurrent W mexp.
Notation equid := (equid lsb ew L W).
Notation lim v := (L * (mexp %/ (L * v))).
(** r rounded up to full blocks *)
Notation up r := (L * ((r + (L - 1)) %/ L)).
Notation full v r := (exists phi, equid phi v (up r)).

(** ** One mode *)
(** the weight mode as a number of short words *)
Definition wz (wm : Z) : Z := if (si_bitMode info =? 32)%coqZ then wm else Z.quot wm 2.
Definition wm_good (sm wm : Z) (ph wl : nat) : Prop := md_ok L sm wm ph wl /\ wz wm = Z.of_nat wl.
Notation st_of sm wm := (setWeight wm (setStart sm s)).
Hypothesis mode_dim : forall sm wm ph wl v, wm_good sm wm ph wl -> 1 <= v <= bit_len ->
  exists b e, [/\ se_new G info lsb (g_generate G (st_of sm wm)).2 v = Ret b,
    se_get_equidist G pos info lsb fuel (Z.of_nat (g_bitSize G s)) v b = Ret (Z.of_nat e),
    equid (L * size + ph + wl - L) v (L * e) & forall e', equid (L * size + ph + wl - L) v (L * e') -> e' <= e].
(** ** The value for one start mode *)
Definition Q (ph : nat) (fin : bool) (v : nat) (M : Z) : Prop :=
  (M = (-1)%coqZ \/ exists r : nat, [/\ M = Z.of_nat r, equid (L * size + ph) v r & full v r]) /\
  (fin -> forall k, equid (L * size + ph) v k -> (Z.of_nat (L * (k %/ L)) <= M)%coqZ).
Lemma L_pos : 2 <= L.
Proof. by case: Hi => -[_ [_ ->]]. Qed.
Lemma full_lim v r : 1 <= v -> full v r -> r <= lim v.
Proof.
move=> Hv [phi E]. have L2 := L_pos. have := equid_bound (ltnW L2) Hr E => B.
have U : r <= up r.
  have := divn_eq (r + (L - 1)) L. have := ltn_pmod (r + (L - 1)) (ltnW L2). move: L2; clear; lia.
apply: (leq_trans U). rewrite leq_mul2l. apply/orP. right. rewrite leq_divRL; last by move: L2 Hv; clear; nia. move: B; clear; nia.
Qed.
Lemma wl_ok sm wm ph wl : wm_good sm wm ph wl -> 1 <= wl <= L /\ 1 <= ph <= L.
Proof. by move=> [Hm _]; exact: (@md_facts' L sm wm ph wl Hm). Qed.
Lemma Q_step sm wm ph wl v e M fin : wm_good sm wm ph wl -> 1 <= v ->
  equid (L * size + ph + wl - L) v (L * e) -> (forall e', equid (L * size + ph + wl - L) v (L * e') -> e' <= e) ->
  Q ph fin v M -> Q ph (fin || (wl == L)) v (Z.max M (Z.of_nat (L * e) - (Z.of_nat L - Z.of_nat wl))%coqZ).
Proof.
move=> Hm Hv E1 E2 [Q1 Q2]. have [F1 F2] := wl_ok Hm. have L2 := L_pos.
have K : forall r, Z.of_nat r = (Z.of_nat (L * e) - (Z.of_nat L - Z.of_nat wl))%coqZ -> equid (L * size + ph) v r /\ full v r.
  move=> r Er. split.
  - have -> : L * size + ph = (L * size + ph + wl - L) + (L - wl) by move: F1 s2; clear; nia.
    apply: (@equid_sub lsb ew L W (ltnW L2) (L * size + ph + wl - L) v (L - wl) r). rewrite (_ : L - wl + r = L * e) //; move: Er F1; clear; lia.
  - exists (L * size + ph + wl - L). have -> : (r + (L - 1)) %/ L = e; last exact: E1.
    have -> : r + (L - 1) = e * L + (wl - 1) by move: Er F1; clear; lia. rewrite divnMDl; last by move: L2; clear; lia.
    by rewrite divn_small ?addn0 //; move: F1; clear; lia.
split.
- case: Q1 => [->|[r [-> R1 R2]]].
  + case: (Z.leb_spec 0 (Z.of_nat (L * e) - (Z.of_nat L - Z.of_nat wl))%coqZ) => H; last by left; move: H; clear; lia.
    right. exists (L * e - (L - wl)). have Er : Z.of_nat (L * e - (L - wl)) = (Z.of_nat (L * e) - (Z.of_nat L - Z.of_nat wl))%coqZ by move: H F1; clear; lia.
    have [A B] := K _ Er. split=> //. move: H Er; clear; lia.
  + right. case: (Z.leb_spec (Z.of_nat (L * e) - (Z.of_nat L - Z.of_nat wl))%coqZ (Z.of_nat r)) => H; first by exists r; split=> //; move: H; clear; lia.
    exists (L * e - (L - wl)). have Er : Z.of_nat (L * e - (L - wl)) = (Z.of_nat (L * e) - (Z.of_nat L - Z.of_nat wl))%coqZ by move: H F1; clear; lia.
    have [A B] := K _ Er. split=> //. move: H Er; clear; lia.
- case: fin Q2 => [Q2 _ k Hk|_ /eqP Hwl k Hk]; first by have := Q2 isT k Hk; clear; lia.
  have : k %/ L <= e.
    apply: E2. have -> : L * size + ph + wl - L = L * size + ph by move: Hwl; clear; lia.
    apply: (equid_le (ltnW L2) _ Hk). rewrite mulnC. exact: leq_trunc_div.
  move: Hwl; clear; nia.
Qed.

(** ** The loops *)
Lemma one_v_ok sm wm ph wl v vw : wm_good sm wm ph wl -> 1 <= v <= bit_len -> length vw = bit_len ->
  exists vw', [/\ one_v G pos info lsb fuel (Z.of_nat mexp) s (g_generate G (st_of sm wm)).2 wm v vw = Ret vw',
    length vw' = bit_len & forall u, u < bit_len -> if u == v - 1 then forall fin, Q ph fin v (at0 vw u) -> Q ph (fin || (wl == L)) v (at0 vw' u) else at0 vw' u = at0 vw u].
Proof.
move=> Hm Hv Hw. have [b [e [E1 E2 E3 E4]]] := mode_dim Hm Hv. rewrite /one_v E1. cbn [bind]. rewrite E2. cbn [bind].
have v1 : 1 <= v by case/andP: Hv. have L2 := L_pos.
have -> : si_elementNo info = L by case: Hi => -[-> [_ ->]].
have -> : (if (si_bitMode info =? 32)%coqZ then Z.of_nat e * Z.of_nat L - (Z.of_nat L - wm) else Z.of_nat e * Z.of_nat L - (Z.of_nat L - Z.quot wm 2))%coqZ
    = (Z.of_nat (L * e) - (Z.of_nat L - Z.of_nat wl))%coqZ.
  have [_ <-] := Hm. rewrite /wz. case: (_ =? _)%coqZ; clear; lia.
set x := (_ - _)%coqZ.
have Kx fin M := @Q_step sm wm ph wl v e M fin Hm v1 E3 E4. rewrite -/x in Kx.
have Bx : (x <= Z.of_nat (mexp %/ v))%coqZ.
  have := equid_bound (ltnW L2) Hr E3 => B. have [F1 _] := wl_ok Hm.
  have : L * e <= mexp %/ v by rewrite leq_divRL. rewrite /x. move: F1; clear; lia.
rewrite /idiv. have -> : (Z.of_nat v =? 0)%coqZ = false by move: v1; clear; lia. cbn [bind].
rewrite quot_nat //.
have -> : (x >? Z.of_nat (mexp %/ v))%coqZ = false by move: Bx; clear; lia.
have -> : (Z.of_nat v - 1)%coqZ = Z.of_nat (v - 1) by move: v1; clear; lia.
have Hv1 : v - 1 < length vw by rewrite Hw; move: Hv; clear; lia.
rewrite (geti_nth 0%coqZ Hv1). cbn [bind]. case: Z.gtb_spec => H.
- rewrite seti_upd //. exists (upd vw (v - 1) x). split=> //; first by rewrite upd_length.
  move=> u Hu. rewrite upd_nth //. case: eqP => [->|//] fin /(Kx fin). by rewrite Z.max_r //; move: H; clear; lia.
- exists vw. split=> // u Hu. case: eqP => [->|//] fin /(Kx fin). by rewrite Z.max_l //; move: H; clear; lia.
Qed.
Lemma v_loop_ok sm wm ph wl : wm_good sm wm ph wl -> forall cnt v vw, 1 <= v -> v + cnt <= bit_len.+1 -> length vw = bit_len ->
  exists vw', [/\ v_loop G pos info lsb fuel (Z.of_nat mexp) s (g_generate G (st_of sm wm)).2 wm cnt v vw = Ret vw',
    length vw' = bit_len & forall u, u < bit_len -> if (v - 1 <= u) && (u < v - 1 + cnt)
      then forall fin, Q ph fin u.+1 (at0 vw u) -> Q ph (fin || (wl == L)) u.+1 (at0 vw' u) else at0 vw' u = at0 vw u].
Proof.
move=> Hm. elim=> [|cnt IH] v vw Hv Hvc Hw; cbn [v_loop].
  exists vw; split=> // u Hu. by have -> : (v - 1 <= u) && (u < v - 1 + 0) = false by clear; lia.
have Hv2 : 1 <= v <= bit_len by move: Hv Hvc; clear; lia.
have [vw1 [-> L1 H1]] := one_v_ok Hm Hv2 Hw. cbn [bind].
have -> : (v + 1)%coq_nat = v.+1 by clear; lia. have H3 : v.+1 + cnt <= bit_len.+1 by move: Hvc; clear; lia.
have [vw' [E L2 H2]] := IH v.+1 vw1 (ltn0Sn _) H3 L1. exists vw'. split=> // u Hu.
have := H2 u Hu. have := H1 u Hu. case: (eqVneq u (v - 1)) => [Eu|Nu].
- have -> : (v.+1 - 1 <= u) && (u < v.+1 - 1 + cnt) = false by move: Eu Hv; clear; lia.
  have -> : (v - 1 <= u) && (u < v - 1 + cnt.+1) by move: Eu Hv; clear; lia.
  have -> : u.+1 = v by move: Eu Hv; clear; lia. by move=> A ->.
- have -> : (v.+1 - 1 <= u) && (u < v.+1 - 1 + cnt) = (v - 1 <= u) && (u < v - 1 + cnt.+1) by move: Nu Hv; clear; lia.
  by move=> ->.
Qed.
Lemma wm_loop_ok sm ph : forall wms fin vw, (forall wm, List.In wm wms -> exists2 wl, wm_good sm wm ph wl & wm = 4%coqZ -> wl = L) ->
  length vw = bit_len -> (forall u, u < bit_len -> Q ph fin u.+1 (at0 vw u)) ->
  exists vw', [/\ wm_loop G pos info lsb setStart setWeight fuel (Z.of_nat mexp) s bit_len sm wms vw = Ret vw',
    length vw' = bit_len & forall u, u < bit_len -> Q ph (fin || List.existsb (Z.eqb 4) wms) u.+1 (at0 vw' u)].
Proof.
elim=> [|wm wms IH] fin vw Hg Hw HQ; cbn [wm_loop].
  by exists vw; split=> // u Hu; rewrite orbF; exact: HQ.
have [wl Hm H4] := Hg wm (or_introl (erefl _)).
have [vw1 [-> L1 H1]] := @v_loop_ok sm wm ph wl Hm bit_len 1 vw (leqnn _) (leqnn _) Hw. cbn [bind].
have HQ1 u : u < bit_len -> Q ph (fin || (wl == L)) u.+1 (at0 vw1 u).
  move=> Hu. have := H1 u Hu. have -> : (1 - 1 <= u) && (u < 1 - 1 + bit_len) by move: Hu; clear; lia. by move/(_ fin (HQ u Hu)).
have [vw' [E L2 H2]] := IH _ vw1 (fun x Hx => Hg x (or_intror Hx)) L1 HQ1. exists vw'. split=> // u Hu.
have [A B] := H2 u Hu. split=> // F. apply: B. move: F. cbn [List.existsb]. case: (Z.eqb_spec 4 wm) => [E4|_]; last by case: fin {HQ HQ1 A E L2 H2}; case: (wl == L).
by rewrite (H4 (esym E4)) eqxx orbT.
Qed.

(** The start modes in phs are done. *)
Definition R (phs : list nat) (v : nat) (V : Z) : Prop :=
  (phs = nil /\ V = (2 ^ 31 - 1)%coqZ) \/
  exists r : nat, [/\ V = Z.of_nat r, forall ph, List.In ph phs -> equid (L * size + ph) v r, full v r &
    exists2 ph, List.In ph phs & forall k, equid (L * size + ph) v k -> L * (k %/ L) <= r].
Hypothesis Hmx : (Z.of_nat mexp < 2 ^ 31)%coqZ.
Lemma R_step phs ph v V M : 1 <= v -> R phs v V -> Q ph true v M -> R (ph :: phs) v (Z.min V M).
Proof.
move=> Hv HR [Q1 Q2]. have L2 := L_pos.
have [m [Em M1 M2]] : exists r : nat, [/\ M = Z.of_nat r, equid (L * size + ph) v r & full v r].
  case: Q1 => // E. have := Q2 isT 0 (@equid_0 lsb ew L W (ltnW L2) _ v). rewrite E div0n muln0. by move=> H; exfalso; move: H; clear; lia.
have M3 k : equid (L * size + ph) v k -> L * (k %/ L) <= m by move/(Q2 isT k); rewrite Em; clear; lia.
have Mm : m <= mexp.
  apply: (leq_trans (full_lim Hv M2)). apply: (@leq_trans (mexp %/ (L * v) * (L * v))); last exact: leq_trunc_div. by move: (mexp %/ (L * v)) => q; move: Hv; clear; nia.
right. case: HR => [[-> ->]|[r [-> R1 R2 [p Hp1 R3]]]].
- exists m. split=> //; [|by move=> p [<-|]|by exists ph; [left|]].
  rewrite Em Z.min_r //. move: Hmx Mm; clear; lia.
- case: (leqP r m) => H.
  + exists r. split=> //; [|move=> q [<-|Hq]; [exact: (equid_le (ltnW L2) H M1)|exact: R1]|by exists p; [right|]].
    rewrite Em Z.min_l //. move: H; clear; lia.
  + exists m. split=> //; [|move=> q [<-//|Hq]; exact: (equid_le (ltnW L2) (ltnW H) (R1 q Hq))|by exists ph; [left|]].
    rewrite Em Z.min_r //. move: H; clear; lia.
Qed.
Definition wms : list Z := for_lt (state_inc info) (weight_max info + 1) (state_inc info).
Definition sm_good (sm : Z) (ph : nat) : Prop :=
  forall wm, List.In wm wms -> exists2 wl, wm_good sm wm ph wl & wm = 4%coqZ -> wl = L.
Lemma wms_4 : List.existsb (Z.eqb 4) wms.
Proof. by rewrite /wms; case: Hi => -[-> _]. Qed.
Lemma sm_loop_ok : forall sms phs' phs veq, List.Forall2 sm_good sms phs' -> bit_len <= length veq ->
  (forall u, u < bit_len -> R phs u.+1 (at0 veq u)) ->
  exists veq', [/\ sm_loop G pos info lsb setStart setWeight fuel (Z.of_nat mexp) s bit_len sms veq = Ret veq',
    length veq' = length veq, forall u, u < bit_len -> R (List.app (List.rev phs') phs) u.+1 (at0 veq' u) &
    forall u, bit_len <= u -> at0 veq' u = at0 veq u].
Proof.
elim=> [|sm sms IH] phs' phs veq Hg Hv HR; cbn [sm_loop]; inversion Hg as [|? ph ? phs2 H1 H2]; subst; clear Hg.
  by exists veq; split.
have [|vw0 [-> L0 H0]] := @fill_ok bit_len (-1)%coqZ 0 (List.repeat 0%coqZ bit_len); first by rewrite List.repeat_length.
cbn [bind]. rewrite List.repeat_length in L0.
have Q0 u : u < bit_len -> Q ph false u.+1 (at0 vw0 u) by move=> Hu; rewrite H0 leq0n add0n Hu; split; [left|].
have [vw [E1 L1 HQ]] := @wm_loop_ok sm ph wms false vw0 H1 L0 Q0. rewrite -/wms E1. cbn [bind].
rewrite wms_4 in HQ.
have [||veq1 [E2 L2 H3]] := @min_ok bit_len vw 0 veq; [by []|by rewrite L1|]. rewrite E2. cbn [bind].
have [||veq' [E3 L3 H4 H5]] := IH phs2 (ph :: phs) veq1 H2; [by rewrite L2| |].
  move=> u Hu. rewrite H3 leq0n add0n Hu. apply: R_step => //; [exact: HR|exact: HQ].
exists veq'. split=> //.
- by rewrite L3.
- move=> u Hu. cbn [List.rev]. rewrite -List.app_assoc. exact: H4.
- move=> u Hu. rewrite H5 // H3. by have -> : (0 <= u) && (u < 0 + bit_len) = false by move: Hu; clear; lia.
Qed.

Lemma calc_abs veq : (exists N, 0 < N /\ forall k, W (k + N) = W k) -> bit_len <= length veq ->
  exists veq' sum, [/\ calc_SIMD G pos info lsb setStart setWeight fuel (Z.of_nat mexp) s bit_len veq = Ret (veq', sum),
    sum = defect_sum mexp bit_len veq', length veq' = length veq, forall u, bit_len <= u -> at0 veq' u = at0 veq u &
    forall v, 1 <= v <= bit_len -> exists r : nat, [/\ at0 veq' (v - 1) = Z.of_nat r,
      forall phi, equid phi v r, full v r & forall k, (forall phi, equid phi v k) -> L * (k %/ L) <= r]].
Proof.
move=> P Hv. rewrite /calc_SIMD.
have [//|veq0 [-> L0 H0]] := @fill_ok bit_len (2 ^ 31 - 1)%coqZ 0 veq. cbn [bind].
pose phs := if L == 4 then [:: 4; 1; 2; 3] else [:: 2; 1].
have GF : List.Forall2 sm_good (for_lt 0 (weight_max info) (state_inc info)) phs.
  case: Hi => -[Ei [_ EL]].
  - have Psm sm ph : ph = sm_phase sm -> sm_good sm ph.
      move=> Eph wm. rewrite /wms /wm_good /wz /md_ok Ei EL. vm_compute (for_lt _ _ _). cbn [si_bitMode Z.eqb Pos.eqb].
      by move=> [<-|[<-|[<-|[<-|[]]]]]; [exists 1|exists 2|exists 3|exists 4] => //; split=> //; left.
    rewrite /phs Ei EL. vm_compute (for_lt _ _ _). repeat (constructor; first exact: Psm). by constructor.
  - have Psm sm ph : 2 * ph = sm_phase sm -> sm_good sm ph.
      move=> Eph wm. rewrite /wms /wm_good /wz /md_ok Ei EL. vm_compute (for_lt _ _ _). cbn [si_bitMode Z.eqb Pos.eqb].
      by move=> [<-|[<-|[]]]; [exists 1|exists 2] => //; split=> //; right.
    rewrite /phs Ei EL. vm_compute (for_lt _ _ _). repeat (constructor; first exact: Psm). by constructor.
have B0 : bit_len <= length veq0 by rewrite L0.
have R0 u : u < bit_len -> R nil u.+1 (at0 veq0 u) by move=> Hu; left; split=> //; rewrite H0 leq0n add0n Hu.
have [veq1 [-> L1 H1 H2]] := @sm_loop_ok _ phs nil veq0 GF B0 R0.
cbn [bind]. rewrite sum_ok; last by rewrite L1 L0. cbn [bind].
eexists _, _. split; first reflexivity.
- by rewrite Z.add_0_l.
- by rewrite L1.
- move=> u Hu. rewrite H2 // H0. by have -> : (0 <= u) && (u < 0 + bit_len) = false by move: Hu; clear; lia.
- move=> v Hv2. have Hu : v - 1 < bit_len by move: Hv2; clear; lia.
  have := H1 _ Hu. have -> : (v - 1).+1 = v by move: Hv2; clear; lia.
  rewrite List.app_nil_r. case=> [[E _]|[r [E R1 R2 [ph P1 R3]]]]; first by exfalso; move: E; rewrite /phs; case: (L == 4).
  exists r. split=> //.
  + move=> phi. have L2 := L_pos.
    have [p Pp Ep] : exists2 p, List.In p (List.rev phs) & Nat.modulo (L * size + p) L = Nat.modulo phi L.
      have K p : Nat.modulo (L * size + p) L = Nat.modulo p L.
        have -> : L * size + p = Nat.add p (Nat.mul size L) by clear; lia. rewrite Nat.mod_add //. move: L2; clear; lia.
      have B : Nat.modulo phi L < L by apply/ltP; apply: Nat.mod_upper_bound; move: L2; clear; lia. rewrite /phs.
      case: Hi => -[_ [_ EL]]; rewrite EL in B K *; cbn [eqn].
      * have : List.In (Nat.modulo phi 4) [:: 0; 1; 2; 3] by move: B; clear; case: (Nat.modulo _ _) => [|[|[|[|?]]]] //=; tauto.
        case=> [<-|[<-|[<-|[<-|//]]]]; [exists 4|exists 1|exists 2|exists 3]; rewrite ?K //=; tauto.
      * have : List.In (Nat.modulo phi 2) [:: 0; 1] by move: B; clear; case: (Nat.modulo _ _) => [|[|?]] //=; tauto.
        case=> [<-|[<-|//]]; [exists 2|exists 1]; rewrite ?K //=; tauto.
    exact: (equid_mod (ltnW L2) P Ep (R1 p Pp)).
  + by move=> k Hk; exact: R3.
Qed.
End Abs.

(** * The object is an sfmt *)
Section Sfmt.
Variables (info : simd_info) (ew L : nat) (lsb : bool) (c : sfc) (s : sfmt) (W : nat -> N) (pos : N -> res Z) (fuel mexp bit_len : nat).
Hypothesis Hi : good_info info ew L.
Hypothesis Hc : sfc_ok c.
Hypothesis Hs : sfmt_ok c s.
Hypothesis HW : sfmt_words s W.
Hypothesis Hr : recurrent W mexp.
Hypothesis Hp : pos_spec 128 pos.
Hypothesis Hf : (c_size c * 512 + 194) * 129 <= fuel.
Hypothesis Hl : bit_len <= ew.
Notation size := (c_size c).
Notation equid := (equid lsb ew L W).
Notation full v r := (exists phi, equid phi v (L * ((r + (L - 1)) %/ L))).
Notation st_of sm wm := (sf_setWeight wm (sf_setStart sm s)).
Lemma sf_mode_dim sm wm ph wl v : wm_good info L sm wm ph wl -> 1 <= v <= bit_len ->
  exists b e, [/\ se_new sf_ops info lsb (g_generate sf_ops (st_of sm wm)).2 v = Ret b,
    se_get_equidist sf_ops pos info lsb fuel (Z.of_nat (g_bitSize sf_ops s)) v b = Ret (Z.of_nat e),
    equid (L * size + ph + wl - L) v (L * e) & forall e', equid (L * size + ph + wl - L) v (L * e') -> e' <= e].
Proof.
move=> [Hm _] Hv. have Hv' : 1 <= v <= ew by move: Hv Hl; clear; lia.
pose c' := sf_cfg sm wm c. have Hc' : sfc_ok c' := cfg_ok _ _ Hc. have Hs' : sfmt_ok c' (st_of sm wm) := mode_ok _ _ Hs.
have HW' := words_mode sm wm HW. have Hm' : md_ok L (c_start c') (c_weight c') ph wl by [].
have Lg := sfmt_lin Hc'. have Hwk := lin_generate_ok Lg Hs'.
have Wb : wm_bits (c_weight c') <= 96 by rewrite /wm_bits; case: (c_weight c') => [|[[[?|?|]|[?|?|]|]|[[?|?|]|[[?|?|]|[?|?|]|]|]|]|?].
have s2 := sc_size Hc.
have Hlt t : sfmt_ok c' t -> ((g_generate sf_ops t).1 < 2 ^ 128)%num.
  by move=> Ht; rewrite (dg_step (sfmt_dg Hc')) //; exact: (dl_out_lt (sfmt_dg Hc') Ht).
have Hnb t : sfmt_ok c' t -> g_bitSize sf_ops t = size * 128 by move=> [[E _] _]; cbn [g_bitSize sf_ops]; rewrite E.
have Hn : size * 128 + wm_bits (c_weight c') <= 2 * (size * 128) + 1 by move: Wb s2; clear; lia.
have Hk : \rank (krylov (sfmt_A c') (sfmt_vec c' (g_generate sf_ops (st_of sm wm)).2)) <= size * 128.
  rewrite (dg_step (sfmt_dg Hc')) //. exact: (delay_rank (sfmt_dg Hc') Hs').
have Hfu : (2 * (size * 128 + wm_bits (c_weight c')) + 2 * (size * 128) + 2) * 129 <= fuel by move: Wb Hf; clear; lia.
have [b [e [E1 E2 [D1 D2]]]] := simd_dim (G := sf_ops) Lg (sfmt_linout Hc') (erefl _) Hlt lsb Hi Hv' Hwk Hnb Hn Hp Hk Hfu.
have ME e0 := mode_equid lsb Hi Hc' Hs' HW' Hm' Hv' e0.
exists b, e. split=> //.
- have -> : g_bitSize sf_ops s = size * 128 by have [[E _] _] := Hs; cbn [g_bitSize sf_ops]; rewrite E.
  exact: E2.
- exact/ME.
- by move=> e' /ME /D2.
Qed.

Lemma calc_ok veq : 3 <= size -> 0 < sf_pos c -> (Z.of_nat mexp < 2 ^ 31)%coqZ -> bit_len <= length veq ->
  exists veq' sum, [/\ calc_SIMD sf_ops pos info lsb sf_setStart sf_setWeight fuel (Z.of_nat mexp) s bit_len veq = Ret (veq', sum),
    sum = defect_sum mexp bit_len veq', length veq' = length veq, forall u, bit_len <= u -> at0 veq' u = at0 veq u &
    forall v, 1 <= v <= bit_len -> exists r : nat, [/\ at0 veq' (v - 1) = Z.of_nat r,
      forall phi, equid phi v r, full v r & forall k, (forall phi, equid phi v k) -> L * (k %/ L) <= r]].
Proof.
move=> s3 p0 Hmx Hv. have s2 := sc_size Hc.
exact: (@calc_abs _ sf_ops sf_setStart sf_setWeight info ew L lsb size s W pos fuel mexp bit_len Hi s2 Hr sf_mode_dim Hmx veq (words_periodic Hc s3 p0 Hs HW) Hv).
Qed.
End Sfmt.
