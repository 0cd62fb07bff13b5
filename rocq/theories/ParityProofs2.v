(** searchParity: the collected words span the parity words of the states
    without a component in the large irreducible part. *)
From Coq Require Import NArith ZArith List Bool Lia.
From mathcomp Require Import all_ssreflect all_algebra.
From mathcomp Require Import zify.
From Verif Require Import Base UtilModel WordLemmas UtilProofs UtilProofs2 GenModel PolyF2 LinSpec LinLemmas PeriodModel PeriodSpec PolyAct.
From Verif Require Import PeriodProofs PeriodProofs2 PeriodProofs3 PeriodProofs4 PeriodProofs5 PeriodProofs6 PeriodProofs7.
From Verif Require Import ParityModel ParitySpec ParityProofs.
Set Implicit Arguments.
Unset Strict Implicit.
Unset Printing Implicit Defensive.
Import GRing.Theory.
Local Open Scope ring_scope.
Delimit Scope Z_scope with coqZ.

Lemma nth_set_at (T : Type) (x : T) : forall (l : list T) i j, (i < length l)%N ->
  List.nth_error (set_at l i x) j = if j == i then Some x else List.nth_error l j.
Proof.
elim=> [|y l IH] [|i] [|j] //= Hi; first by rewrite IH.
Qed.
Lemma length_set_at (T : Type) (x : T) : forall (l : list T) i, length (set_at l i x) = length l.
Proof. by elim=> [|y l IH] [|i] //=; rewrite IH. Qed.

Section Par.
Variables (S : Type) (G : gen_ops S) (P : par_ops S) (pos : N -> res Z).
Variables (n : nat) (ok : S -> Prop) (abs : S -> 'rV['F_2]_n) (A : 'M['F_2]_n) (C : nat -> 'cV['F_2]_n).
Variables (nb : nat) (e : nat -> 'rV['F_2]_n) (Q : nat -> 'cV['F_2]_n) (d : nat) (f : f2x).
Hypothesis LG : linear_gen G ok abs A C.
Hypothesis PG : parity_gen G P ok abs nb e Q.
Hypothesis Hpos : pos_spec (g_width G) pos.
Hypothesis Au : A \in unitmx.
Hypothesis I : irreducible_poly f.
Hypothesis sf : size f = d.+1.
Hypothesis D1 : f %| char_poly A.
Hypothesis D2 : ~~ (f ^+ 2 %| char_poly A).
Notation w := (g_width G).
Notation W := (N.to_nat (g_width G)).
Notation V := (poly_mx A f).
Notation ist := (internal_state S).

Local Ltac flia := clear LG PG Hpos Au I sf D1 D2; try clear pos; try clear C; try clear Q; try clear e; try clear ok; try clear abs; try clear P; lia.

Definition wv (x : N) : 'rV['F_2]_W := \row_j msb w x j.
Definition Pm : 'M['F_2]_(n, W) := \matrix_(i, j) Q j i 0.
Notation par y := (y *m Pm).

Lemma wv_xor a b : wv (N.lxor a b) = wv a + wv b.
Proof. by apply/rowP=> j; rewrite !mxE msb_xor. Qed.
Lemma wv0 : wv 0 = 0.
Proof. by apply/rowP=> j; rewrite !mxE msb0. Qed.
Lemma ltW (j : 'I_W) : (N.of_nat j < w)%num.
Proof. by have := ltn_ord j; flia. Qed.
Lemma wv_inj0 x : (x < 2 ^ w)%num -> wv x = 0 -> x = 0%num.
Proof.
move=> Hx /rowP E; apply: (msb_inj0 Hx) => j Hj.
have jW : (j < W)%N by flia.
by have := E (Ordinal jW); rewrite !mxE.
Qed.
Lemma obit_par y (j : 'I_W) : obit Q y j = par y 0 j.
Proof. by rewrite /obit !mxE; apply: eq_bigr => i _; rewrite !mxE. Qed.
Lemma wv_par s : ok s -> wv (p_getParityValue P s) = par (abs s).
Proof. by move=> H; apply/rowP=> j; rewrite mxE (pg_parity PG) ?obit_par //; apply: ltW. Qed.

Definition good (st : ist) : Prop :=
  [/\ ok (is_rg st), is_next st = p_getParityValue P (is_rg st) & (abs (is_rg st) <= V)%MS].
Lemma good_lt st : good st -> (is_next st < 2 ^ w)%num.
Proof. by move=> [H -> _]; apply: (pg_lt PG). Qed.
Lemma good_wv st : good st -> wv (is_next st) = par (abs (is_rg st)).
Proof. by move=> [H -> _]; apply: wv_par. Qed.

Lemma par_xor s t : ok s -> ok t ->
  p_getParityValue P (g_add G s t) = N.lxor (p_getParityValue P s) (p_getParityValue P t).
Proof.
move=> Hs Ht; have Ha := lin_add_ok LG Hs Ht.
apply: N.lxor_eq; apply: wv_inj0.
  by apply: lxor_lt; [exact: (pg_lt PG)|apply: lxor_lt; exact: (pg_lt PG)].
by rewrite !wv_xor !wv_par // (lin_add_abs LG) // mulmxDl mx2_addxx.
Qed.

Lemma V_step (x : 'rV['F_2]_n) : (x <= V)%MS -> (x *m A <= V)%MS.
Proof.
by move=> /submxP[y ->]; rewrite -pact_mx -[_ *m A]/(st A 1 _) -pact_st pact_mx submxMl.
Qed.

(** A weakest precondition: no fuel only when not enough was given or the
    parity words do not determine the state; undefined behaviour only when
    setOneBit has it. *)
Definition enough (fuel : nat) : Prop := observable A Q w /\ (n <= fuel)%N.
Definition badbit : Prop := exists s i, [/\ ok s, (i < nb)%N & p_setOneBit P i s = Undef].
Definition safe (T : Type) (fuel : nat) (r : res T) (Post : T -> Prop) : Prop :=
  match r with
  | Ret x => Post x
  | NoFuel => ~ enough fuel
  | Undef => badbit
  | _ => False
  end.
Lemma safe_bind (T U : Type) fuel (m : res T) (k : T -> res U) (P1 : T -> Prop) (P2 : U -> Prop) :
  safe fuel m P1 -> (forall x, P1 x -> safe fuel (k x) P2) -> safe fuel (bind m k) P2.
Proof. by case: m => //= a Ha H; apply: H. Qed.

(** * set_state *)
Lemma set_loop_stuck fuel rg : ok rg -> set_state_loop G P fuel rg (p_getParityValue P rg) = NoFuel ->
  abs rg != 0 /\ forall i, (i <= fuel)%N -> par (st A i (abs rg)) = 0.
Proof.
elim: fuel rg => [|fuel IH] rg H /=; case: N.eqb_spec => // E; rewrite (pg_isZero PG) //;
  have [//|y0] := eqVneq (abs rg) 0 => K.
  by split=> // -[|//] _; rewrite -wv_par // E wv0.
have H1 := lin_generate_ok LG H; have := IH _ H1 K; rewrite (lin_generate_abs LG) // => -[_ Z].
split=> // -[_|i Hi]; first by rewrite -wv_par // E wv0.
by have := Z i Hi; rewrite -[abs rg *m A]/(st A 1 _) -st_add addn1.
Qed.
Lemma set_loop_fuel fuel k rg : ok rg -> (fuel <= k)%N -> enough fuel ->
  set_state_loop G P k rg (p_getParityValue P rg) <> NoFuel.
Proof.
move=> H lek [obs le] /(set_loop_stuck H)[/eqP y0 Z]; apply: y0; apply: obs => i j Hj.
have jW : (j < W)%N by flia.
have sz : (size (char_poly A) <= n.+1)%N by rewrite size_char_poly.
suff K k' : (k' < n)%N -> out_seq A Q (abs rg) j k' = 0.
  exact: (@gen_zero (char_poly A) (out_seq A Q (abs rg) j) n (char_neq0 A) sz (out_char A Q (abs rg) j) K i).
move=> Hk; rewrite /out_seq -/(obit Q _ j) (obit_par _ (Ordinal jW)) Z ?mxE //.
by apply: leq_trans lek; apply: leq_trans le; apply: ltnW.
Qed.

Definition stepped (y : 'rV['F_2]_n) (st' : ist) : Prop :=
  [/\ good st', wv (is_next st') = par y \/ par y = 0 & is_zero st' = (is_next st' =? 0)%num].
Lemma set_loop_spec fuel k rg : ok rg -> (abs rg <= V)%MS -> (fuel <= k)%N ->
  safe fuel (set_state_loop G P k rg (p_getParityValue P rg)) (stepped (abs rg)).
Proof.
move=> H HV lek; have := @set_loop_fuel fuel k rg H lek; move: {lek}k rg H HV.
have base rg (Z : bool) : ok rg -> (abs rg <= V)%MS -> Z = (p_getParityValue P rg =? 0)%num ->
    stepped (abs rg) {| is_zero := Z; is_next := p_getParityValue P rg; is_rg := rg |}.
  by move=> H HV E; split=> //=; left; apply: wv_par.
elim=> [|k IH] rg H HV /=; case Z0: (p_getParityValue P rg =? 0)%num.
- by case: ifP => _ NF; [apply: base | move=> K; apply: (NF K)].
- by move=> _; apply: base.
- case: ifP => _ NF; first by apply: base.
  move/N.eqb_spec: Z0 => E.
  have H1 := lin_generate_ok LG H; have V1 : (abs (g_generate G rg).2 <= V)%MS.
    by rewrite (lin_generate_abs LG) // V_step.
  have := IH _ H1 V1 NF; rewrite /safe; case: set_state_loop => // st' [G' _ Z']; split=> //.
  by right; rewrite -wv_par // E wv0.
- by move=> _; apply: base.
Qed.
Lemma set_state_spec fuel (st : ist) : ok (is_rg st) -> (abs (is_rg st) <= V)%MS ->
  safe fuel (set_state G P fuel st) (stepped (abs (is_rg st) *m A)).
Proof.
move=> H HV; rewrite /set_state (pg_isZero PG) //; case: eqP => E.
  have p0 : p_getParityValue P (is_rg st) = 0%num.
    by apply: wv_inj0; [exact: (pg_lt PG) | rewrite wv_par // E mul0mx].
  by split; [split=> //=; rewrite p0 | right; rewrite E !mul0mx | ].
have H1 := lin_generate_ok LG H; have a1 := lin_generate_abs LG H.
by have := @set_loop_spec fuel fuel _ H1; rewrite a1; apply=> //; apply: V_step.
Qed.

(** * calc_basis *)
Lemma calc_loop_spec fuel : forall cnt (st : ist) bp, good st -> (bp + cnt = nb)%N ->
  safe fuel (calc_basis_loop G P fuel cnt f st bp) (fun r => let '(st', bp') := r in
    [/\ good st', (bp <= bp' <= nb)%N, ((0 < cnt)%N -> (bp < bp')%N) &
        forall b, (bp <= b < bp')%N ->
          wv (is_next st') = par (pact A f (e b) *m A) \/ par (pact A f (e b) *m A) = 0]).
Proof.
elim=> [|cnt IH] s bp gs Hb; first by split=> //; [rewrite -Hb addn0 leqnn | move=> b; flia].
rewrite [calc_basis_loop _ _ _ _ _ _ _]/=.
have bpn : (bp < nb)%N by flia.
have [ok_s _ _] := gs.
case: (pg_oneBit PG ok_s bpn) => [Eu|[s1 [-> ok1 a1]]]; first by rewrite Eu; exists (is_rg s), bp.
rewrite [bind (Ret _) _]/=; set s2 := {| is_zero := _ |}.
have [ok2 a2] := annihilate_spec LG f ok1.
apply: (safe_bind (P1 := stepped (pact A f (e bp) *m A))).
  by have := @set_state_spec fuel s2 ok2; rewrite /= a2 a1; apply; rewrite pact_mx submxMl.
move=> st' [g' E' Z']; case: ifP => Z.
  have cb : (bp.+1 + cnt = nb)%N by flia.
  have := IH st' bp.+1 g' cb; rewrite /safe; case: calc_basis_loop => // -[st2 bp2] [g2 l2 lt2 H2].
  split=> //; first by flia.
    by move=> _; case/andP: l2.
  move=> b Hb2; case: (eqVneq b bp) => [->|Hne]; last by apply: H2; flia.
  right; case: E' => [<-|//]; move: Z'; rewrite Z => /esym/N.eqb_spec ->; exact: wv0.
split=> //; first by flia.
by move=> b Hb2; rewrite (_ : b = bp); last flia.
Qed.
Lemma calc_basis_spec fuel (st : ist) bp : good st -> (bp < nb)%N ->
  safe fuel (calc_basis G P fuel st f bp) (fun r => let '(st', bp') := r in
    [/\ good st', (bp < bp' <= nb)%N &
        forall b, (bp <= b < bp')%N ->
          wv (is_next st') = par (pact A f (e b) *m A) \/ par (pact A f (e b) *m A) = 0]).
Proof.
move=> gs Hb; have [oks _ _] := gs; rewrite /calc_basis (pg_bitSize PG) //.
have Hc : (bp + (nb - bp) = nb)%N by flia.
have := @calc_loop_spec fuel _ st bp gs Hc; rewrite /safe.
case: calc_basis_loop => // -[st' bp'] [g' l1 l2 H']; split=> //.
have : (0 < nb - bp)%N by flia.
by move/l2=> ->; case/andP: l1.
Qed.

(** * addBase *)
Definition ech_row (x : N) (j : nat) : Prop :=
  x <> 0%num -> msb w x j = 1 /\ forall j', (j < j')%N -> (N.of_nat j' < w)%num -> msb w x j' = 0.
Definition bases_good (bs : list ist) : Prop :=
  length bs = W /\ forall j b, List.nth_error bs j = Some b -> good b /\ ech_row (is_next b) j.
Definition Bm (bs : list ist) : 'M['F_2]_W := \matrix_i wv (List.nth i (List.map is_next bs) 0%num).

Lemma nth_next (bs : list ist) i b : List.nth_error bs i = Some b -> List.nth i (List.map is_next bs) 0%num = is_next b.
Proof. by elim: bs i => [|c bs IH] [|i] //=; [case=> -> | apply: IH]. Qed.
Lemma nth_some (bs : list ist) (i : 'I_W) : length bs = W -> exists b, List.nth_error bs i = Some b.
Proof.
move=> E; case Hb: (List.nth_error bs i) => [b|]; first by exists b.
by move/List.nth_error_None: Hb => /leP; rewrite E leqNgt ltn_ord.
Qed.
Lemma row_Bm bs (i : 'I_W) b : List.nth_error bs i = Some b -> row i (Bm bs) = wv (is_next b).
Proof. by move=> H; rewrite rowK (nth_next H). Qed.

Lemma add_good s t : good s -> good t -> good (add_state G s t).
Proof.
move=> [H1 E1 V1] [H2 E2 V2]; split=> /=; first exact: (lin_add_ok LG).
  by rewrite E1 E2 par_xor.
by rewrite (lin_add_abs LG) // addmx_sub.
Qed.

Lemma set_base_good bs p b t : bases_good bs -> List.nth_error bs p = Some b -> is_next b = 0%num ->
  good t -> ech_row (is_next t) p -> bases_good (set_at bs p (add_state G b t)) /\
  (Bm bs <= Bm (set_at bs p (add_state G b t)))%MS /\ (wv (is_next t) <= Bm (set_at bs p (add_state G b t)))%MS.
Proof.
move=> [Hl Hb] Ep b0 gt et; set bs' := set_at _ _ _.
have pl : (p < length bs)%N by have := List.nth_error_Some bs p; rewrite Ep => -[H _]; apply/ltP/H.
have nx : is_next (add_state G b t) = is_next t by rewrite /= b0.
have N' j : List.nth_error bs' j = if j == p then Some (add_state G b t) else List.nth_error bs j.
  exact: nth_set_at.
have [gb _] := Hb _ _ Ep.
have pW : (p < W)%N by rewrite -Hl.
have tB : (wv (is_next t) <= Bm bs')%MS.
  have := row_Bm (bs := bs') (i := Ordinal pW) (b := add_state G b t); rewrite N' /= eqxx => /(_ erefl).
  by rewrite b0 => <-; apply: row_sub.
split; last split=> //.
  split=> [|j c]; first by rewrite length_set_at.
  by rewrite N'; case: eqP => [-> [<-]|_ /Hb//]; split; [exact: add_good | rewrite nx].
apply/row_subP => i; have [c Ec] := nth_some i Hl; rewrite (row_Bm Ec).
case: (eqVneq (i : nat) p) => [ip|ip].
  by move: Ec; rewrite ip Ep => -[<-]; rewrite b0 wv0 sub0mx.
have := row_Bm (bs := bs') (i := i) (b := c); rewrite N' (negbTE ip) => /(_ Ec) <-.
exact: row_sub.
Qed.

Lemma pivot_spec st : good st -> is_next st <> 0%num ->
  exists p : nat, [/\ pos (is_next st) = Ret (Z.of_nat p), (p < W)%N & ech_row (is_next st) p].
Proof.
move=> gs nz; have lt := good_lt gs; have [_ H] := Hpos.
have [|p [E [pl [m1 m0]]]] := H (is_next st); first by flia.
by exists p; split=> //; flia.
Qed.

(** The position from which on all bits are zero. *)
Definition low0 (x : N) (k : nat) : Prop := forall j, (k <= j)%N -> (N.of_nat j < w)%num -> msb w x j = 0.

Lemma addBase_spec fuel : forall cnt bs (t : ist), bases_good bs -> good t ->
  safe fuel (addBase_loop G P pos fuel cnt bs (Z.of_N w) t) (fun r => let '(bs', t') := r in
    [/\ bases_good bs', good t', (Bm bs <= Bm bs')%MS &
        forall k, low0 (is_next t) k -> (k <= cnt)%N -> (wv (is_next t) <= Bm bs')%MS]).
Proof.
elim=> [|cnt IH] bs t Hbs gt.
  split=> // k Hk; rewrite leqn0 => /eqP k0; move: Hk; rewrite k0 => Hk.
  have -> : wv (is_next t) = 0; last exact: sub0mx.
  by apply/rowP=> j; rewrite !mxE Hk //; apply: ltW.
pose step (work : ist) :=
  do pivot <- pos (is_next work);
  if (Z.of_N w <=? pivot)%coqZ then Throw
  else if (pivot <? 0)%coqZ then Undef
  else
    match List.nth_error bs (Z.to_nat pivot) with
    | None => Undef
    | Some b =>
        if (is_next b =? 0)%num then Ret (set_at bs (Z.to_nat pivot) (add_state G b work), work)
        else addBase_loop G P pos fuel cnt bs (Z.of_N w) (add_state G work b)
    end.
have -> : addBase_loop G P pos fuel cnt.+1 bs (Z.of_N w) t =
  if (is_next t =? 0)%num then do work <- get_next_state G P fuel t;
    if is_zero work then Ret (bs, work) else step work else step t by [].
have stepS t1 : good t1 -> is_next t1 <> 0%num -> safe fuel (step t1) (fun r => let '(bs', t') := r in
    [/\ bases_good bs', good t', (Bm bs <= Bm bs')%MS &
        forall k, low0 (is_next t1) k -> (k <= cnt.+1)%N -> (wv (is_next t1) <= Bm bs')%MS]).
  move=> g1 nz; have [p [Ep pW ech]] := pivot_spec g1 nz; rewrite /step Ep [bind (Ret _) _]/=.
  have -> : (Z.of_N w <=? Z.of_nat p)%coqZ = false by flia.
  have -> : (Z.of_nat p <? 0)%coqZ = false by flia.
  rewrite Nat2Z.id; have [Hl Hb] := Hbs; have [b Eb] := nth_some (Ordinal pW) Hl; rewrite /= in Eb; rewrite Eb.
  have [gb eb] := Hb _ _ Eb.
  case: N.eqb_spec => b0.
    by have [B1 [B2 B3]] := set_base_good Hbs Eb b0 g1 ech; split.
  have g2 := add_good g1 gb; have := IH bs _ Hbs g2; rewrite /safe; case: addBase_loop => // -[bs' t'] [R1 R2 R3 R4].
  split=> // k Hk lek.
  have bB : (wv (is_next b) <= Bm bs')%MS.
    by apply: submx_trans R3; rewrite -(@row_Bm bs (Ordinal pW) b Eb); exact: row_sub.
  have [m1 m0] := ech nz; have [c1 c0] := eb b0.
  have lowp : low0 (N.lxor (is_next t1) (is_next b)) p.
    move=> j Hj jw; rewrite msb_xor; case: (eqVneq j p) => [->|Hne].
      by rewrite m1 c1 F2_addxx.
    by rewrite m0 ?c0 ?addr0 //; rewrite ltn_neqAle eq_sym Hne.
  have pk : (p < k)%N.
    rewrite ltnNge; apply/negP => kp; have := Hk p kp ltac:(flia); rewrite m1 => /eqP.
    by rewrite oner_eq0.
  have := R4 p lowp ltac:(flia); rewrite /= wv_xor => Hs.
  by rewrite -[wv (is_next t1)]addr0 -(mx2_addxx (wv (is_next b))) addrA addmx_sub.
case: N.eqb_spec => t0; last by apply: stepS.
apply: (safe_bind (P1 := fun t1 => good t1 /\ (is_zero t1 = false -> is_next t1 <> 0%num))).
  rewrite /get_next_state; case Z: (is_zero t) => /=; first by rewrite Z.
  have [okt _ Vt] := gt; have := @set_state_spec fuel t okt Vt; rewrite /safe; case: set_state => // t1 [g1 _ Z1].
  by split=> //; rewrite Z1; case: N.eqb_spec.
move=> t1 [g1 nz]; case: ifP => Z1.
  by split=> // k _ _; rewrite t0 wv0 sub0mx.
have := stepS t1 g1 (nz Z1); rewrite /safe; case: (step t1) => // -[bs' t'] [R1 R2 R3 _]; split=> //.
by move=> k _ _; rewrite t0 wv0 sub0mx.
Qed.

(** * The loop of searchParity *)
Lemma card_nonzero bs : bases_good bs ->
  length (nonzero bs) = #|[pred i : 'I_W | row i (Bm bs) != 0]|.
Proof.
move=> [Hl Hb].
have -> : length (nonzero bs) = (\sum_(b <- bs) (is_next b != 0%num))%N.
  rewrite /nonzero; elim: bs {Hl Hb} => [|b bs IH] /=; first by rewrite big_nil.
  by rewrite big_cons -IH; case: N.eqb_spec => [->|/eqP/negbTE ->].
rewrite -sum1_card [RHS]big_mkcond /=.
case: bs Hl Hb => [|b0 bs] Hl Hb.
  rewrite big_nil big1 // => i _; exfalso; have iW := ltn_ord i; rewrite /= in Hl; flia.
rewrite (big_nth b0) (_ : size (b0 :: bs) = W) // big_mkord; apply: eq_bigr => i _.
have [b Eb] := nth_some i Hl.
have -> : nth b0 (b0 :: bs) i = b.
  by move: Eb; clear; elim: (b0 :: bs) (nat_of_ord i) => [|c l IH] [|j] //=; [case | apply: IH].
have [gb _] := Hb _ _ Eb.
have -> : (i \in [pred i0 : 'I_W | row i0 (Bm (b0 :: bs)) != 0]) = (is_next b != 0%num).
  rewrite inE (row_Bm Eb); case: (eqVneq (is_next b) 0%num) => [->|/eqP nz]; first by rewrite wv0 eqxx.
  by apply/eqP => /(wv_inj0 (good_lt gb)).
by case: (_ != _).
Qed.
Lemma Bm_rank bs : bases_good bs -> (length (nonzero bs) <= \rank (Bm bs))%N.
Proof.
move=> Hbs; rewrite card_nonzero //; apply: echelon_rank => i; have [Hl Hb] := Hbs.
have [b Eb] := nth_some i Hl; have [gb eb] := Hb _ _ Eb; rewrite (row_Bm Eb) => nz.
have n0 : is_next b <> 0%num by move=> E; move: nz; rewrite E wv0 eqxx.
have E j : Bm bs i j = msb w (is_next b) j by have /rowP/(_ j) := row_Bm Eb; rewrite !mxE.
have [m1 m0] := eb n0; split=> [|j ij]; rewrite E ?m1 // m0 //; exact: ltW.
Qed.
Lemma Bm_sub bs : bases_good bs -> (Bm bs <= V *m Pm)%MS.
Proof.
move=> [Hl Hb]; apply/row_subP => i; have [b Eb] := nth_some i Hl; have [gb _] := Hb _ _ Eb.
by rewrite (row_Bm Eb) (good_wv gb); have [_ _ HV] := gb; apply: submxMr.
Qed.
Lemma n_le_nb : (n <= nb)%N.
Proof. by have := pg_full PG; rewrite /row_full => /eqP <-; apply: rank_leq_row. Qed.
Lemma count_le bs : bases_good bs -> (length (nonzero bs) <= nb - d)%N.
Proof.
move=> Hbs; apply: leq_trans (Bm_rank Hbs) _; apply: leq_trans (mxrankS (Bm_sub Hbs)) _.
apply: leq_trans (mxrankM_maxl _ _) _; apply: leq_trans (rank_image I sf D1 D2) _.
by have := n_le_nb; flia.
Qed.

Definition complete (bs : list ist) : Prop := bases_good bs /\ (V *m Pm <= Bm bs)%MS.

Lemma complete_count bs : bases_good bs -> (nb - d <= length (nonzero bs))%N -> complete bs.
Proof.
move=> Hbs Hc; split=> //.
have r1 : (\rank (V *m Pm) <= \rank (Bm bs))%N.
  apply: leq_trans (Bm_rank Hbs); apply: leq_trans (mxrankM_maxl _ _) _.
  by apply: leq_trans (rank_image I sf D1 D2) _; have := n_le_nb; flia.
by have := mxrank_leqif_sup (Bm_sub Hbs) => -[_ <-]; rewrite eqn_leq r1 andbT (mxrankS (Bm_sub Hbs)).
Qed.
Lemma complete_bits bs : bases_good bs ->
  (forall b, (b < nb)%N -> (par (pact A f (e b) *m A) <= Bm bs)%MS) -> complete bs.
Proof.
move=> Hbs H; split=> //; set E := \matrix_(i < nb) e i.
have /row_fullP[X XE] : row_full (E *m A).
  by rewrite /row_full mxrankMfree ?row_free_unit //; apply: (pg_full PG).
have -> : V *m Pm = X *m (E *m A *m V *m Pm) by rewrite !mulmxA -(mulmxA X) XE mul1mx.
apply: submx_trans (submxMl _ _) _; apply/row_subP => i; rewrite !row_mul rowK.
by have := H i (ltn_ord i); rewrite -[_ *m A]/(st A 1 _) -pact_st pact_mx.
Qed.

Lemma search_loop_spec fuel : forall cnt bs (t : ist) bp, bases_good bs -> good t -> (nb - bp <= cnt)%N ->
  (forall b, (b < bp)%N -> (par (pact A f (e b) *m A) <= Bm bs)%MS) ->
  safe fuel (search_loop G P pos fuel cnt f nb (Z.of_nat nb - Z.of_nat d)%coqZ bs t bp) complete.
Proof.
have fin bs bp : bases_good bs -> (bp < nb)%N = false ->
    (forall b, (b < bp)%N -> (par (pact A f (e b) *m A) <= Bm bs)%MS) -> complete bs.
  by move=> Hbs Hbp H; apply: complete_bits => // b Hb; apply: H; flia.
elim=> [|cnt IH] bs t bp Hbs gt Hc Hsub; rewrite [search_loop _ _ _ _ _ _ _ _ _ _ _]/=; case: ifP => Hbp; try exact: fin Hsub.
  by flia.
apply: safe_bind (calc_basis_spec fuel gt Hbp) _ => -[t1 bp1] [g1 l1 H1].
apply: safe_bind (addBase_spec fuel _ Hbs g1) _ => -[bs2 t2] [Hbs2 g2 S2 N2].
have low : low0 (is_next t1) W by move=> j; flia.
have tB : (wv (is_next t1) <= Bm bs2)%MS by apply: N2 low _; flia.
case: Z.leb_spec => Hle; first by apply: complete_count => //; flia.
apply: IH => //; first by flia.
move=> b Hb; case: (ltnP b bp) => [/Hsub/submx_trans|Hge]; first by apply.
by case: (H1 b); [flia | move=> <- | move=> ->; exact: sub0mx].
Qed.

Lemma zero_good g : ok g -> good {| is_zero := true; is_next := 0%num; is_rg := g_setZero G g |}.
Proof.
move=> H; have H0 := lin_zero_ok LG H; have a0 := lin_zero_abs LG H.
split=> //=; last by rewrite a0 sub0mx.
by apply/esym/wv_inj0; [exact: (pg_lt PG) | rewrite wv_par // a0 mul0mx].
Qed.
Lemma search_bases fuel g : ok g ->
  let empty := {| is_zero := true; is_next := 0%num; is_rg := g_setZero G g |} in
  safe fuel (search_loop G P pos fuel nb f nb (Z.of_nat nb - Z.of_nat d)%coqZ (List.repeat empty W) empty 0) complete.
Proof.
move=> H empty; apply: search_loop_spec (zero_good H) _ _ => //; last by flia.
split=> [|j b Eb]; first by rewrite List.repeat_length.
by rewrite (List.repeat_spec W empty b (List.nth_error_In _ _ Eb)); split; [exact: zero_good|].
Qed.
End Par.
