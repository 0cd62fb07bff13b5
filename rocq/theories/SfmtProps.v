(** Properties C60 to C63 and C31: the class sfmt. *)
From Coq Require Import NArith ZArith List Bool Lia.
From mathcomp Require Import all_ssreflect all_algebra.
From mathcomp Require Import zify.
From Verif Require Import Base UtilModel GenModel PolyF2 LinSpec PeriodModel PeriodSpec PeriodProofs4 ArrayModel W128Model W128Spec W128Proofs W128Cert
  ParityModel ParitySpec DelayLin SfmtModel SfmtLin SfmtProofs SfmtParity.
Set Implicit Arguments.
Unset Strict Implicit.
Unset Printing Implicit Defensive.
Import GRing.Theory.
Local Open Scope ring_scope.
Delimit Scope Z_scope with coqZ.

(** C60: the class is a linear generator in every start and weight mode; the
    dimension is 128 * size plus the bits of the word before that the weight
    mode uses.  generate() is defined. *)
Theorem C60_linear : forall c, sfc_ok c -> linear_gen sf_ops (sfmt_ok c) (sfmt_vec c) (sfmt_A c) (sfmt_C c).
Proof. exact sfmt_lin. Qed.
Theorem C60_output : forall c, sfc_ok c ->
  linear_out sf_ops (sfmt_ok c) (sfmt_vec c) (@dl_D sfc c 128 (c_size c) (wm_bits (c_weight c)) (c_size c * 128) (sR c)).
Proof. exact sfmt_linout. Qed.
Theorem C60_defined : forall c, sfc_ok c -> forall s, sfmt_ok c s ->
  (exists x s', [/\ sf_generate s = Ret (x, s'), (x < 2 ^ 128)%num & sfmt_ok c s']) /\
  forall v, (1 <= v <= 128)%coqZ -> exists x s', [/\ sf_generate_len v s = Ret (x, s'), (x < 2 ^ 128)%num & sfmt_ok c s'].
Proof.
move=> c Hc s Hs. split.
- exists (g_generate sf_ops s).1, (g_generate sf_ops s).2. have := sf_generateE Hc Hs. cbn [g_generate sf_ops] => ->.
  cbn [sf_run fst snd]. split=> //; [exact: (dl_out_lt (sfmt_dg Hc) Hs)|exact: (dl_next_ok (sfmt_dg Hc) Hs)].
- move=> v Hv. have L := sfmt_lin Hc. have Hv' : (1 <= v <= Z.of_N (g_width sf_ops))%coqZ by exact: Hv.
  have A := lin_len_lt L Hs Hv'. have D := lin_len_ok L Hs Hv'.
  move: A D. cbn [g_generate_len sf_ops g_width]. rewrite (sf_lenE Hc Hs Hv). cbn [sf_run fst snd] => A D.
  by eexists; eexists; split; [exact: erefl|exact: A|exact: D].
Qed.
Theorem C60_state : forall c, sfc_ok c -> forall s t, sfmt_ok c s -> sfmt_ok c t ->
  let word (g : sfmt) k := List.nth ((rr_idx g.1.2 + 1 + k) mod c_size c)%nat (rr_arr g.1.2) 0%num in
  sfmt_vec c s = sfmt_vec c t <-> (forall k, (k < c_size c)%N -> word s k = word t k) /\
    forall i, (N.of_nat (128 - wm_bits (c_weight c)) <= i)%num -> N.testbit s.2 i = N.testbit t.2 i.
Proof. exact sfmt_state. Qed.
Theorem C60_isZero : forall c, sfc_ok c -> forall s, sfmt_ok c s -> sf_isZero s = true <-> sfmt_vec c s = 0.
Proof. exact sfmt_isZero. Qed.
(** With weight mode 4 the transition is invertible; in the other modes it is
    never. *)
Theorem C60_invertible : forall c, sfc_ok c -> (3 <= c_size c)%N ->
  (Nat.modulo (Z.to_nat (f_pos1 (c_par c))) (c_size c) <> 0)%N -> c_weight c = 4%coqZ -> sfmt_A c \in unitmx.
Proof. move=> c Hc s3 p0 w4. apply: (sfmt_unit Hc) => //. rewrite /sf_pos. lia. Qed.
Theorem C60_not_invertible : forall c, sfc_ok c -> c_weight c <> 4%coqZ -> sfmt_A c \notin unitmx.
Proof. exact sfmt_sing. Qed.
(** Seeded objects meet the hypotheses; an object of the first constructor
    without setUpParam does not: its generate() is undefined. *)
Theorem C60_seed : forall c v s, sfc_ok c -> (v < 2 ^ 128)%num -> sfmt_ok c (sf_seed v ((c, s.1), s.2)).
Proof. exact sf_seed_ok. Qed.
Theorem C60_new : forall q, sfp_ok q -> (128 <= f_mexp q)%coqZ -> (0 <= f_pos1 q)%coqZ ->
  let g := sf_new q in sfc_ok g.1.1 /\ sfmt_ok g.1.1 g.
Proof. exact sf_new_ok. Qed.
(** The constructors take the least number of words with more than mexp bits. *)
Theorem C60_size : forall q mexp junk, (0 <= f_mexp q)%coqZ -> (0 <= mexp)%coqZ ->
  (Z.of_nat (c_size (sf_new q).1.1 * 128) - 128 <= f_mexp q < Z.of_nat (c_size (sf_new q).1.1 * 128))%coqZ /\
  (Z.of_nat (c_size (sf_new_mexp mexp junk).1.1 * 128) - 128 <= mexp < Z.of_nat (c_size (sf_new_mexp mexp junk).1.1 * 128))%coqZ /\
  f_mexp (c_par (sf_new_mexp mexp junk).1.1) = mexp /\ c_par (sf_new q).1.1 = q.
Proof.
have K m : (0 <= m)%coqZ -> (Z.of_nat (Z.to_nat (m / 128 + 1) * 128) - 128 <= m < Z.of_nat (Z.to_nat (m / 128 + 1) * 128))%coqZ.
  move=> Hm. have D := Z.div_mod m 128. have R := Z.mod_pos_bound m 128. have P := Z.div_pos m 128.
  move: (m / 128)%coqZ (m mod 128)%coqZ D R P Hm => a b. clear. lia.
by move=> q mexp junk H1 H2; split; [exact: K|split; [exact: K|]].
Qed.
Theorem C60_fresh_refuted : exists mexp junk, (128 <= mexp)%coqZ /\ length junk = Z.to_nat (mexp / 128 + 1) /\
  sf_generate (sf_new_mexp mexp junk) = Undef.
Proof. by exists 607%coqZ, (List.repeat 1%num 5); split; [|split; [|exact: sf_fresh]]. Qed.

(** The parameters of SFMT607, start mode 1, weight mode 3. *)
Definition sf_exp : sfp := SFP 607 2 15 3 13 3 0xfdff37ff 0xef7f3f7d 0xff777b7d 0x7ff7fb2f 0.
Definition sf_exc (st wt : Z) : sfc := SFC sf_exp 5 st wt false.
Definition sf_ex (st wt : Z) : sfmt := sf_seed 1234 ((sf_exc st wt, RR 0 nil), 0%num).
Lemma sf_ex_ok st wt : sfc_ok (sf_exc st wt) /\ sfmt_ok (sf_exc st wt) (sf_ex st wt).
Proof.
have H : sfc_ok (sf_exc st wt) by split=> //; split.
by split=> //; apply: (@sf_seed_ok (sf_exc st wt) 1234 (RR 0 nil, 0%num)).
Qed.
Example C60_case : sfc_ok (sf_exc 1 3) /\ sfmt_ok (sf_exc 1 3) (sf_ex 1 3) /\ c_weight (sf_exc 1 3) <> 4%coqZ /\
  (3 <= c_size (sf_exc 0 4))%N /\ Nat.modulo (Z.to_nat (f_pos1 (c_par (sf_exc 0 4)))) (c_size (sf_exc 0 4)) <> 0%N /\
  sf_isZero (sf_ex 1 3) = false /\ sf_new sf_exp = ((sf_exc 0 4, RR 0 (List.repeat 0%num 5)), 0%num).
Proof. have [H1 H2] := sf_ex_ok 1 3. split; first exact: H1. split; first exact: H2. by vm_compute. Qed.

(** C61: the sequence.  The 128-bit words W (0), W (1), ... are those of the
    array, from the oldest, continued by the recursion; Y is the sequence of
    their 32-bit words.  Call j returns the four words of Y from the position
    of the start mode on, those from the weight mode on one block earlier. *)
Theorem C61_sequence : forall c, sfc_ok c -> forall s, sfmt_ok c s -> exists W : nat -> N,
  let p := c_par c in let size := c_size c in
  let Y q := w32 (w_of (W (Nat.div q 4))) (Nat.modulo q 4) in
  [/\ forall k, (W k < 2 ^ 128)%num,
      forall k, (k < size)%N -> W k = List.nth ((rr_idx s.1.2 + 1 + k) mod size)%nat (rr_arr s.1.2) 0%num,
      forall k, W (k + size)%N = frec p (W k) (W (k + Nat.modulo (Z.to_nat (f_pos1 p)) size)%N) (W (k + (size - 2))%N) (W (k + (size - 1))%N) &
      forall j i, c_weight c = 4%coqZ \/ (0 < j)%N -> (i < 4)%N ->
        w32 (w_of (g_generate sf_ops (run sf_ops j s)).1) i =
        Y (4 * (j + size - 1) + sm_phase (c_start c) + i - (if (i < wm_words (c_weight c))%N then 0 else 4))%N].
Proof.
move=> c Hc s Hs. exists (sf_W c s); split.
- by move=> k; exact: (sf_W_lt Hc k Hs).
- by move=> k Hk; rewrite (sf_W_win Hc Hs Hk).
- by move=> k; exact: (sf_W_rec Hc k Hs).
- by move=> j i Hj Hi; have := sf_blocks Hc Hs Hj Hi; rewrite /sf_Y => ->.
Qed.
(** setStartMode and setWeightMode keep parameters and array; the latter clears the
    word kept, so the words of the next output from the weight mode on are 0. *)
Theorem C61_modes : forall c, sfc_ok c -> forall s, sfmt_ok c s -> forall sm wm,
  let s' := sf_setStart sm (sf_setWeight wm s) in
  [/\ s'.1.2 = s.1.2, c_par s'.1.1 = c_par c, c_size s'.1.1 = c_size c, c_start s'.1.1 = sm /\ c_weight s'.1.1 = wm &
      forall i, (i < 4)%N -> (1 <= wm <= 4)%coqZ -> (Z.to_nat wm <= i)%N -> w32 (w_of (g_generate sf_ops s').1) i = 0%num].
Proof.
move=> c Hc s Hs sm wm s'.
have Es : s' = ((SFC (c_par c) (c_size c) sm wm (c_rev c), s.1.2), 0%num).
  by rewrite /s'; case: s Hs {s'} => [[c' r] q] [[/= -> _] _].
pose c' := SFC (c_par c) (c_size c) sm wm (c_rev c).
have Hc' : sfc_ok c' by case: Hc => *; split.
have Hs' : sfmt_ok c' s' by rewrite Es; case: Hs => [[_ R] _]; split=> //; split.
split; try by rewrite Es.
move=> i Hi Hw Li. rewrite (dg_step (sfmt_dg Hc')) //. cbn [fst].
have LO := dl_out_lt (sfmt_dg Hc') Hs'. have [WO VO] := w_of_ok LO.
apply: N.bits_inj => j. rewrite N.bits_0 w32_bit //; last by lia. case: N.ltb_spec => // Hj.
rewrite VO /dl_out mixw_bit (_ : s'.2 = 0%num); last by rewrite Es.
have -> : (32 * N.of_nat i + j <? N.of_nat (128 - wm_bits (c_weight c')))%num = false; last by rewrite N.bits_0.
rewrite /c'; cbn [c_weight]. have EW : (wm = 1 \/ wm = 2 \/ wm = 3 \/ wm = 4)%coqZ by lia.
by case: EW Li => [->|[->|[->|->]]] Li; rewrite /wm_bits; lia.
Qed.
(** The recursion, bit by bit: bit i of lane l (i < 32, l < 4). *)
Theorem C61_recursion : forall p, sfp_ok p -> forall a b c d i l, (a < 2 ^ 128)%num -> (i < 32)%num -> (l < 4)%num ->
  let bit x k := N.testbit x (Z.to_N k) in
  let j := (32 * Z.of_N l + Z.of_N i)%coqZ in
  let msk := match l with 0 => f_msk1 p | 1 => f_msk2 p | 2 => f_msk3 p | _ => f_msk4 p end%num in
  bit (frec p a b c d) j =
    xorb (xorb (xorb (xorb (bit a j) ((8 * f_sl2 p <=? j)%coqZ && bit a (j - 8 * f_sl2 p)%coqZ))
      ((Z.of_N i + f_sr1 p <? 32)%coqZ && bit b (j + f_sr1 p)%coqZ && N.testbit msk i))
      (bit c (j + 8 * f_sr2 p)%coqZ)) ((f_sl1 p <=? Z.of_N i)%coqZ && bit d (j - f_sl1 p)%coqZ).
Proof. exact frec_bits. Qed.
Example C61_case : let s := sf_ex 1 3 in sfc_ok (sf_exc 1 3) /\ sfmt_ok (sf_exc 1 3) s /\ sfp_ok sf_exp /\
  w32 (w_of (g_generate sf_ops (run sf_ops 1 s)).1) 3 <> w32 (w_of (g_generate sf_ops (run sf_ops 2 s)).1) 3 /\
  w32 (w_of (g_generate sf_ops (sf_setStart 2 (sf_setWeight 2 s))).1) 1 <> 0%num.
Proof.
have [H1 H2] := sf_ex_ok 1 3. split; first exact: H1. split; first exact: H2. split; first exact: sc_par H1. by vm_compute.
Qed.

(** C62: setOneBit(i) sets bit i of the array and no other, for every i; so its
    vectors are the unit vectors of the array. *)
Theorem C62_setOneBit : forall c, sfc_ok c -> forall g i, sfmt_ok c g -> (i < c_size c * 128)%N ->
  exists g', [/\ sf_setOneBit i g = Ret g', sfmt_ok c g', forall j, sf_bit g' j = (j == i), g'.2 = 0%num & rr_idx g'.1.2 = 0%N].
Proof. exact sf_setOneBit_ok. Qed.
Theorem C62_unit_vector : forall c, sfc_ok c -> forall g i, sfmt_ok c g -> (i < c_size c * 128)%N ->
  exists g', [/\ sf_setOneBit i g = Ret g', sfmt_ok c g' & exists j : 'I_(c_size c * 128 + wm_bits (c_weight c)), sfmt_vec c g' = delta_mx 0 j].
Proof.
move=> c Hc g i Hg Hi. have [g' [H1 H2 H3]] := sf_setOneBit_vec Hc Hg Hi. exists g'; split=> //.
have L : (sf_idx c i < c_size c * 128 + wm_bits (c_weight c))%N.
  rewrite /sf_idx. have s2 := sc_size Hc. have := Nat.mod_upper_bound (Nat.add (Nat.div i 128) (c_size c) - 1)%N (c_size c).
  have := Nat.mod_upper_bound i 128. lia.
exists (Ordinal L). rewrite H3. apply/rowP => j. rewrite !mxE eqxx. congr (nat_of_bool _)%:R.
Qed.
Example C62_case : sfc_ok (sf_exc 0 4) /\ sfmt_ok (sf_exc 0 4) (sf_ex 0 4) /\ (127 + 128 < c_size (sf_exc 0 4) * 128)%N /\
  match sf_setOneBit (127 + 128) (sf_ex 0 4) with Ret g => List.nth 1 (rr_arr g.1.2) 0%num = (2 ^ 127)%num | _ => False end.
Proof. have [H1 H2] := sf_ex_ok 0 4. split; first exact: H1. split; first exact: H2. by vm_compute. Qed.

(** C63: setUpParam gives legal parameters for arrays of at least three words,
    also those that make the transition invertible; for two words it divides
    by zero. *)
Theorem C63_setUpParam : forall (u : nat -> N) g, (forall i, (u i < 2 ^ 32)%num) -> (3 <= c_size g.1.1)%N -> (N.of_nat (c_size g.1.1) < 2 ^ 31)%num ->
  exists g', [/\ sf_setUpParam u g = Ret g', sfc_ok g'.1.1 & (1 <= f_pos1 (c_par g'.1.1) <= Z.of_nat (c_size g.1.1) - 2)%coqZ] /\
    [/\ c_size g'.1.1 = c_size g.1.1, f_mexp (c_par g'.1.1) = f_mexp (c_par g.1.1), c_weight g'.1.1 = c_weight g.1.1,
        c_start g'.1.1 = c_start g.1.1 & (g'.1.2, g'.2) = (g.1.2, g.2)].
Proof. exact sf_setUp_ok. Qed.
Theorem C63_two_words : forall (u : nat -> N) g, c_size g.1.1 = 2%N -> sf_setUpParam u g = Undef.
Proof. exact sf_setUp_2. Qed.
Example C63_case : let g := sf_new_mexp 607 (List.repeat 0%num 5) in (3 <= c_size g.1.1)%N /\ (N.of_nat (c_size g.1.1) < 2 ^ 31)%num /\
  c_size (sf_new_mexp 216 (List.repeat 0%num 2)).1.1 = 2%N.
Proof. by []. Qed.

(** C31 for sfmt: with the parameters of setUpParam searchParity always returns
    a certificate. *)
Theorem C31_sfmt_contract : forall c, sfc_ok c -> (3 <= c_size c)%N ->
  (0 < Nat.modulo (Z.to_nat (f_pos1 (c_par c))) (c_size c))%N -> c_weight c = 4%coqZ ->
  parity_gen sf_ops sf_par_ops (sfmt_ok c) (sfmt_vec c) (c_size c * 128) (sf_e c) (sf_Q c) /\ observable (sfmt_A c) (sf_Q c) 128.
Proof. by move=> c Hc s3 p0 w4; split; [exact: sf_parity_gen|exact: sf_observable]. Qed.
Theorem C31_sfmt : forall c pos kernel f d junk fuel g, sfc_ok c -> (3 <= c_size c)%N ->
  (0 < Nat.modulo (Z.to_nat (f_pos1 (c_par c))) (c_size c))%N -> c_weight c = 4%coqZ -> pos_spec 128 pos -> kernel_spec kernel ->
  irreducible_poly f -> size f = d.+1 -> f %| char_poly (sfmt_A c) -> ~~ (f ^+ 2 %| char_poly (sfmt_A c)) ->
  f_mexp (c_par c) = Z.of_nat d -> (c_size c * 128 < d + 128)%N -> (c_size c * 128 <= fuel)%N -> sfmt_ok c g ->
  exists v, [/\ searchParity sf_ops sf_par_ops pos kernel (Some junk) fuel g f = Ret (v, sf_setParity v g), (0 < v < 2 ^ 128)%num &
    forall s, sfmt_ok c s -> inner 128 v (sf_getParity s) = 1 ->
      sfmt_vec c s *m poly_mx (sfmt_A c) (char_poly (sfmt_A c) %/ f) != 0 /\
      (primitive f d -> forall k, sfmt_vec c (run sf_ops k s) = sfmt_vec c s -> 2 ^ d - 1 %| k)%N].
Proof.
move=> c pos kernel f d junk fuel g H1 H2 H3 H4 H5 H6 H7 H8 H9 H10 H11 H12 H13 H14.
exact: (sf_search H1 H2 H3 H4 H5 H6 H7 H8 H9 H10 junk H11 H12 H13 H14).
Qed.
(** calc_1pos of the 128-bit words is as specified, where negation wraps. *)
Theorem C31_sfmt_calc_1pos : pos_spec 128 (fun x => Ret (w_calc_1pos_wrap (w_of x))).
Proof. exact pos_spec128. Qed.
Example C31_sfmt_case : let c := sf_exc 0 4 in sfc_ok c /\ sfmt_ok c (sf_ex 0 4) /\ (3 <= c_size c)%N /\
  (0 < Nat.modulo (Z.to_nat (f_pos1 (c_par c))) (c_size c))%N /\ c_weight c = 4%coqZ /\ f_mexp (c_par c) = Z.of_nat 607 /\ (c_size c * 128 < 607 + 128)%N.
Proof. have [H1 H2] := sf_ex_ok 0 4. split; first exact: H1. split; first exact: H2. by vm_compute. Qed.

Print Assumptions C60_linear.
Print Assumptions C60_output.
Print Assumptions C60_defined.
Print Assumptions C60_state.
Print Assumptions C60_isZero.
Print Assumptions C60_invertible.
Print Assumptions C60_not_invertible.
Print Assumptions C60_seed.
Print Assumptions C60_new.
Print Assumptions C60_size.
Print Assumptions C60_fresh_refuted.
Print Assumptions C61_sequence.
Print Assumptions C61_modes.
Print Assumptions C61_recursion.
Print Assumptions C62_setOneBit.
Print Assumptions C62_unit_vector.
Print Assumptions C63_setUpParam.
Print Assumptions C63_two_words.
Print Assumptions C31_sfmt_contract.
Print Assumptions C31_sfmt.
Print Assumptions C31_sfmt_calc_1pos.
