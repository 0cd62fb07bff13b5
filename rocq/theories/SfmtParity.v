(** Class sfmt: seed, constructors, setUpParam; searchParity on it. *)
From Coq Require Import NArith ZArith Lia Bool List.
From mathcomp Require Import all_ssreflect all_algebra.
From mathcomp Require Import zify.
From Verif Require Import Base WordLemmas WordVec UtilModel UtilSpec UtilProofs GenModel PolyF2 LinSpec LinLemmas LinInst LinOut PeriodModel PeriodSpec PeriodProofs4 XorshiftProofs TinyLin
  EquiProofs6 MTSpec MTProofs2 ArrayModel ArrayWin ArrayLin ArrayOut MtdcLin MtdcProofs RmtLin RmtParity DelayLin W128Model W128Spec W128Proofs W128Cert
  ParityModel ParitySpec ParityProofs4 ParityProofs5 SfmtModel SfmtLin SfmtProofs.
Set Implicit Arguments.
Unset Strict Implicit.
Unset Printing Implicit Defensive.
Import GRing.Theory.
Local Open Scope N_scope.
Delimit Scope Z_scope with coqZ.

(** * Objects *)
Lemma sf_group_len k l : length (sf_group k l) = k.
Proof. by elim: k l => [//|k IH] l; rewrite /= IH. Qed.
Lemma nth_skipn4 (l : list N) j : List.nth j (List.skipn 4 l) 0 = List.nth (4 + j) l 0.
Proof. by case: l => [|a [|b [|d [|e l]]]] //=; case: j. Qed.
Lemma sf_group_lt k l : (forall j, List.nth j l 0 < 2 ^ 32) -> forall j, List.nth j (sf_group k l) 0 < 2 ^ 128.
Proof.
move=> H j. elim: k l j H => [|k IH] l j H; first by case: j => [|j]; exact: pow2_pos.
case: j => [|j].
- cbn [sf_group List.nth]. have [W _] := of32_ok _ _ _ _ (H 0%N) (H 1%N) (H 2%N) (H 3%N). exact: wval_lt.
- cbn [sf_group]. rewrite [List.nth _ _ _]/(List.nth j (sf_group k (List.skipn 4 l)) 0). apply: IH => i. by rewrite nth_skipn4.
Qed.
Lemma sf_seed_ok c v s : sfc_ok c -> v < 2 ^ 128 -> sfmt_ok c (sf_seed v ((c, s.1), s.2)).
Proof.
move=> Hc Hv. have s2 := sc_size Hc. have [Wv _] := w_of_ok Hv.
split; last exact: pow2_pos. split; first by []. split; cbn [sf_seed fst snd rr_idx rr_arr]; first lia.
split; first exact: sf_group_len.
apply: sf_group_lt => -[|j]; first by cbn [List.nth]; exact: w32_lt.
cbn [List.nth]. apply: fill_small => i x. rewrite /sf_seed_word. apply: (lxor_lt 32); last exact: trunc_lt.
case: (i <? 4)%nat; [exact: w32_lt|exact: pow2_pos].
Qed.
Lemma sf_new_ok q : sfp_ok q -> (128 <= f_mexp q)%coqZ -> (0 <= f_pos1 q)%coqZ ->
  let g := sf_new q in sfc_ok g.1.1 /\ sfmt_ok g.1.1 g.
Proof.
move=> Hq Hm Hp. have D : (1 <= f_mexp q / 128)%coqZ by apply: Z.div_le_lower_bound; lia.
split; first by split; cbn [sf_new fst c_par c_size] => //; lia.
split; last exact: pow2_pos. split; first by []. split; cbn [sf_new fst snd rr_idx rr_arr c_size]; first lia.
split; first exact: List.repeat_length. move=> i. rewrite nth_repeat0. exact: pow2_pos.
Qed.
Lemma sf_at_bind size a i (B : Type) (k : N -> res B) : (forall x, k x = Undef) -> bind (sf_at size a i) k = Undef.
Proof.
move=> H. rewrite /sf_at. case: (_ =? _)%nat; first by []. case: (_ <? _)%coqZ; first by [].
by case: (List.nth_error _ _) => [x|] //=.
Qed.
(** A new object of the first constructor: the shift counts are zero. *)
Lemma sf_fresh mexp junk : sf_generate (sf_new_mexp mexp junk) = Undef.
Proof.
rewrite /sf_generate /sf_new_mexp. suff -> : forall c s, f_sl2 (c_par c) = 0%coqZ -> sf_next_state c s = Undef by [].
move=> c s E. rewrite /sf_next_state. apply: sf_at_bind => x1; apply: sf_at_bind => x2; apply: sf_at_bind => x3; apply: sf_at_bind => x4.
rewrite /sf_recursion E. by have [|_ ->] := shift128_bad (w_of x1) 0; [lia|].
Qed.
(** setUpParam. *)
Lemma or_lt u v : u < 2 ^ 32 -> v < 2 ^ 32 -> N.lor u v < 2 ^ 32.
Proof. exact: lor_lt. Qed.
Lemma sf_setUp_ok (u : nat -> N) g : (forall i, u i < 2 ^ 32) -> (3 <= c_size g.1.1)%N -> N.of_nat (c_size g.1.1) < 2 ^ 31 ->
  exists g', [/\ sf_setUpParam u g = Ret g', sfc_ok g'.1.1 & (1 <= f_pos1 (c_par g'.1.1) <= Z.of_nat (c_size g.1.1) - 2)%coqZ] /\
    [/\ c_size g'.1.1 = c_size g.1.1, f_mexp (c_par g'.1.1) = f_mexp (c_par g.1.1), c_weight g'.1.1 = c_weight g.1.1,
        c_start g'.1.1 = c_start g.1.1 & (g'.1.2, g'.2) = (g.1.2, g.2)].
Proof.
move=> Hu. case: g => [[c s] q]. cbn [fst snd] => s3 sL. rewrite /sf_setUpParam.
have EM : wsub 32 (N.of_nat (c_size c)) 2 = N.of_nat (c_size c) - 2.
  rewrite /wsub /trunc. have E32 : 2 ^ 32 = 2 * 2 ^ 31 by []. 
  rewrite (N.mod_small 2 (2 ^ 32)); last by [].
  have -> : N.of_nat (c_size c) + (2 ^ 32 - 2) = (N.of_nat (c_size c) - 2) + 1 * 2 ^ 32 by lia.
  rewrite N.mod_add; last by []. apply: N.mod_small. lia.
rewrite EM. have -> : (N.of_nat (c_size c) - 2 =? 0) = false by lia.
have M0 := N.mod_upper_bound (u 0%N) (N.of_nat (c_size c) - 2).
have EP : to_signed 32 (wadd 32 (u 0%N mod (N.of_nat (c_size c) - 2)) 1) = Z.of_N (u 0%N mod (N.of_nat (c_size c) - 2) + 1).
  rewrite /wadd /trunc /to_signed. move: (u 0%N mod _) M0 => x M0. rewrite N.mod_small; last by have E32 : 2 ^ 32 = 2 * 2 ^ 31 by []; lia.
  have -> : 32 - 1 = 31 by []. by have -> : (x + 1 <? 2 ^ 31) = true by lia.
rewrite EP. eexists; split; first split; first exact: erefl.
- split; cbn [fst c_par c_size f_pos1]; [split; cbn [f_sl1 f_sl2 f_sr1 f_sr2 f_msk1 f_msk2 f_msk3 f_msk4]; try exact: or_lt|lia|lia].
  + have := N.mod_upper_bound (u 1%N) 31. lia.
  + have := N.mod_upper_bound (u 2%N) 4. lia.
  + have := N.mod_upper_bound (u 3%N) 31. lia.
  + have := N.mod_upper_bound (u 4%N) 4. lia.
- cbn [fst c_par f_pos1]. lia.
- by [].
Qed.
Lemma sf_setUp_2 (u : nat -> N) g : c_size g.1.1 = 2%N -> sf_setUpParam u g = Undef.
Proof. by case: g => [[c s] q]; cbn [fst snd] => E; rewrite /sf_setUpParam E. Qed.

(** * Parity *)
Lemma pos_spec128 : pos_spec 128 (fun x => Ret (w_calc_1pos_wrap (w_of x))).
Proof.
split=> // x [Hx0 Hx]. have [W V] := w_of_ok Hx. have [_ H] := w_calc_wrap_ok _ W. rewrite V in H.
have [|q [Eq Hq]] := lowest_pos (H _); first by lia. by exists q; rewrite Eq.
Qed.

Section Par.
Variable c : sfc.
Hypothesis Hc : sfc_ok c.
Hypothesis s3 : (3 <= c_size c)%N.
Hypothesis p0 : (0 < sf_pos c)%N.
Hypothesis w4 : c_weight c = 4%coqZ.
Notation size := (c_size c).
Notation p := (c_par c).
Notation n := (c_size c * 128)%N.
Notation m := (wm_bits (c_weight c)).
Let dg := sfmt_dg Hc.

Definition sf_e (i : nat) : 'rV['F_2]_(n + m) := (\row_j (j == sf_idx c i :> nat)%:R)%R.
(** Bit j (from the top) of the newest word. *)
Definition sf_Q (j : nat) : 'cV['F_2]_(n + m) := (\col_(i < n + m) ((i == ((size - 1) * 128 + 127 - j)%N :> nat) : bool)%:R)%R.
Lemma m0 : m = 0%N.
Proof. by rewrite w4. Qed.
Lemma sf_win_last g : sfmt_ok c g -> sf_getParity g = sf_win c g (size - 1).
Proof.
move=> [[_ [Hi _]] _]. have s2 := sc_size Hc. rewrite /sf_getParity /sf_win. congr (List.nth _ _ _).
rewrite (_ : (rr_idx g.1.2 + 1 + (size - 1))%N = Nat.add (rr_idx g.1.2) (Nat.mul 1 size)); last by lia.
rewrite Nat.mod_add //; last lia. by rewrite Nat.mod_small.
Qed.
Lemma sf_obit_Q x j (H : ((size - 1) * 128 + 127 - j < n + m)%N) : (obit sf_Q x j = x 0 (Ordinal H))%R.
Proof.
rewrite /obit mxE (bigD1 (Ordinal H)) //= mxE eqxx mulr1 big1 ?addr0 // => i Hi.
rewrite mxE (_ : (_ == _ :> nat) = false) ?mulr0 //. by apply/negbTE; apply: contra Hi => /eqP E; apply/eqP/val_inj.
Qed.
Lemma sf_Q_ok g j : sfmt_ok c g -> N.of_nat j < 128 -> msb 128 (sf_getParity g) j = obit sf_Q (sfmt_vec c g) j.
Proof.
move=> Hg Hj. have H : ((size - 1) * 128 + 127 - j < n + m)%N by lia.
rewrite sf_obit_Q sf_win_last // /msb /sfmt_vec /dl_vec mxE /f2 /dl_bits.
have -> : (Ordinal H < n)%N by cbn [nat_of_ord]; lia. rewrite /ar_bits addn0. cbn [nat_of_ord].
have D : Nat.div ((size - 1) * 128 + 127 - j)%N 128 = (size - 1)%N by symmetry; apply: (Nat.div_unique _ _ _ (127 - j)%N); lia.
have M : Nat.modulo ((size - 1) * 128 + 127 - j)%N 128 = (127 - j)%N by symmetry; apply: (Nat.mod_unique _ _ (size - 1)%N); lia.
rewrite D M. congr (N.testbit _ _)%:R%R. lia.
Qed.
Lemma sf_e_full : row_full (\matrix_(i < n) sf_e i)%R.
Proof.
rewrite -sub1mx. apply/row_subP => j. have Hj : (j < n)%N by have := ltn_ord j; have := m0; lia.
have s2 := sc_size Hc.
pose i := (Nat.add (Nat.mul (Nat.modulo (0 + 1 + Nat.div j 128) size) 128) (Nat.modulo j 128)).
have Hi : (i < n)%N.
  rewrite /i. have := Nat.mod_upper_bound (0 + 1 + Nat.div j 128) size. have := Nat.mod_upper_bound j 128. lia.
have E := sf_idx_bit Hc Hi Hj. rewrite eqxx in E.
rewrite (_ : row j 1%:M = row (Ordinal Hi) (\matrix_(i < n) sf_e i))%R; first exact: row_sub.
apply/rowP => k. rewrite !mxE. congr ((nat_of_bool _)%:R)%R. cbn [nat_of_ord].
have /eqP <- : nat_of_ord j == sf_idx c i by rewrite -E. exact: eq_sym.
Qed.
Lemma sf_parity_gen : parity_gen sf_ops sf_par_ops (sfmt_ok c) (sfmt_vec c) n sf_e sf_Q.
Proof.
split.
- move=> s Hs. apply/idP/eqP => H; exact/(sfmt_isZero Hc Hs).
- by move=> s [[E _] _]; cbn [g_bitSize sf_ops]; rewrite -[fst (fst s)]/(s.1.1) E.
- by move=> s i Hs Hi; right; exact: (sf_setOneBit_vec Hc Hs Hi).
- exact: sf_e_full.
- by move=> s [[_ [_ [_ H]]] _]; exact: H.
- by move=> s j Hs Hj; exact: sf_Q_ok.
Qed.
Lemma sf_unit : sfmt_A c \in unitmx.
Proof. exact: (sfmt_unit Hc). Qed.
Lemma iter_vec k s : sfmt_ok c s -> sfmt_vec c (iter k (dl_next size (sF c) (sR c)) s) = st (sfmt_A c) k (sfmt_vec c s).
Proof.
move=> Hs. elim: k => [//|k IH]. rewrite iterS /st iterS -/(st _ k _) -IH.
have [H _] := iter_next Hc k Hs. exact: (dl_gen_vec dg).
Qed.
Lemma sf_observable : observable (sfmt_A c) sf_Q 128.
Proof.
move=> x H. have s2 := sc_size Hc. have [s Hs Es] := dl_sur dg x.
have PW k : sf_getParity (iter k (dl_next size (sF c) (sR c)) s) = 0.
  have [Hk _] := iter_next Hc k Hs.
  apply: (@msb_inj0 128); first by have [[_ [_ [_ L]]] _] := Hk; exact: L.
  move=> j Hj. rewrite sf_Q_ok // -(H k j Hj). congr obit. rewrite -Es. exact: iter_vec.
have Z : st (sfmt_A c) (size - 1) x = 0%R.
  have -> : x = sfmt_vec c s by rewrite -Es. rewrite -iter_vec //.
  have [Hm E1] := iter_next Hc (size - 1) Hs.
  apply/(dl_vec_zero dg Hm). split; last first.
    by move=> i Hi; apply: (bits_above 128); [exact: Hm.2|move: Hi; rewrite m0; lia].
  move=> k Hk. rewrite E1 sf_win_W //.
  have [Hk' E2] := iter_next Hc k Hs. have := PW k. rewrite sf_win_last // /sf_win E2.
  rewrite -[List.nth _ _ _]/(ar_win size (iter k (ar_step size (sF c)) s.1) (size - 1)) sf_win_W //; last lia.
  by rewrite addnC.
exact: (st_inj0 sf_unit Z).
Qed.

Section Search.
Variables (pos : N -> res Z) (kernel : nat -> nat -> (nat -> nat -> bool) -> list (list bool)) (f : f2x) (d : nat).
Hypothesis Hpos : pos_spec 128 pos.
Hypothesis HK : kernel_spec kernel.
Hypothesis I : irreducible_poly f.
Hypothesis sf : seq.size f = d.+1.
Hypothesis D1 : (f %| char_poly (sfmt_A c))%R.
Hypothesis D2 : ~~ (f ^+ 2 %| char_poly (sfmt_A c))%R.
Lemma sf_setting : parity_setting sf_ops sf_par_ops (sfmt_ok c) (sfmt_vec c) (sfmt_A c) (sfmt_C c) pos kernel
  n sf_e sf_Q d f.
Proof. by split=> //; [exact: sfmt_lin|exact: sf_parity_gen|exact: sf_unit]. Qed.
Lemma sf_search junk fuel g : f_mexp p = Z.of_nat d -> (n < d + 128)%N -> (n <= fuel)%N -> sfmt_ok c g ->
  exists v, [/\ searchParity sf_ops sf_par_ops pos kernel (Some junk) fuel g f = Ret (v, sf_setParity v g), 0 < v < 2 ^ 128 &
    forall s, sfmt_ok c s -> inner 128 v (sf_getParity s) = 1%R ->
      (sfmt_vec c s *m poly_mx (sfmt_A c) (char_poly (sfmt_A c) %/ f) != 0)%R /\
      (primitive f d -> forall k, sfmt_vec c (run sf_ops k s) = sfmt_vec c s -> 2 ^ d - 1 %| k)%N].
Proof.
move=> Ed Hn Hf Hg.
have Em : p_getMexp sf_par_ops g = Z.of_nat d by have [[E _] _] := Hg; cbn [p_getMexp sf_par_ops]; rewrite -[fst (fst g)]/(g.1.1) E.
have := spec junk fuel sf_setting Hg Em.
have C := @certifies _ _ _ _ _ _ _ _ _ _ _ _ _ _ _ junk fuel g sf_setting Hg Em.
have T := @no_throw _ _ _ _ _ _ _ _ _ _ _ _ _ _ _ junk fuel g sf_setting Hg Em.
case E : searchParity => [[v g']|||//|] K.
- exists v. have [v0 Eg H] := C v g' E. split=> //. by rewrite Eg.
- case: K => s [i [H1 H2 H3]]. have [g' [H4 _ _]] := sf_setOneBit_vec Hc H1 H2. by move: H3; cbn [p_setOneBit sf_par_ops]; rewrite H4.
- by case: (T _ E); move: Hn; rewrite m0 addn0.
- case: K; split; first exact: sf_observable. by move: Hf; rewrite m0 addn0.
Qed.
End Search.
End Par.

(** The recursion bit by bit. *)
Lemma frec_bits p : sfp_ok p -> forall a b c d i l, a < 2 ^ 128 -> i < 32 -> l < 4 ->
  let bit x k := N.testbit x (Z.to_N k) in
  let j := (32 * Z.of_N l + Z.of_N i)%coqZ in
  let msk := match l with 0 => f_msk1 p | 1 => f_msk2 p | 2 => f_msk3 p | _ => f_msk4 p end in
  bit (frec p a b c d) j =
    xorb (xorb (xorb (xorb (bit a j) ((8 * f_sl2 p <=? j)%coqZ && bit a (j - 8 * f_sl2 p)%coqZ))
      ((Z.of_N i + f_sr1 p <? 32)%coqZ && bit b (j + f_sr1 p)%coqZ && N.testbit msk i))
      (bit c (j + 8 * f_sr2 p)%coqZ)) ((f_sl1 p <=? Z.of_N i)%coqZ && bit d (j - f_sl1 p)%coqZ).
Proof.
move=> Hp a b c d i l Ha Hi Hl bit j msk. rewrite /bit. have [P1 P2 P3 P4 M1 M2 M3 M4] := Hp.
have Ej : j = (32 * Z.of_N l + Z.of_N i)%coqZ by []. clearbody j. have EJ : Z.to_N j = 32 * l + i by lia. have LJ : 32 * l + i < 128 by lia.
have EM : (32 * l + i) mod 32 = i by rewrite N.add_comm N.mul_comm N.mod_add // N.mod_small.
rewrite EJ /frec !N.lxor_spec N.land_spec wshl_spec wshr_spec sh32r_bit // sh32l_bit // EM.
have -> : (32 * l + i <? 128) by lia. rewrite [true && _]/=.
have Q x u v : u = v -> N.testbit x u = N.testbit x v by move=> ->.
congr xorb; first congr xorb; first congr xorb; first congr xorb.
- have -> : (8 * Z.to_N (f_sl2 p) <=? 32 * l + i) = (8 * f_sl2 p <=? j)%coqZ by lia.
  case: Z.leb_spec => L; last by []. cbn [andb]. apply: Q. lia.
- congr andb.
  + have -> : (i + Z.to_N (f_sr1 p) <? 32) = (Z.of_N i + f_sr1 p <? 32)%coqZ by lia.
    congr andb. apply: Q. lia.
  + have [_ BM] := of32_ok _ _ _ _ M1 M2 M3 M4. rewrite /sf_msk BM /msk.
    have K : l = 0 \/ l = 1 \/ l = 2 \/ l = 3 by lia.
    move: K => [E|[E|[E|E]]]; rewrite E; repeat (case: N.ltb_spec => ?); try lia; apply: Q; lia.
- apply: Q. lia.
- have -> : (Z.to_N (f_sl1 p) <=? i) = (f_sl1 p <=? Z.of_N i)%coqZ by lia.
  case: Z.leb_spec => L; last by []. cbn [andb]. apply: Q. lia.
Qed.
