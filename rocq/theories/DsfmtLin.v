(** The class dSFMT meets the contract of the toolbox in every start mode and
    weight mode as long as its prefix is 0: the words of the array then have 52
    bits in each half. *)
From Coq Require Import NArith ZArith Lia Bool List.
From mathcomp Require Import all_ssreflect all_algebra.
From mathcomp Require Import zify.
From Verif Require Import Base WordLemmas WordVec UtilModel UtilProofs GenModel LinSpec LinLemmas LinInst LinOut PeriodSpec XorshiftProofs TinyLin
  ArrayModel ArrayWin ArrayLin ArrayOut MtdcLin ViewLin W128Model W128Spec W128Proofs W128Cert SfmtModel SfmtLin DsfmtModel.
Set Implicit Arguments.
Unset Strict Implicit.
Unset Printing Implicit Defensive.
Local Open Scope N_scope.
Delimit Scope Z_scope with coqZ.

(** * Halves of 128-bit words *)
Lemma lo64_lt x : lo64 x < 2 ^ 64.
Proof. exact: trunc_lt. Qed.
Lemma hi64_lt x : x < 2 ^ 128 -> hi64 x < 2 ^ 64.
Proof. by move=> /w_of_ok [[]]. Qed.
Lemma lo64_bit x i : N.testbit (lo64 x) i = (i <? 64) && N.testbit x i.
Proof. by rewrite /lo64 /w_of; cbn [u0]; rewrite trunc_spec; case: (_ <? _). Qed.
Lemma hi64_bit x i : N.testbit (hi64 x) i = N.testbit x (i + 64).
Proof. by rewrite /hi64 /w_of; cbn [u1]; rewrite wshr_spec. Qed.
Lemma lo64_add x y : lo64 (N.lxor x y) = N.lxor (lo64 x) (lo64 y).
Proof. by apply: N.bits_inj => i; rewrite N.lxor_spec !lo64_bit N.lxor_spec; case: (_ <? _). Qed.
Lemma hi64_add x y : hi64 (N.lxor x y) = N.lxor (hi64 x) (hi64 y).
Proof. by apply: N.bits_inj => i; rewrite N.lxor_spec !hi64_bit N.lxor_spec. Qed.
Lemma join_bit l h i : l < 2 ^ 64 -> N.testbit (join l h) i = if i <? 64 then N.testbit l i else N.testbit h (i - 64).
Proof. move=> Hl. exact: (cat_spec 64 h l i Hl). Qed.
Lemma join_lt l h : l < 2 ^ 64 -> h < 2 ^ 64 -> join l h < 2 ^ 128.
Proof. by move=> Hl Hh; apply: wval_lt. Qed.
Lemma lo_join l h : l < 2 ^ 64 -> lo64 (join l h) = l.
Proof.
move=> Hl. apply: N.bits_inj => i. rewrite lo64_bit join_bit //. case: N.ltb_spec => //= L.
by rewrite (bits_above 64).
Qed.
Lemma hi_join l h : l < 2 ^ 64 -> hi64 (join l h) = h.
Proof.
move=> Hl. apply: N.bits_inj => i. rewrite hi64_bit join_bit //. have -> : (i + 64 <? 64) = false by lia.
congr N.testbit. lia.
Qed.
Lemma join_lohi x : join (lo64 x) (hi64 x) = x.
Proof.
apply: N.bits_inj => i. rewrite join_bit; last exact: lo64_lt. rewrite lo64_bit hi64_bit. case: N.ltb_spec => //= L.
congr N.testbit. lia.
Qed.
Lemma join_add l h l' h' : l < 2 ^ 64 -> l' < 2 ^ 64 -> join (N.lxor l l') (N.lxor h h') = N.lxor (join l h) (join l' h').
Proof.
move=> Hl Hl'. have Hx := lxor_lt 64 _ _ Hl Hl'. apply: N.bits_inj => i. rewrite N.lxor_spec !join_bit // !N.lxor_spec.
by case: (_ <? _).
Qed.
Lemma join_0 : join 0 0 = 0.
Proof. by []. Qed.
Lemma join_eq l h l' h' : l < 2 ^ 64 -> l' < 2 ^ 64 -> join l h = join l' h' -> l = l' /\ h = h'.
Proof. by move=> Hl Hl' E; rewrite -(lo_join h Hl) -{2}(hi_join h Hl) E lo_join // hi_join. Qed.

(** Words with 52 bits in each half. *)
Definition w52 (x : N) : Prop := lo64 x < 2 ^ 52 /\ hi64 x < 2 ^ 52.
Lemma lt52_64 x : x < 2 ^ 52 -> x < 2 ^ 64.
Proof. move=> H. apply: N.lt_trans; [exact: H|by []]. Qed.
Lemma w52_lt x : w52 x -> x < 2 ^ 128.
Proof. move=> [H1 H2]. rewrite -(join_lohi x). by apply: join_lt; apply: lt52_64. Qed.
Lemma w52_bit x i : w52 x -> N.testbit x i = true -> i < 52 \/ 64 <= i < 116.
Proof.
move=> [H1 H2] B. case: (N.ltb_spec i 64) => L.
- have : N.testbit (lo64 x) i = true by rewrite lo64_bit B; have -> : (i <? 64) by lia. 
  case: (N.ltb_spec i 52) => M; first by left. by rewrite (bits_above 52).
- have : N.testbit (hi64 x) (i - 64) = true by rewrite hi64_bit -B; congr N.testbit; lia.
  case: (N.ltb_spec (i - 64) 52) => M; first by right; lia. by rewrite (bits_above 52).
Qed.
Lemma w52_add x y : w52 x -> w52 y -> w52 (N.lxor x y).
Proof. by move=> [A B] [C D]; split; rewrite ?lo64_add ?hi64_add; apply: lxor_lt. Qed.
Lemma w52_0 : w52 0.
Proof. by []. Qed.
Lemma w52_join l h : l < 2 ^ 52 -> h < 2 ^ 52 -> w52 (join l h).
Proof. by move=> Hl Hh; split; rewrite ?lo_join ?hi_join //; exact: lt52_64. Qed.

(** * The recursion *)
Definition lungw (sl1 : Z) (t L b : N) : N :=
  N.lxor (N.lxor (N.lxor (wshl 64 t (Z.to_N sl1)) (wshr L 32)) (wshl 64 L 32)) b.
Definition dlung (p : dsp) (a b L : N) : N :=
  join (lungw (d_sl1 p) (lo64 a) (hi64 L) (lo64 b)) (lungw (d_sl1 p) (hi64 a) (lo64 L) (hi64 b)).
Definition dnew (p : dsp) (a l : N) : N :=
  join (ds_new_word (d_msk1 p) (lo64 a) (lo64 l)) (ds_new_word (d_msk2 p) (hi64 a) (hi64 l)).
(** Legal parameters. *)
Record dsp_ok (p : dsp) : Prop := {
  do_sl1 : (0 <= d_sl1 p < 64)%coqZ; do_m1 : d_msk1 p < 2 ^ 52; do_m2 : d_msk2 p < 2 ^ 52 }.

Lemma lungw_lt sl t L b : L < 2 ^ 64 -> b < 2 ^ 64 -> lungw sl t L b < 2 ^ 64.
Proof.
move=> HL Hb. rewrite /lungw. apply: (lxor_lt 64) => //. apply: (lxor_lt 64); last exact: wshl_lt.
apply: (lxor_lt 64); first exact: wshl_lt. exact: shiftr_lt.
Qed.
Lemma lungw_add sl t L b t' L' b' :
  lungw sl (N.lxor t t') (N.lxor L L') (N.lxor b b') = N.lxor (lungw sl t L b) (lungw sl t' L' b').
Proof. rewrite /lungw !wshl_lin wshr_lin. by rewrite (lxor_swap (wshl 64 t _)) (lxor_swap (N.lxor _ _) _ (wshl 64 L 32)) lxor_swap. Qed.
Lemma new_add m t l t' l' : ds_new_word m (N.lxor t t') (N.lxor l l') = N.lxor (ds_new_word m t l) (ds_new_word m t' l').
Proof. rewrite /ds_new_word wshr_lin land_lin. by rewrite (lxor_swap (wshr l _)) lxor_swap. Qed.
Lemma land_lt2 w a b : b < 2 ^ w -> N.land a b < 2 ^ w.
Proof. by rewrite N.land_comm; exact: land_lt. Qed.
Lemma sr12_lt l : l < 2 ^ 64 -> wshr l 12 < 2 ^ 52.
Proof.
move=> Hl. apply: lt_pow2_bits => i Hi. rewrite wshr_spec. apply: (bits_above 64) => //. lia.
Qed.
Lemma new_lt m t l : m < 2 ^ 52 -> t < 2 ^ 52 -> l < 2 ^ 64 -> ds_new_word m t l < 2 ^ 52.
Proof.
move=> Hm Ht Hl. rewrite /ds_new_word. apply: (lxor_lt 52) => //. apply: (lxor_lt 52); first exact: sr12_lt.
exact: land_lt2.
Qed.
Lemma new_lt64 m t l : t < 2 ^ 64 -> l < 2 ^ 64 -> ds_new_word m t l < 2 ^ 64.
Proof.
move=> Ht Hl. rewrite /ds_new_word. apply: (lxor_lt 64) => //. apply: (lxor_lt 64); first exact: shiftr_lt.
exact: land_lt.
Qed.
Lemma dlung_lt p a b L : b < 2 ^ 128 -> L < 2 ^ 128 -> dlung p a b L < 2 ^ 128.
Proof. by move=> Hb HL; apply: join_lt; apply: lungw_lt; (exact: lo64_lt) || exact: hi64_lt. Qed.
Lemma dnew_52 p a l : dsp_ok p -> w52 a -> l < 2 ^ 128 -> w52 (dnew p a l).
Proof. by move=> [_ M1 M2] [A1 A2] Hl; apply: w52_join; apply: new_lt => //; [exact: lo64_lt|exact: hi64_lt]. Qed.
Lemma dnew_lt p a l : a < 2 ^ 128 -> l < 2 ^ 128 -> dnew p a l < 2 ^ 128.
Proof. by move=> Ha Hl; apply: join_lt; apply: new_lt64; (exact: lo64_lt) || exact: hi64_lt. Qed.
Lemma dlung_add p a b L a' b' L' : L < 2 ^ 128 -> L' < 2 ^ 128 ->
  dlung p (N.lxor a a') (N.lxor b b') (N.lxor L L') = N.lxor (dlung p a b L) (dlung p a' b' L').
Proof.
move=> HL HL'. rewrite /dlung !lo64_add !hi64_add !lungw_add join_add //; apply: lungw_lt; (exact: lo64_lt) || exact: hi64_lt.
Qed.
Lemma dnew_add p a l a' l' : dnew p (N.lxor a a') (N.lxor l l') = N.lxor (dnew p a l) (dnew p a' l').
Proof. rewrite /dnew !lo64_add !hi64_add !new_add join_add //; apply: new_lt64; exact: lo64_lt. Qed.
Lemma ds_recursionE p a b L : (0 <= d_sl1 p < 64)%coqZ -> L < 2 ^ 128 ->
  ds_recursion p a b L = Ret (dnew p a (dlung p a b L), dlung p a b L).
Proof.
move=> Hs HL. have SL z : shl64 z (d_sl1 p) = Ret (wshl 64 z (Z.to_N (d_sl1 p))).
  rewrite /shl64. by have -> : ((0 <=? d_sl1 p) && (d_sl1 p <? 64))%coqZ by lia.
rewrite /ds_recursion /ds_lung_word !SL. cbn [bind]. rewrite /dnew /dlung.
have K : lungw (d_sl1 p) (lo64 a) (hi64 L) (lo64 b) < 2 ^ 64 by apply: lungw_lt; [exact: hi64_lt|exact: lo64_lt].
by rewrite lo_join // hi_join.
Qed.

(** * Start and weight modes *)
Lemma start_52 m p i : w52 p -> w52 i -> w52 (ds_start m p i).
Proof. by move=> [A B] [C D]; rewrite /ds_start; case: m => [|?|?] //; apply: w52_join. Qed.
Lemma start_lt m p i : p < 2 ^ 128 -> i < 2 ^ 128 -> ds_start m p i < 2 ^ 128.
Proof. rewrite /ds_start => Hp Hi. have L : join (hi64 p) (lo64 i) < 2 ^ 128 by apply: join_lt; [exact: hi64_lt|exact: lo64_lt]. by case: m. Qed.
Lemma start_add m p i p' i' : p < 2 ^ 128 -> p' < 2 ^ 128 ->
  ds_start m (N.lxor p p') (N.lxor i i') = N.lxor (ds_start m p i) (ds_start m p' i').
Proof. by move=> Hp Hp'; rewrite /ds_start; case: m => [|?|?] //; rewrite hi64_add lo64_add join_add //; exact: hi64_lt. Qed.
Definition wt2 (m : Z) : bool := (m =? 2)%coqZ.
Lemma weightE2 m r q : ds_weight m r q = if wt2 m then r else join (lo64 r) (hi64 q).
Proof. by rewrite /ds_weight /wt2; case: m => [|[?|[?|?|]|]|?]. Qed.

(** What is asked of an object. *)
Record dsc_ok (c : dsc) : Prop := {
  dc_par : dsp_ok (e_par c); dc_size : (2 <= e_size c)%N; dc_pos : (0 <= d_pos1 (e_par c))%coqZ; dc_pre : e_prefix c = 0 }.

Section Gen.
Variable c : dsc.
Hypothesis Hc : dsc_ok c.
Notation size := (e_size c).
Notation p := (e_par c).
Definition ds_pos : nat := Nat.modulo (Z.to_nat (d_pos1 p)) size.
Lemma ds_pos_lt : (ds_pos < size)%N.
Proof. have := Nat.mod_upper_bound (Z.to_nat (d_pos1 p)) size. have := dc_size Hc. rewrite /ds_pos. lia. Qed.

(** The state as words: those of the array from the oldest, the lung, and the
    half of the block before that the weight mode uses. *)
Definition ds_view (s : dsfmt) (k : nat) : N :=
  if (k < size)%N then win size s.1.2 k
  else if k == size then ds_lung s
  else if wt2 (e_weight c) then 0 else hi64 (ds_prev s).
Definition dm : nat := if wt2 (e_weight c) then 0%N else 52%N.
Definition dn : nat := (size * 104 + 128 + dm)%N.
Definition ds_bitpos (j : nat) : N := N.of_nat (if (j < 52)%N then j else j + 12)%N.
Definition ds_posn (i : nat) : nat * N :=
  if (i < size * 104)%N then ((i %/ 104)%N, ds_bitpos (i %% 104)%N)
  else if (i < size * 104 + 128)%N then (size, N.of_nat (i - size * 104)%N)
  else (size.+1, N.of_nat (i - (size * 104 + 128))%N).
Definition dsfmt_ok (s : dsfmt) : Prop :=
  [/\ s.1.1 = c, rr_ok 128 size s.1.2, forall j, w52 (List.nth j (rr_arr s.1.2) 0), ds_lung s < 2 ^ 128 & w52 (ds_prev s)].
Definition ds_word52 (f : nat -> bool) : N :=
  join (mkw 52 f) (mkw 52 (fun j => f (j + 52)%N)).
Definition ds_mk (f : nat -> bool) : dsfmt :=
  ((c, rr_mk size (fun k => ds_word52 (fun j => f (k * 104 + j)%N))),
   (mkw 128 (fun j => f (size * 104 + j)%N),
    join 0 (if wt2 (e_weight c) then 0 else mkw 52 (fun j => f (size * 104 + 128 + j)%N)))).
Definition ds_addS (s t : dsfmt) : dsfmt :=
  ((c, rr_xor size s.1.2 t.1.2), (N.lxor (ds_lung s) (ds_lung t), N.lxor (ds_prev s) (ds_prev t))).

(** The functions on the words. *)
Definition vL (a : nat -> N) : N := dlung p (a 0%N) (a ds_pos) (a size).
Definition vN (a : nat -> N) : N := dnew p (a 0%N) (vL a).
Definition vR (a : nat -> N) : N := ds_start (e_start c) (a (size - 1)%N) (vN a).
Definition vF (k : nat) (a : nat -> N) : N :=
  if (k < size - 1)%N then a k.+1
  else if (k < size)%N then vN a
  else if k == size then vL a
  else if wt2 (e_weight c) then 0 else hi64 (vR a).
Definition vO (a : nat -> N) : N := if wt2 (e_weight c) then vR a else join (lo64 (vR a)) (a size.+1).
Definition ds_small (a : nat -> N) : Prop := forall k, a k < 2 ^ 128.

Lemma dn_pos i : (i < dn)%N -> ((ds_posn i).1 < size.+2)%N.
Proof.
rewrite /ds_posn. case: ifP => L Hi; last by case: ifP => M; cbn [fst]; lia.
cbn [fst]. have K : (i %/ 104 < size)%N by rewrite ltn_divLR. lia.
Qed.
Lemma win52 s k : dsfmt_ok s -> w52 (win size s.1.2 k).
Proof. by move=> [_ _ W _ _]; exact: W. Qed.
Lemma ds_small_view s : dsfmt_ok s -> ds_small (ds_view s).
Proof.
move=> Hs k. have [_ _ W L P] := Hs. rewrite /ds_view. case: ifP => _; first exact: (w52_lt (win52 k Hs)).
case: ifP => _ //. case: ifP => _; first exact: (pow2_pos 128). apply: (N.lt_trans _ (2 ^ 52)); [by case: P|by []].
Qed.
Lemma ds_cov s k b : dsfmt_ok s -> (k < size.+2)%N -> N.testbit (ds_view s k) b = true -> exists2 i, (i < dn)%N & ds_posn i = (k, b).
Proof.
move=> Hs Hk. have [_ _ W L P] := Hs. rewrite /ds_view. case: ifP => K.
- move=> B. have Hb := w52_bit (win52 k Hs) B. pose j := (if (b <? 52)%num then N.to_nat b else N.to_nat b - 12)%N.
  have Hj : (j < 104)%N by rewrite /j; case: N.ltb_spec; lia.
  exists (k * 104 + j)%N; first by rewrite /dn; nia.
  rewrite /ds_posn. have -> : (k * 104 + j < size * 104)%N by nia.
  rewrite divnMDl // divn_small // addn0 modnMDl modn_small //. congr (_, _). rewrite /ds_bitpos /j.
  by case: N.ltb_spec => M; case: ifP => Q; lia.
- case: eqP => [->|NE] B.
  + have Hb : b < 128 by case: (N.ltb_spec b 128) => // M; move: B; rewrite (bits_above 128).
    exists (size * 104 + N.to_nat b)%N; first by rewrite /dn; lia.
    rewrite /ds_posn. have -> : (size * 104 + N.to_nat b < size * 104)%N = false by lia.
    have -> : (size * 104 + N.to_nat b < size * 104 + 128)%N by lia. congr (_, _). lia.
  + move: B. rewrite /dn /dm. case: ifP => WT; first by rewrite N.bits_0.
    move=> B. have Hb : b < 52 by case: (N.ltb_spec b 52) => // M; move: B; rewrite (bits_above 52) //; case: P.
    exists (size * 104 + 128 + N.to_nat b)%N; first lia.
    rewrite /ds_posn. have -> : (size * 104 + 128 + N.to_nat b < size * 104)%N = false by lia.
    have -> : (size * 104 + 128 + N.to_nat b < size * 104 + 128)%N = false by lia. congr (_, _); lia.
Qed.
Lemma word52_ok f : w52 (ds_word52 f).
Proof. by apply: w52_join; exact: (mkw_lt 52). Qed.
Lemma word52_bit f j : (j < 104)%N -> N.testbit (ds_word52 f) (ds_bitpos j) = f j.
Proof.
move=> Hj. rewrite /ds_word52 join_bit; last by apply: lt52_64; exact: (mkw_lt 52).
rewrite /ds_bitpos. case: (ltnP j 52) => L.
- have -> : (N.of_nat j <? 64) = true by clear -L; lia. rewrite mkw_bit. by have -> : (j <? 52)%nat by lia.
- have -> : (N.of_nat (j + 12) <? 64) = false by lia. have -> : N.of_nat (j + 12) - 64 = N.of_nat (j - 52) by lia.
  rewrite mkw_bit. have -> : (j - 52 <? 52)%nat by lia. rewrite /=. congr f. lia.
Qed.
Lemma ds_mk_ok f : dsfmt_ok (ds_mk f).
Proof.
have s2 := dc_size Hc. split; [by []| | | |].
- apply: mk_ok; first lia. move=> k _. exact: (w52_lt (word52_ok _)).
- move=> j. cbn [ds_mk fst snd rr_mk rr_arr]. case: (Nat.ltb_spec j size) => L.
  + rewrite (List.nth_indep _ 0 (ds_word52 (fun i => f (0 * 104 + i)%N))); last by rewrite List.map_length List.seq_length.
    rewrite (List.map_nth (fun k => ds_word52 (fun i => f (k * 104 + i)%N)) (List.seq 0 size) 0%N j). exact: word52_ok.
  + rewrite List.nth_overflow; first by []. by rewrite List.map_length List.seq_length.
- exact: (mkw_lt 128).
- cbn [ds_mk ds_prev snd]. apply: w52_join; first exact: pow2_pos. case: ifP => _; [exact: pow2_pos|exact: (mkw_lt 52)].
Qed.
Lemma ds_mk_bits f i : (i < dn)%N -> N.testbit (ds_view (ds_mk f) (ds_posn i).1) (ds_posn i).2 = f i.
Proof.
move=> Hi. have s2 := dc_size Hc. rewrite /ds_posn. case: ifP => L.
- cbn [fst snd]. have K : (i %/ 104 < size)%N by rewrite ltn_divLR.
  rewrite /ds_view K. cbn [ds_mk fst snd]. rewrite win_mk; [|lia|lia]. rewrite word52_bit; last exact: ltn_pmod. by rewrite -divn_eq.
- case: ifP => M; cbn [fst snd]; rewrite /ds_view.
  + rewrite ltnn eqxx. cbn [ds_mk ds_lung fst snd]. rewrite mkw_bit. have -> : (i - size * 104 <? 128)%nat by lia.
    rewrite /=. congr f. lia.
  + have -> : (size.+1 < size)%N = false by lia. have -> : (size.+1 == size) = false by lia.
    move: Hi. rewrite /dn /dm. case: ifP => WT Hi; first lia.
    cbn [ds_mk ds_prev snd]. rewrite WT hi_join; last exact: pow2_pos. rewrite mkw_bit.
    have -> : (i - (size * 104 + 128) <? 52)%nat by lia. rewrite /=. congr f. lia.
Qed.
Lemma nth_xor52 (s t : rr) j : rr_ok 128 size s -> rr_ok 128 size t -> (forall j, w52 (List.nth j (rr_arr s) 0)) ->
  (forall j, w52 (List.nth j (rr_arr t) 0)) -> w52 (List.nth j (rr_arr (rr_xor size s t)) 0).
Proof.
move=> R1 R2 W1 W2. have s2 := dc_size Hc. have s0 : (0 < size)%coq_nat by lia.
have R3 := xor_ok 128 size s0 _ _ R1 R2.
case: (Nat.ltb_spec j size) => L; last first.
  rewrite List.nth_overflow; first by []. have [_ [-> _]] := R3. lia.
have [I1 [L1 _]] := R1.
have [k Hk Ek] : exists2 k, (k < size)%N & j = Nat.modulo (rr_idx s + 1 + k) size.
  exists (Nat.modulo (j + (size - 1) * (rr_idx s + 1)) size); first by have := Nat.mod_upper_bound (j + (size - 1) * (rr_idx s + 1))%coq_nat size; lia.
  rewrite Nat.add_mod_idemp_r; last lia.
  have -> : Nat.add (Nat.add (rr_idx s) 1) (Nat.add j (Nat.mul (size - 1) (Nat.add (rr_idx s) 1))) = Nat.add j (Nat.mul (Nat.add (rr_idx s) 1) size) by nia.
  rewrite Nat.mod_add; last lia. by rewrite Nat.mod_small.
have := win_xor 128 size s0 s t k R1 R2. rewrite /win. cbn [rr_xor rr_idx]. rewrite -Ek => ->; last lia. exact: w52_add.
Qed.
Lemma ds_addS_ok s t : dsfmt_ok s -> dsfmt_ok t -> dsfmt_ok (ds_addS s t).
Proof.
move=> [E1 R1 W1 L1 P1] [E2 R2 W2 L2 P2]. have s2 := dc_size Hc. split; cbn [ds_addS fst snd ds_lung ds_prev].
- by [].
- apply: xor_ok => //. lia.
- move=> j. exact: nth_xor52.
- exact: (lxor_lt 128).
- exact: w52_add.
Qed.
Lemma ds_addS_view s t k : dsfmt_ok s -> dsfmt_ok t -> (k < size.+2)%N ->
  ds_view (ds_addS s t) k = N.lxor (ds_view s k) (ds_view t k).
Proof.
move=> [E1 R1 W1 L1 P1] [E2 R2 W2 L2 P2] Hk. have s2 := dc_size Hc. rewrite /ds_view. case: ifP => K.
- cbn [ds_addS fst snd]. rewrite (win_xor 128) //; lia.
- case: ifP => M; first by []. case: ifP => Q; first by []. cbn [ds_addS ds_prev snd]. exact: hi64_add.
Qed.
Lemma ds_addE s t : dsfmt_ok s -> dsfmt_ok t -> ds_add s t = ds_addS s t.
Proof.
case: s => [[c1 s] [l q]]; case: t => [[c2 t] [l' q']] [E1 R1 W1 L1 P1] [E2 R2 W2 L2 P2]. cbn [fst] in E1, E2.
cbn [ds_lung ds_prev fst snd] in *. rewrite /ds_add /ds_addS /ds_lung /ds_prev E1. cbn [fst snd].
have [V1 V1'] := w_of_ok L1. have [V2 V2'] := w_of_ok L2. have [V3 V3'] := w_of_ok (w52_lt P1). have [V4 V4'] := w_of_ok (w52_lt P2).
have [_ ->] := w_xor_ok _ _ V1 V2. have [_ ->] := w_xor_ok _ _ V3 V4. by rewrite V1' V2' V3' V4'.
Qed.
(** The words of the next state. *)
Lemma vL_lt a : ds_small a -> vL a < 2 ^ 128.
Proof. by move=> H; apply: dlung_lt. Qed.
Lemma vN_lt a : ds_small a -> vN a < 2 ^ 128.
Proof. by move=> H; apply: dnew_lt => //; exact: vL_lt. Qed.
Lemma vR_lt a : ds_small a -> vR a < 2 ^ 128.
Proof. by move=> H; apply: start_lt => //; exact: vN_lt. Qed.
Lemma vL_add a b : ds_small a -> ds_small b -> vL (fun k => N.lxor (a k) (b k)) = N.lxor (vL a) (vL b).
Proof. by move=> Ha Hb; exact: dlung_add. Qed.
Lemma vN_add a b : ds_small a -> ds_small b -> vN (fun k => N.lxor (a k) (b k)) = N.lxor (vN a) (vN b).
Proof. by move=> Ha Hb; rewrite /vN vL_add //; exact: dnew_add. Qed.
Lemma vR_add a b : ds_small a -> ds_small b -> vR (fun k => N.lxor (a k) (b k)) = N.lxor (vR a) (vR b).
Proof. by move=> Ha Hb; rewrite /vR vN_add //; exact: start_add. Qed.
Notation VF := (vfun size.+2 ds_small).
Lemma vL_vf : VF vL.
Proof.
split; first exact: vL_add. have s2 := dc_size Hc. have q := ds_pos_lt. move=> a b E. by rewrite /vL !E //; lia.
Qed.
Lemma vN_vf : VF vN.
Proof. split; first exact: vN_add. move=> a b E. by rewrite /vN (vf_ext vL_vf E) E. Qed.
Lemma vR_vf : VF vR.
Proof. split; first exact: vR_add. move=> a b E. rewrite /vR (vf_ext vN_vf E) E //. have := dc_size Hc. lia. Qed.
Lemma vF_vf k : (k < size.+2)%N -> VF (vF k).
Proof.
move=> Hk. rewrite /vF. case K1: (k < size - 1)%N; first by split=> // a b E; apply: E; lia.
case K2: (k < size)%N; first by case: vN_vf => A B; split. case K3: (k == size); first by case: vL_vf => A B; split.
case K4: (wt2 _); first by split. case: vR_vf => A B; split=> [a b Ha Hb|a b E]; first by rewrite A // hi64_add.
by rewrite (B a b).
Qed.
Lemma vO_vf : VF vO.
Proof.
rewrite /vO. case: (wt2 _); first by case: vR_vf => A B; split. case: vR_vf => A B. split=> [a b Ha Hb|a b E].
- rewrite A // lo64_add join_add //; exact: lo64_lt.
- by rewrite (B a b) // E.
Qed.
Lemma vO_lt s : dsfmt_ok s -> vO (ds_view s) < 2 ^ 128.
Proof.
move=> Hs. have S := ds_small_view Hs. rewrite /vO. case: ifP => WT; first exact: vR_lt.
apply: join_lt; first exact: lo64_lt. rewrite /ds_view. have -> : (size.+1 < size)%N = false by lia.
have -> : (size.+1 == size) = false by lia. rewrite WT. apply: lt52_64. by have [_ _ _ _ []] := Hs.
Qed.
Lemma vN_52 s : dsfmt_ok s -> w52 (vN (ds_view s)).
Proof.
move=> Hs. have S := ds_small_view Hs. apply: dnew_52; [exact: dc_par|rewrite /ds_view; have -> : (0 < size)%N by have := dc_size Hc; lia|exact: vL_lt].
exact: win52.
Qed.
Definition ds_nexts (s : dsfmt) : dsfmt :=
  ((c, rr_push size s.1.2 (vN (ds_view s))), (vL (ds_view s), vR (ds_view s))).
Lemma view_arr s k : (k < size)%N -> ds_view s k = win size s.1.2 k.
Proof. by rewrite /ds_view => ->. Qed.
Lemma view_lung s : ds_view s size = ds_lung s.
Proof. by rewrite /ds_view ltnn eqxx. Qed.
(** next_state on words of any size. *)
Lemma ds_nextE s L : rr_ok 128 size s -> L < 2 ^ 128 ->
  ds_next_state c s L = Ret (rr_push size s (dnew p (win size s 0) (dlung p (win size s 0) (win size s ds_pos) L)),
    dlung p (win size s 0) (win size s ds_pos) L).
Proof.
move=> [Hi [Hl Hw]] HL. have Hs := dc_size Hc. have s0 : (0 < size)%N by lia. have Hp := dc_pos Hc.
rewrite /ds_next_state. set ix := Nat.modulo _ _.
have Lx : (ix < size)%coq_nat by apply: Nat.mod_upper_bound; lia.
have E0 : sf_at size (rr_arr s) (Z.of_nat ix) = Ret (win size s 0).
  rewrite sf_atE //. congr Ret. have := @at_win_next size _ s 0. rewrite Nat.add_0_r. apply; lia.
have E1 : sf_at size (rr_arr s) (Z.of_nat ix + d_pos1 p) = Ret (win size s ds_pos).
  have -> : (Z.of_nat ix + d_pos1 p)%coqZ = Z.of_nat (Nat.add ix (Z.to_nat (d_pos1 p))) by lia.
  rewrite sf_atE //. congr Ret. rewrite -(@at_win_next size _ s ds_pos); [|lia|lia|have := ds_pos_lt; lia].
  rewrite /rr_at /ds_pos -/ix. by rewrite Nat.add_mod_idemp_r //; lia.
rewrite E0 E1. cbn [bind]. rewrite ds_recursionE //. exact: (do_sl1 (dc_par Hc)).
Qed.
Lemma ds_generateE s : dsfmt_ok s -> ds_generate s = Ret (vO (ds_view s), ds_nexts s).
Proof.
move=> Hs0. have [E R W L P] := Hs0. have V := ds_small_view Hs0. move: E R W L P V (vN_52 Hs0) => {Hs0}.
case: s => [[c' s] [l q]] E Hs W L P V N52. cbn [fst snd ds_lung ds_prev] in E, Hs, W, L, P. rewrite {c'}E in V N52 *.
have s2 := dc_size Hc. have s0 : (0 < size)%N by lia. have sq := ds_pos_lt.
rewrite /ds_generate ds_nextE //. cbn [bind]. set x := dnew _ _ _. set y := dlung _ _ _ _.
have Ey : y = vL (ds_view ((c, s), (l, q))) by rewrite /vL view_lung !view_arr.
have Ex : x = vN (ds_view ((c, s), (l, q))) by rewrite /vN -Ey view_arr.
have Hx : x < 2 ^ 128 by rewrite Ex; exact: vN_lt.
set s' := rr_push _ _ _. have Hs' : rr_ok 128 size s' by apply: push_ok => //; lia. have [I' [L' W']] := Hs'.
have -> : (Z.of_nat (rr_idx s') + Z.of_nat size - 1)%coqZ = Z.of_nat (Nat.add (rr_idx s') (size - 1)) by lia.
rewrite !sf_atE //. cbn [bind].
have E1 : rr_at size (rr_arr s') (Nat.add (rr_idx s') (size - 1)) = win size s (size - 1).
  rewrite at_win; [|lia|lia|lia]. rewrite (win_push 128) //; try lia.
  case: Nat.eqb_spec => // K; first lia. congr win. lia.
have E2 : rr_at size (rr_arr s') (rr_idx s') = x.
  have := @at_win size _ s' size. rewrite (win_push 128) //; try lia. rewrite Nat.eqb_refl => <-; [|lia|lia|lia].
  rewrite /rr_at. have -> : Nat.add (rr_idx s') size = Nat.add (rr_idx s') (Nat.mul 1 size) by lia. by rewrite Nat.mod_add //; lia.
rewrite E1 E2 weightE2 /ds_nexts /vO. have -> : ds_start (e_start c) (win size s (size - 1)) x = vR (ds_view ((c, s), (l, q))).
  by rewrite /vR -Ex view_arr //; lia.
rewrite -Ex -Ey. cbn [fst snd]. congr (Ret (_, _)). case: ifP => // WT. congr join. rewrite /ds_view.
have -> : (size.+1 < size)%N = false by lia. have -> : (size.+1 == size) = false by lia. by rewrite WT.
Qed.
Lemma ds_nexts_ok s : dsfmt_ok s -> dsfmt_ok (ds_nexts s).
Proof.
move=> Hs. have [E R W L P] := Hs. have V := ds_small_view Hs. have N52 := vN_52 Hs. have s2 := dc_size Hc.
have s0 : (0 < size)%coq_nat by lia. have [I [Ln _]] := R.
split; cbn [ds_nexts fst snd ds_lung ds_prev].
- by [].
- apply: push_ok => //. exact: vN_lt.
- move=> j. rewrite /rr_push. cbn [rr_arr]. rewrite nth_put; last by rewrite Ln; apply: Nat.mod_upper_bound; lia.
  by case: Nat.eqb_spec.
- exact: vL_lt.
- apply: start_52 => //. rewrite view_arr; last lia. exact: win52.
Qed.
Lemma ds_nexts_view s k : dsfmt_ok s -> (k < size.+2)%N -> ds_view (ds_nexts s) k = vF k (ds_view s).
Proof.
move=> Hs Hk. have [E R W L P] := Hs. have s2 := dc_size Hc. rewrite /vF {1}/ds_view. case: (ltnP k size) => K.
- cbn [ds_nexts fst snd]. rewrite (win_push 128) //; try lia. case: Nat.eqb_spec => M.
  + by have -> : (k < size - 1)%N = false by lia.
  + have -> : (k < size - 1)%N by lia. by rewrite view_arr //; lia.
- have -> : (k < size - 1)%N = false by lia. by case: ifP => M; [|case: ifP].
Qed.
Lemma ds_lenE v s : dsfmt_ok s -> (1 <= v <= 128)%coqZ -> ds_generate_len v s =
  Ret (N.land (vO (ds_view s)) (wshl 128 (wnot 128 0) (128 - Z.to_N v)), ds_nexts s).
Proof.
move=> Hs Hv. rewrite /ds_generate_len ds_generateE //. cbn [bind].
have [Wx Vx] := w_of_ok (vO_lt Hs). have Hv' : (0 <= v <= 128)%coqZ by lia.
have [mk [-> [Wm Vm]]] := w_mask_spec _ Hv'. cbn [bind]. rewrite top_mask128 // -Vm.
by have [_ ->] := w_and_ok _ _ Wx Wm; rewrite Vx.
Qed.
Lemma ds_zero_ok s : dsfmt_ok s -> dsfmt_ok (ds_setZero s).
Proof.
case: s => [[c' s] [l q]] [E R W L P]. cbn [fst] in E. rewrite E. have s2 := dc_size Hc.
split; cbn [ds_setZero fst snd ds_lung ds_prev rr_arr]; [by []| | |exact: (pow2_pos 128)|by []].
- split; cbn [rr_idx rr_arr]; first lia. split; first exact: List.repeat_length. move=> i. rewrite nth_repeat0. exact: pow2_pos.
- by move=> j; rewrite nth_repeat0.
Qed.
Lemma ds_zero_view s k : dsfmt_ok s -> ds_view (ds_setZero s) k = 0.
Proof.
case: s => [[c' s] [l q]] [E R W L P]. cbn [fst] in E. rewrite E /ds_view. cbn [ds_setZero fst snd ds_lung ds_prev].
rewrite /win. cbn [rr_arr]. rewrite nth_repeat0. by case: ifP => // _; case: ifP => // _; case: ifP.
Qed.

Lemma ds_vg : view_gen size.+2 dn dsfmt_ok ds_view ds_posn ds_mk ds_addS vF vO ds_small ds_ops.
Proof.
split.
- exact: dn_pos.
- exact: ds_cov.
- exact: ds_small_view.
- exact: ds_mk_ok.
- exact: ds_mk_bits.
- exact: ds_addS_ok.
- exact: ds_addS_view.
- exact: ds_addE.
- exact: vF_vf.
- exact: vO_vf.
- by move=> s Hs; cbn [g_generate ds_ops]; rewrite ds_generateE //; exact: ds_nexts_ok.
- by move=> s k Hs Hk; cbn [g_generate ds_ops]; rewrite ds_generateE //; exact: ds_nexts_view.
- by move=> s Hs; cbn [g_generate ds_ops]; rewrite ds_generateE.
- exact: vO_lt.
- by move=> v s Hs Hv; cbn [g_generate g_generate_len ds_ops g_width] in *; rewrite ds_lenE // ds_generateE.
- exact: ds_zero_ok.
- by move=> s k Hs _; exact: ds_zero_view.
Qed.
Definition dsfmt_vec : dsfmt -> 'rV['F_2]_dn := vl_vec dn ds_view ds_posn.
Definition dsfmt_A : 'M['F_2]_dn := vl_A dn ds_view ds_posn ds_mk ds_ops.
Definition dsfmt_C : nat -> 'cV['F_2]_dn := vl_C dn ds_view ds_mk vO ds_ops.
Lemma dsfmt_lin : linear_gen ds_ops dsfmt_ok dsfmt_vec dsfmt_A dsfmt_C.
Proof. exact: (vl_lin ds_vg). Qed.
End Gen.
