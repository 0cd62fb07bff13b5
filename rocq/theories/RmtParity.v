(** searchParity on RMT64Search. *)
From Coq Require Import NArith ZArith Lia Bool List.
From mathcomp Require Import all_ssreflect all_algebra.
From mathcomp Require Import zify.
From Verif Require Import Base WordLemmas WordVec UtilModel UtilProofs GenModel PolyF2 LinSpec LinLemmas LinInst PeriodModel PeriodSpec PeriodProofs4 XorshiftProofs TinyLin
  MTSpec MTProofs2 ArrayModel ArrayWin ArrayLin ArrayOut MtdcLin MtdcProofs RmtModel RmtLin RmtProofs ParityModel ParitySpec ParityProofs4 ParityProofs5.
Set Implicit Arguments.
Unset Strict Implicit.
Unset Printing Implicit Defensive.
Import GRing.Theory.
Local Open Scope N_scope.
Delimit Scope Z_scope with coqZ.

(** samples/RMT/rmt64.hpp:184-186 getMexp and the functions above. *)
Definition rmt_par : par_ops rmt :=
  {| p_getMexp := fun g => Z.of_nat (r_mexp (fst g)); p_setOneBit := rmt_setOneBit;
     p_getParityValue := rmt_getParity; p_setParityValue := rmt_setParity |}.

Section Arr.
Variables (P : Type) (th : P) (w size r n : nat) (F O : (nat -> N) -> N) (G : gen_ops (P * rr)).
Hypothesis H : arr_gen th w size r n F O G.
Lemma ag_iter_vec m s : ar_ok th w size s ->
  @ar_vec P w size r n (iter m (ar_step size F) s) = st (ar_A th w size r n G) m (@ar_vec P w size r n s).
Proof. case: H => *. by apply: (@ar_iter_vec P th w size r n F O G). Qed.
Lemma ag_sur x : exists2 s, ar_ok th w size s & @ar_vec P w size r n s = x.
Proof.
case: H => h1 h2 h3 h4 h5 h6 h7 h8 h9 h10 h11.
exists (unvec (ar_mk th w size r) x); first exact: (ar_mk_ok th h1 h2 h3 h4 h7).
by apply: unvecK => f i Hi; exact: (ar_bits_mk th h1 h2 h3 h4 h7).
Qed.
Lemma st_inj0 (A : 'M['F_2]_n) m x : A \in unitmx -> st A m x = 0%R -> x = 0%R.
Proof.
move=> UA; elim: m x => [//|m IH] x. rewrite /st /= -/(st A m x) => E. apply: IH.
by rewrite -[st A m x](mulmxK UA) E mul0mx.
Qed.
End Arr.

Section Gen.
Variable p : rmtp.
Hypothesis Hp : rmtp_ok p.
Notation size := (r_size p).
Notation n := (r_size p * 64)%N.

(** The state of setOneBit(i): one bit, except that bit 31 of a word comes
    with the bits above it. *)
Definition rmt_e (i : nat) : 'rV['F_2]_n :=
  (\row_(j < n) ((if Nat.modulo i 64 == 31%N then (i <= j < i + 33)%N else (j == i :> nat)) : bool)%:R)%R.
(** Bit j (from the top) of the newest word. *)
Definition rmt_Q (j : nat) : 'cV['F_2]_n := (\col_(i < n) ((i == ((size - 1) * 64 + 63 - j)%N :> nat) : bool)%:R)%R.

Lemma rmt_win_last g : rmt_ok p g -> rmt_getParity g = rmt_win p g (size - 1).
Proof.
move=> Hg. have [s0 _ _] := Hp. rewrite /rmt_getParity -[fst g]/(g.1) Hg.1 /rmt_win /ar_win /win /rr_at.
congr (List.nth _ _ _). rewrite (_ : Nat.add (Nat.add (rr_idx (snd g)) 1) (size - 1)%N = Nat.add (rr_idx (snd g)) (Nat.mul 1 size)); last by lia.
rewrite Nat.mod_add //; lia.
Qed.
Lemma obit_Q x j (H : ((size - 1) * 64 + 63 - j < n)%N) : (obit rmt_Q x j = x 0 (Ordinal H))%R.
Proof.
rewrite /obit mxE (bigD1 (Ordinal H)) //= mxE eqxx mulr1 big1 ?addr0 // => i Hi.
rewrite mxE (_ : (_ == _ :> nat) = false) ?mulr0 //. by apply/negbTE; apply: contra Hi => /eqP E; apply/eqP/val_inj.
Qed.
Lemma rmt_Q_ok g j : rmt_ok p g -> N.of_nat j < 64 -> msb 64 (rmt_getParity g) j = obit rmt_Q (rmt_vec p g) j.
Proof.
move=> Hg Hj. have [s0 _ _] := Hp.
have H : ((size - 1) * 64 + 63 - j < n)%N by lia.
rewrite obit_Q rmt_win_last // /msb /rmt_vec /ar_vec mxE /f2 /ar_bits addn0 /rmt_win.
have D : Nat.div ((size - 1) * 64 + 63 - j)%N 64 = (size - 1)%N by symmetry; apply: (Nat.div_unique _ _ _ (63 - j)%N); lia.
have M : Nat.modulo ((size - 1) * 64 + 63 - j)%N 64 = (63 - j)%N by symmetry; apply: (Nat.mod_unique _ _ (size - 1)%N); lia.
cbn [nat_of_ord]; rewrite D M. congr (N.testbit _ _)%:R%R. lia.
Qed.
Lemma rmt_e_full : row_full (\matrix_(i < n) rmt_e i)%R.
Proof.
rewrite row_full_unit unitmxE -det_tr det_trig.
  rewrite big1 ?unitr1 // => i _. rewrite !mxE. by case: ifP => _; rewrite ?eqxx // leqnn /=; have -> : (i < i + 33)%N by lia.
apply/is_trig_mxP => i j Hij. rewrite !mxE. case: ifP => _; first by have -> : (j <= i)%N = false by lia.
by have -> : (i == j :> nat) = false by lia.
Qed.
Lemma rmt_oneBit g i : rmt_ok p g -> (i < n)%N ->
  rmt_setOneBit i g = Undef \/ exists g', [/\ rmt_setOneBit i g = Ret g', rmt_ok p g' & rmt_vec p g' = rmt_e i].
Proof.
move=> Hg Hi. case: (leqP 32 (Nat.modulo i 64)) => Hr; first by left; exact: (setOneBit_undef Hg Hi Hr).
right. case: (eqVneq (Nat.modulo i 64) 31%N) => E.
- have [g' [E' B]] := setOneBit_31 Hp Hg Hi E.
  have Hg' : rmt_ok p g'.
    have [s0 _ _] := Hp. have [Z _] := ag_zero (rmt_ag Hp) Hg. move: E' Z. rewrite /rmt_setOneBit; cbn [g_setZero rmt_ops].
    case: (rmt_setZero g) => q s. case: (Nat.leb_spec (r_size q) (Nat.div i 64)) => Hd; first by case=> <-.
    rewrite E. cbn [Nat.leb Nat.eqb]. case=> <- -[/= Eq [Z1 [Z2 Z3]]]. move: Hd; rewrite Eq => Hd.
    split=> //; split; [exact: Z1|split; first by rewrite /= put_len].
    move=> k /=. rewrite nth_put; last by rewrite Z2. case: (_ =? _)%nat; last exact: Z3.
    by vm_compute.
  exists g'; split=> //. apply/rowP => j. rewrite rmt_vec_bit //; last exact: (setOneBit_idx Hg E'). by rewrite B mxE E eqxx.
- have Hr' : (Nat.modulo i 64 < 31)%N by lia.
  have [g' [E' Hg' B]] := setOneBit_ok Hp Hg Hi Hr'. exists g'; split=> //.
  apply/rowP => j. rewrite rmt_vec_bit //; last exact: (setOneBit_idx Hg E'). by rewrite B mxE (negbTE E).
Qed.
Lemma rmt_parity_gen : parity_gen rmt_ops rmt_par (rmt_ok p) (rmt_vec p) n rmt_e rmt_Q.
Proof.
split.
- move=> s Hs. apply/idP/eqP => H; exact/(rmt_isZero_vec Hp Hs).
- by move=> s Hs; cbn [g_bitSize rmt_ops]; rewrite -[fst s]/(s.1) Hs.1.
- exact: rmt_oneBit.
- exact: rmt_e_full.
- move=> s Hs. rewrite [p_getParityValue _ _]/=. have [_ [_ [_ H]]] := Hs. by rewrite /rmt_getParity; exact: H.
- by move=> s j Hs Hj; exact: rmt_Q_ok.
Qed.

Lemma rmt_sur x : exists2 s, rmt_ok p s & rmt_vec p s = x.
Proof.
exact: (ag_sur (rmt_ag Hp)).
Qed.
Lemma rmt_observable : rmt_A p \in unitmx -> observable (rmt_A p) rmt_Q 64.
Proof.
move=> UA x H. have [s0 _ _] := Hp. have [s Hs Es] := rmt_sur x.
have PW k : rmt_getParity (iter k (ar_step size (rF p)) s) = 0.
  have Hk := ag_iter_ok (rmt_ag Hp) k Hs.
  apply: (@msb_inj0 64); first by have [_ [_ [_ L]]] := Hk; exact: L.
  move=> j Hj. rewrite rmt_Q_ok // -(H k j Hj). congr obit.
  rewrite -Es. exact: (ag_iter_vec (rmt_ag Hp)).
have Z : st (rmt_A p) (size - 1) x = 0%R.
  rewrite -Es -(ag_iter_vec (rmt_ag Hp)) //.
  have Hm := ag_iter_ok (rmt_ag Hp) (size - 1) Hs.
  apply/(ag_vec_zero (rmt_ag Hp) Hm).
  suff W k : (k < size)%N -> ar_win size (iter (size - 1) (ar_step size (rF p)) s) k = 0.
    by split=> [|k /andP[_ Hk]]; rewrite W // ?N.shiftr_0_l.
  move=> Hk. have Hk' := ag_iter_ok (rmt_ag Hp) k Hs.
  have -> : (size - 1 = (size - 1 - k) + k)%N by lia.
  rewrite iterD (ag_iter_win (rmt_ag Hp)) //. have -> : (k + (size - 1 - k) < size)%N by lia.
  have -> : (k + (size - 1 - k) = size - 1)%N by lia. by rewrite -[RHS](PW k) rmt_win_last.
exact: (st_inj0 UA Z).
Qed.
End Gen.

Section Search.
Variables (p : rmtp) (pos : N -> res Z) (kernel : nat -> nat -> (nat -> nat -> bool) -> list (list bool)) (f : f2x).
Hypothesis Hp : rmtp_ok p.
Hypothesis UA : rmt_A p \in unitmx.
Hypothesis Hpos : pos_spec 64 pos.
Hypothesis HK : kernel_spec kernel.
Hypothesis I : irreducible_poly f.
Hypothesis sf : size f = (r_mexp p).+1.
Hypothesis D1 : (f %| char_poly (rmt_A p))%R.
Hypothesis D2 : ~~ (f ^+ 2 %| char_poly (rmt_A p))%R.
Lemma rmt_setting : parity_setting rmt_ops rmt_par (rmt_ok p) (rmt_vec p) (rmt_A p) (rmt_C p) pos kernel
  (r_size p * 64) (@rmt_e p) (@rmt_Q p) (r_mexp p) f.
Proof. by split=> //; [exact: rmt_lin|exact: rmt_parity_gen]. Qed.
Lemma rmt_search junk fuel g : (r_size p * 64 < r_mexp p + 64)%N -> (r_size p * 64 <= fuel)%N -> rmt_ok p g ->
  (exists s i, [/\ rmt_ok p s, (i < r_size p * 64)%N & rmt_setOneBit i s = Undef]) /\
    searchParity rmt_ops rmt_par pos kernel (Some junk) fuel g f = Undef \/
  exists v, [/\ searchParity rmt_ops rmt_par pos kernel (Some junk) fuel g f = Ret (v, rmt_setParity v g), 0 < v < 2 ^ 64 &
    forall s, rmt_ok p s -> inner 64 v (rmt_getParity s) = 1%R ->
      (rmt_vec p s *m poly_mx (rmt_A p) (char_poly (rmt_A p) %/ f) != 0)%R /\
      (primitive f (r_mexp p) -> forall k, rmt_vec p (run rmt_ops k s) = rmt_vec p s -> 2 ^ r_mexp p - 1 %| k)%N].
Proof.
move=> Hn Hf Hg.
have Em : p_getMexp rmt_par g = Z.of_nat (r_mexp p) by rewrite /= -[fst g]/(g.1) Hg.1.
have := spec junk fuel rmt_setting Hg Em.
have C := @certifies _ _ _ _ _ _ _ _ _ _ _ _ _ _ _ junk fuel g rmt_setting Hg Em.
have T := @no_throw _ _ _ _ _ _ _ _ _ _ _ _ _ _ _ junk fuel g rmt_setting Hg Em.
case E : searchParity => [[v g']|||//|] K.
- right; exists v. have [v0 Eg H] := C v g' E. split=> //. by rewrite Eg.
- left; split; last by []. by case: K => s [i [H1 H2 H3]]; exists s, i.
- by case: (T _ E).
- case: K; split; first exact: rmt_observable. exact: Hf.
Qed.
(** More than 32 dimensions beside the large part: setOneBit(32) is reached. *)
Lemma rmt_search_undef junk fuel g : (r_size p * 64 < r_mexp p + 64)%N -> (r_mexp p + 33 <= r_size p * 64)%N -> (r_size p * 64 <= fuel)%N ->
  rmt_ok p g -> searchParity rmt_ops rmt_par pos kernel (Some junk) fuel g f = Undef.
Proof.
move=> Hn Hm Hf Hg.
have Em : p_getMexp rmt_par g = Z.of_nat (r_mexp p) by rewrite /= -[fst g]/(g.1) Hg.1.
case: (rmt_search junk Hn Hf Hg) => [[_ ->//]|[v [E _ _]]].
have Hk : (32 < r_size p * 64)%N by move: Hm; clear; lia.
have Hd : (32 < r_size p * 64 - r_mexp p)%N by move: Hm; clear; lia.
have Bad s : rmt_ok p s -> p_setOneBit rmt_par 32 s = Undef by move=> Hs; exact: (setOneBit_undef Hs Hk).
by case: (search_bad (rmt_lin Hp) (rmt_parity_gen Hp) Hk Bad Hpos Hd Hg Em E).
Qed.
End Search.
