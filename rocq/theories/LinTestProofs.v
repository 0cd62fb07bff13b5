(** Proofs about TestLinearity. *)
From Coq Require Import NArith ZArith List Bool Lia.
From mathcomp Require Import all_ssreflect all_algebra.
From Verif Require Import Base GenModel LinSpec LinLemmas PeriodSpec LinTestModel.
Set Implicit Arguments.
Unset Strict Implicit.
Unset Printing Implicit Defensive.
Import GRing.Theory.
Local Open Scope ring_scope.

(** The i-th output of the generator started in the state s. *)
Definition nth_out (S : Type) (G : gen_ops S) (s : S) (i : nat) : N :=
  (g_generate G (iter i (fun s => (g_generate G s).2) s)).1.

Section Test.
Variable S : Type.
Variable G : gen_ops S.
Notation out := (nth_out G).

Lemma outS s i : out s i.+1 = out (g_generate G s).2 i.
Proof. by rewrite /nth_out iterSr. Qed.

Lemma loop1_spec cnt s : reflect (forall i, (i < cnt)%N -> out s i = 0%num) (tl_loop1 G cnt s).
Proof.
elim: cnt s => [|cnt IH] s /=; first by constructor.
have H0 : out s 0 = (g_generate G s).1 by [].
have HS i := outS s i.
move: H0 HS; case: (g_generate G s) => x s' /= H0 HS.
case E: (x =? 0)%num => /=; last first.
  by constructor=> /(_ 0%N isT); rewrite H0; apply/N.eqb_neq.
apply: (iffP (IH s')) => H.
- by case=> [_|i Hi]; [rewrite H0; apply/N.eqb_eq|rewrite HS; apply: H].
- by move=> i Hi; rewrite -HS; apply: H.
Qed.

Lemma loop2_spec cnt s t u : reflect (forall i, (i < cnt)%N -> N.lxor (out s i) (out t i) = out u i)
  (tl_loop2 G cnt s t u).
Proof.
elim: cnt s t u => [|cnt IH] s t u /=; first by constructor.
have A0 : out s 0 = (g_generate G s).1 by [].
have AS i := outS s i.
have B0 : out t 0 = (g_generate G t).1 by [].
have BS i := outS t i.
have C0 : out u 0 = (g_generate G u).1 by [].
have CS i := outS u i.
move: A0 AS B0 BS C0 CS; case: (g_generate G s) => x s' /=.
case: (g_generate G t) => y t' /=; case: (g_generate G u) => z u' /= A0 AS B0 BS C0 CS.
case E: (N.lxor x y =? z)%num => /=; last first.
  by constructor=> /(_ 0%N isT); rewrite A0 B0 C0; apply/N.eqb_neq.
apply: (iffP (IH s' t' u')) => H.
- by case=> [_|i Hi]; [rewrite A0 B0 C0; apply/N.eqb_eq|rewrite AS BS CS; apply: H].
- by move=> i Hi; rewrite -AS -BS -CS; apply: H.
Qed.

Lemma test_spec g :
  let g1 := g_seed G (1234 mod 2 ^ g_width G)%num g in
  let g2 := g_seed G (4321 mod 2 ^ g_width G)%num g in
  test_linearity G g <->
  (forall i, (i < 100)%N -> out (g_add G g1 g1) i = 0%num) /\
  (forall i, (i < 100)%N -> N.lxor (out g1 i) (out g2 i) = out (g_add G g2 g1) i).
Proof.
move=> g1 g2; rewrite /test_linearity /tl_test1 /tl_test2 /tl_convert -/g1 -/g2.
split; first by case/andP => /loop1_spec H1 /loop2_spec H2.
by move=> [H1 H2]; apply/andP; split; [apply/loop1_spec|apply/loop2_spec].
Qed.

Lemma test_reject g : test_linearity G g = false ->
  exists i s t, (i < 100)%N /\
  (out (g_add G s s) i <> 0%num \/ N.lxor (out s i) (out t i) <> out (g_add G t s) i).
Proof.
rewrite /test_linearity /tl_test1 /tl_test2.
set g1 := g_seed G _ g; set g2 := g_seed G _ g.
move/negbT; rewrite negb_and => /orP [].
- have [H|H] := boolP [forall i : 'I_100, out (g_add G g1 g1) i == 0%num].
    by case/negP; apply/loop1_spec => i Hi; apply/eqP; exact: (forallP H (Ordinal Hi)).
  by case/forallPn: H => i /eqP Hi _; exists i, g1, g1; split; [|left].
- have [H|H] := boolP [forall i : 'I_100, N.lxor (out g1 i) (out g2 i) == out (g_add G g2 g1) i].
    by case/negP; apply/loop2_spec => i Hi; apply/eqP; exact: (forallP H (Ordinal Hi)).
  by case/forallPn: H => i /eqP Hi _; exists i, g1, g2; split; [|right].
Qed.

Section Lin.
Variables (n : nat) (ok : S -> Prop) (abs : S -> 'rV['F_2]_n).
Variables (A : 'M['F_2]_n) (C D : nat -> 'cV['F_2]_n).
Hypothesis HG : linear_gen G ok abs A C.
Hypothesis HD : linear_out G ok abs D.
Hypothesis Hlt : forall s, ok s -> ((g_generate G s).1 < 2 ^ g_width G)%num.

Lemma iter_ok s i : ok s -> ok (iter i (fun s => (g_generate G s).2) s) /\
  abs (iter i (fun s => (g_generate G s).2) s) = st A i (abs s).
Proof.
move=> Hs; elim: i => [//|i [IH1 IH2]] /=; split; first exact: (lin_generate_ok HG).
by rewrite (lin_generate_abs HG) // IH2.
Qed.

Lemma out_lt s i : ok s -> (out s i < 2 ^ g_width G)%num.
Proof. by move=> Hs; apply: Hlt; case: (iter_ok i Hs). Qed.

Lemma out_bit s i p : ok s -> (N.of_nat p < g_width G)%num ->
  (N.testbit (out s i) (N.of_nat p))%:R = (st A i (abs s) *m D p) 0 0 :> 'F_2.
Proof.
by move=> Hs Hp; case: (iter_ok i Hs) => H1 H2; rewrite /nth_out HD // H2.
Qed.

Lemma out_add s t i : ok s -> ok t -> out (g_add G s t) i = N.lxor (out s i) (out t i).
Proof.
move=> Hs Ht; have Ha := lin_add_ok HG Hs Ht; apply: N.bits_inj => p.
have [Hp|Hp] := N.lt_ge_cases p (g_width G).
- rewrite -(N2Nat.id p) in Hp *; move: (N.to_nat p) Hp => q Hq.
  have H : forall a b : bool, a%:R = b%:R :> 'F_2 -> a = b by case; case.
  apply: H; rewrite N.lxor_spec F2_xorb !out_bit // (lin_add_abs HG) // stD.
  by rewrite mulmxDl mxE.
- have bound x : (x < 2 ^ g_width G)%num -> N.testbit x p = false.
    move=> Hx; have [->|Hx0] := N.eq_dec x 0; first exact: N.bits_0.
    apply: N.bits_above_log2; apply: N.lt_le_trans Hp.
    by apply/N.log2_lt_pow2; lia.
  by rewrite N.lxor_spec !bound //; exact: out_lt.
Qed.

Lemma test_accepts g : (forall v, (v < 2 ^ g_width G)%num -> ok (g_seed G v g)) -> test_linearity G g.
Proof.
move=> Hs; have Hm x : ok (g_seed G (x mod 2 ^ g_width G)%num g).
  by apply: Hs; apply: N.mod_lt; apply: N.pow_nonzero.
apply/test_spec; split => i Hi.
- by rewrite out_add // N.lxor_nilpotent.
- by rewrite out_add // N.lxor_comm.
Qed.
End Lin.
End Test.

(** A generator whose first 100 outputs are zero, whatever the state. *)
Definition lazy_ops : gen_ops (nat * N) :=
  {| g_width := 32;
     g_generate := fun s => ((if (s.1 < 100)%N then 0 else s.2 * s.2 mod 2 ^ 32)%num, (s.1.+1, s.2));
     g_generate_len := fun _ s => (0%num, s);
     g_add := fun s t => (0%N, N.lxor s.2 t.2);
     g_setZero := fun _ => (0%N, 0%num);
     g_isZero := fun s => (s.2 =? 0)%num;
     g_seed := fun v _ => (0%N, v);
     g_bitSize := fun _ => 32%N |}.
Lemma lazy_iter i s : iter i (fun s => (g_generate lazy_ops s).2) s = ((s.1 + i)%N, s.2).
Proof. by elim: i => [|i IH]; [case: s => a b; rewrite addn0|rewrite iterS IH /= addnS]. Qed.
Lemma lazy_out s i : nth_out lazy_ops s i = (if (s.1 + i < 100)%N then 0 else s.2 * s.2 mod 2 ^ 32)%num.
Proof. by rewrite /nth_out lazy_iter. Qed.
Lemma lazy_accepted g : test_linearity lazy_ops g.
Proof. by apply/test_spec; split => i Hi; rewrite !lazy_out /= !add0n Hi. Qed.
Lemma lazy_nonlinear : nth_out lazy_ops (g_add lazy_ops (0%N, 1%num) (0%N, 3%num)) 100 <>
  N.lxor (nth_out lazy_ops (0%N, 1%num) 100) (nth_out lazy_ops (0%N, 3%num) 100).
Proof. by rewrite !lazy_out. Qed.
