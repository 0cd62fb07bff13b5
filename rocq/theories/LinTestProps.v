(** Property C38: TestLinearity. *)
From Coq Require Import NArith ZArith List Bool Lia.
From mathcomp Require Import all_ssreflect all_algebra.
From Verif Require Import Base GenModel LinSpec LinLemmas PeriodSpec LinTestModel LinTestProofs LinOut.
From Verif Require Import XorshiftModel XorshiftSpec XorshiftProofs XorshiftLin XorshiftFamily.
Set Implicit Arguments.
Unset Strict Implicit.
Unset Printing Implicit Defensive.
Import GRing.Theory.
Local Open Scope ring_scope.

(** A generator that meets the contract and whose full output is linear is
    accepted, whatever its seeding function does. *)
Theorem C38_accepts_linear : forall S (G : gen_ops S) n ok (abs : S -> 'rV['F_2]_n) A C D,
  linear_gen G ok abs A C -> linear_out G ok abs D ->
  (forall s, ok s -> ((g_generate G s).1 < 2 ^ g_width G)%num) ->
  forall g, (forall v, (v < 2 ^ g_width G)%num -> ok (g_seed G v g)) -> test_linearity G g.
Proof. exact test_accepts. Qed.
(** A rejection exhibits two states whose outputs violate linearity. *)
Theorem C38_rejection : forall S (G : gen_ops S) g, test_linearity G g = false ->
  exists i s t, (i < 100)%N /\
    (nth_out G (g_add G s s) i <> 0%num \/
     N.lxor (nth_out G s i) (nth_out G t i) <> nth_out G (g_add G t s) i).
Proof. exact test_reject. Qed.
(** What is tested. *)
Theorem C38_exact : forall S (G : gen_ops S) g,
  let g1 := g_seed G (1234 mod 2 ^ g_width G)%num g in
  let g2 := g_seed G (4321 mod 2 ^ g_width G)%num g in
  test_linearity G g <->
  (forall i, (i < 100)%N -> nth_out G (g_add G g1 g1) i = 0%num) /\
  (forall i, (i < 100)%N -> N.lxor (nth_out G g1 i) (nth_out G g2 i) = nth_out G (g_add G g2 g1) i).
Proof. exact test_spec. Qed.
(** Passing the test does not assure linearity. *)
Theorem C38_incomplete : exists S (G : gen_ops S), (forall g, test_linearity G g) /\
  exists s t i, nth_out G (g_add G s t) i <> N.lxor (nth_out G s i) (nth_out G t i).
Proof.
exists _, lazy_ops; split; first exact lazy_accepted.
by exists (0%N, 1%num), (0%N, 3%num), 100%N; exact lazy_nonlinear.
Qed.

(** The xorshift samples pass, with any parameters. *)
Theorem C38_xorshift : (forall a b c g, test_linearity (xs_ops (xs3_generate a b c)) g) /\
  (forall pat a b c g, test_linearity (xs_ops (xs4_generate pat a b c)) g) /\
  (forall a b c g, test_linearity (xs_ops (xs5_generate a b c)) g).
Proof. exact xs_accepted. Qed.

(** A rejected generator: the low 32 bits of s + 1. *)
Example counter_rejected : test_linearity
  {| g_width := 32; g_generate := fun s => (s, (s + 1) mod 2 ^ 32); g_generate_len := fun _ s => (s, s);
     g_add := N.lxor; g_setZero := fun _ => 0; g_isZero := N.eqb 0; g_seed := fun v _ => v;
     g_bitSize := fun _ => 32%N |}%num 7%num = false.
Proof. by vm_compute. Qed.

Print Assumptions C38_accepts_linear.
Print Assumptions C38_rejection.
Print Assumptions C38_exact.
Print Assumptions C38_incomplete.
Print Assumptions C38_xorshift.
