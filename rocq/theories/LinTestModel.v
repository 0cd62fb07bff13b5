(** Model of include/MTToolBox/TestLinearity.hpp. *)
From Coq Require Import NArith ZArith List Bool.
From Verif Require Import Base GenModel.
Local Open Scope N_scope.

Section Test.
Variable S : Type.
Variable G : gen_ops S.

(** TestLinearity.hpp:115-120: the loop of test1; [cnt] is the number of
    further iterations. *)
Fixpoint tl_loop1 (cnt : nat) (g2 : S) : bool :=
  match cnt with
  | O => true
  | Datatypes.S c =>
      let '(x, g2') := g_generate G g2 in
      if negb (x =? 0) then false else tl_loop1 c g2'
  end.
(** TestLinearity.hpp:111-130  test1; g1 is only read. *)
Definition tl_test1 (g1 : S) : bool := tl_loop1 100 (g_add G g1 g1).

(** TestLinearity.hpp:138-153: the loop of test2. *)
Fixpoint tl_loop2 (cnt : nat) (g1 g2 g3 : S) : bool :=
  match cnt with
  | O => true
  | Datatypes.S c =>
      let '(res1, g1') := g_generate G g1 in
      let '(res2, g2') := g_generate G g2 in
      let '(res3, g3') := g_generate G g3 in
      if negb (N.lxor res1 res2 =? res3) then false else tl_loop2 c g1' g2' g3'
  end.
(** TestLinearity.hpp:132-162  test2; g3 is a copy of g2. *)
Definition tl_test2 (g1 g2 : S) : bool := tl_loop2 100 g1 g2 (g_add G g2 g1).

(** util.hpp:714-717  convert from uint32_t, a static cast to U *)
Definition tl_convert (x : N) : N := x mod 2 ^ g_width G.
(** TestLinearity.hpp:97-106  operator() *)
Definition test_linearity (generator : S) : bool :=
  let g1 := g_seed G (tl_convert 1234) generator in
  let g2 := g_seed G (tl_convert 4321) generator in
  tl_test1 g1 && tl_test2 g1 g2.
End Test.
Arguments tl_loop1 {S}.
Arguments tl_test1 {S}.
Arguments tl_loop2 {S}.
Arguments tl_test2 {S}.
Arguments tl_convert {S}.
Arguments test_linearity {S}.
