(** Model of the class RTiny32 of test/test_generator.hpp and of the functions
    of test/test_period.cpp that use it. *)
From Coq Require Import NArith ZArith List Bool.
From mathcomp Require Import all_ssreflect all_algebra.
From Verif Require Import Base GenModel PolyF2 PeriodModel XorshiftModel TmtModel TestPerModel.
Set Implicit Arguments.
Unset Strict Implicit.
Unset Printing Implicit Defensive.
Delimit Scope N_scope with num.
Delimit Scope Z_scope with coqZ.

(** test_generator.hpp:235-240: the parameters.  The state, four words, is the
    record xs; the array is never read before seed has filled it. *)
Record rtpar := RT { r_mat1 : N; r_mat2 : N; r_sh1 : N; r_sh2 : N; r_sh3 : N; r_sh4 : N }.
(** test_generator.hpp:194-214  generate *)
Definition rt_generate (p : rtpar) (s : xs) : N * xs :=
  let x := xs_x s in
  let y := xs_y s in
  let y := N.lxor y (wshr y (r_sh1 p)) in
  let y := N.lxor y (wshl 32 y (r_sh2 p)) in
  let x := N.lxor x (wshl 32 x (r_sh3 p)) in
  let x := N.lxor x (wshr x (r_sh4 p)) in
  let x := N.lxor x y in
  let s := XS (xs_y s) (xs_z s) (xs_w s) x in
  let s := if negb (N.land x 1 =? 0)%num
           then XS (xs_x s) (N.lxor (xs_y s) (r_mat1 p)) (N.lxor (xs_z s) (r_mat2 p)) (xs_w s) else s in
  (xs_x s, s).
(** test_generator.hpp:216-227  seed; the turns of the loop are those of
    tinymt32_init *)
Definition rt_seed (p : rtpar) (value : N) : xs :=
  let '(a, b, c, d) := List.fold_left tmt_init_turn [:: 1; 2; 3; 4; 5; 6; 7]%num (value, r_mat1 p, r_mat2 p, 0%num) in
  XS a b c d.
(** test_generator.hpp:229-231  bitSize.  The class has generate, seed and
    bitSize only; the other members are those of the xorshift classes, so that
    the generator can be an argument of the toolbox functions. *)
Definition rt_ops (p : rtpar) : gen_ops xs :=
  {| g_width := 32; g_generate := rt_generate p; g_generate_len := xs_generate_len (rt_generate p);
     g_add := xs_add; g_setZero := xs_setZero; g_isZero := xs_isZero;
     g_seed := fun v _ => rt_seed p v; g_bitSize := fun _ => 128%N |}.

(** test_generator.hpp:165-169 RTiny32(value); test_period.cpp:84 and :121 *)
Definition rt_default : rtpar := RT 0x7c9e604d 0xe91ac974 2 16 24 23.
Definition rt_reducible : rtpar := RT 0x59c94057 0xfd77d893 15 16 3 9.
Definition rt_nonprime : rtpar := RT 0x474ba8c4 0x3039cd1a 31 16 7 4.

Section Test.
Variable M : seq 'F_2 -> nat -> f2x.
Definition rt_minpoly (p : rtpar) (seed : N) : res f2x :=
  do '(poly, _) <- minpoly (rt_ops p) M (rt_seed p seed) 0%coqZ 0%coqZ; Ret poly.
(** test_period.cpp:72-91  is_irreducible; the seed is 1234 in the program *)
Definition is_irreducible (seed : N) : res bool :=
  do b <- is_irreducible_64 M seed;
  if negb b then Ret false
  else
    do poly <- rt_minpoly rt_reducible seed;
    Ret (negb (isIrreducible poly)).
(** test_period.cpp:107-128  is_prime2 *)
Definition is_prime2 (seed : N) : res bool :=
  do poly <- rt_minpoly rt_default seed;
  do b <- test_isPrime poly;
  if negb b then Ret false
  else
    do poly <- rt_minpoly rt_nonprime seed;
    do b <- test_isPrime poly;
    Ret (negb b).
End Test.
