(** Model of the TinyMT64 that comes with the repository's tests
    (test/tinymt64.h, test/tinymt64.c) and of the class Tiny64 of
    test/test_generator.hpp. *)
From Coq Require Import NArith ZArith List Bool QArith.
From Verif Require Import Base GenModel.
Import ListNotations.
Local Open Scope N_scope.

(** tinymt64.h:36-41 struct TINYMT64_T; status[2] is a pair. *)
Record t64 := T64 { s_status : N * N; s_mat1 : N; s_mat2 : N; s_tmat : N }.
Definition with_status64 (t : t64) (q : N * N) : t64 := T64 q (s_mat1 t) (s_mat2 t) (s_tmat t).

(** tinymt64.h:70-85  tinymt64_next_state *)
Definition t64_next (t : t64) : t64 :=
  let s0 := N.land (fst (s_status t)) 0x7fffffffffffffff in
  let s1 := snd (s_status t) in
  let x := N.lxor s0 s1 in
  let x := N.lxor x (wshl 64 x 12) in
  let x := N.lxor x (wshr x 32) in
  let x := N.lxor x (wshl 64 x 32) in
  let x := N.lxor x (wshl 64 x 11) in
  if negb (N.land x 1 =? 0) then with_status64 t (N.lxor s1 (s_mat1 t), N.lxor x (wshl 64 (s_mat2 t) 32))
  else with_status64 t (s1, x).

(** tinymt64.h:93-105  tinymt64_temper; [lin] says whether LINEARITY_CHECK is
    defined. *)
Definition t64_x (lin : bool) (t : t64) : N :=
  let '(s0, s1) := s_status t in
  let x := if lin then N.lxor s0 s1 else wadd 64 s0 s1 in
  N.lxor x (wshr s0 8).
Definition t64_temper (lin : bool) (t : t64) : N :=
  let x := t64_x lin t in if negb (N.land x 1 =? 0) then N.lxor x (s_tmat t) else x.
(** tinymt64.h:164-167  tinymt64_generate_uint64 *)
Definition t64_uint64 (lin : bool) (t : t64) : N * t64 :=
  let t := t64_next t in (t64_temper lin t, t).

(** A positive normal binary64 number given by its bits (the union in
    tinymt64_temper_conv).  Floating point results are modelled by their exact
    rational values, which the theorems show to be binary64 numbers, so that no
    rounding takes place. *)
Definition f64_bits (u : N) : Q :=
  (inject_Z (4503599627370496 + Z.of_N (u mod 2 ^ 52)) * Qpower (2 # 1) (Z.of_N (wshr u 52) - 1075))%Q.
(** tinymt64.h:113-131, 139-157  tinymt64_temper_conv, tinymt64_temper_conv_open:
    [one] is 0x3ff0000000000000 and 0x3ff0000000000001. *)
Definition t64_conv (one : N) (lin : bool) (t : t64) : Q :=
  let x := t64_x lin t in
  if negb (N.land x 1 =? 0) then f64_bits (N.lor (wshr (N.lxor x (s_tmat t)) 12) one)
  else f64_bits (N.lor (wshr x 12) one).
(** tinymt64.h:175-178 generate_double *)
Definition t64_double (lin : bool) (t : t64) : Q * t64 :=
  let t := t64_next t in
  ((inject_Z (Z.of_N (wshr (t64_temper lin t) 11)) * (1 # 9007199254740992))%Q, t).
(** 186-189 double01, 197-200 double12, 208-211 doubleOC, 219-222 doubleOO *)
Definition t64_double01 (lin : bool) (t : t64) : Q * t64 :=
  let t := t64_next t in ((t64_conv 0x3ff0000000000000 lin t - 1)%Q, t).
Definition t64_double12 (lin : bool) (t : t64) : Q * t64 :=
  let t := t64_next t in (t64_conv 0x3ff0000000000000 lin t, t).
Definition t64_doubleOC (lin : bool) (t : t64) : Q * t64 :=
  let t := t64_next t in (((2 # 1) - t64_conv 0x3ff0000000000000 lin t)%Q, t).
Definition t64_doubleOO (lin : bool) (t : t64) : Q * t64 :=
  let t := t64_next t in ((t64_conv 0x3ff0000000000001 lin t - 1)%Q, t).

(** tinymt64.c:44-50  period_certification *)
Definition t64_certify (t : t64) : t64 :=
  if (N.land (fst (s_status t)) 0x7fffffffffffffff =? 0) && (snd (s_status t) =? 0)
  then with_status64 t (84, 77) else t.
(** tinymt64.c:61-65: one turn of the loop of tinymt64_init *)
Definition t64_mix (i p : N) : N := wadd 64 i (wmul 64 6364136223846793005 (N.lxor p (wshr p 62))).
Definition t64_init_turn (q : N * N) (i : N) : N * N :=
  let '(a, b) := q in
  if N.land i 1 =? 0 then (N.lxor a (t64_mix i b), b) else (a, N.lxor b (t64_mix i a)).
Definition t64_init_loop (t : t64) (seed : N) : N * N :=
  fold_left t64_init_turn [1; 2; 3; 4; 5; 6; 7]
    (N.lxor seed (wshl 64 (s_mat1 t) 32), N.lxor (s_mat2 t) (s_tmat t)).
(** tinymt64.c:58-67  tinymt64_init *)
Definition t64_init (t : t64) (seed : N) : t64 := t64_certify (with_status64 t (t64_init_loop t seed)).

(** tinymt64.c:26-28, 36-38  ini_func1, ini_func2 *)
Definition ini64_func1 (x : N) : N := wmul 64 (N.lxor x (wshr x 59)) 2173292883993.
Definition ini64_func2 (x : N) : N := wmul 64 (N.lxor x (wshr x 59)) 58885565329898161.
(** The local array st[4] *)
Definition a4 : Type := N * N * N * N.
Definition a_get (q : a4) (i : N) : N :=
  let '(a, b, c, d) := q in
  if i =? 0 then a else if i =? 1 then b else if i =? 2 then c else d.
Definition a_set (q : a4) (i v : N) : a4 :=
  let '(a, b, c, d) := q in
  if i =? 0 then (v, b, c, d) else if i =? 1 then (a, v, c, d) else if i =? 2 then (a, b, v, d) else (a, b, c, v).
(** tinymt64.c:100-107, 108-115: one turn with i < 4; [a] is what is added to r
    besides i. *)
Definition key64_turn (q : a4) (i a : N) : a4 :=
  let r := ini64_func1 (N.lxor (N.lxor (a_get q i) (a_get q ((i + 1) mod 4))) (a_get q ((i + 3) mod 4))) in
  let q := a_set q ((i + 1) mod 4) (wadd 64 (a_get q ((i + 1) mod 4)) r) in
  let r := wadd 64 r (wadd 64 a i) in
  let q := a_set q ((i + 2) mod 4) (wadd 64 (a_get q ((i + 2) mod 4)) r) in
  a_set q i r.
Definition key64_turns (l : list N) (s : a4 * N) : a4 * N :=
  fold_left (fun s a => (key64_turn (fst s) (snd s) a, (snd s + 1) mod 4)) l s.
(** tinymt64.c:116-123 *)
Definition end64_turn (s : a4 * N) : a4 * N :=
  let '(q, i) := s in
  let r := ini64_func2 (wadd 64 (wadd 64 (a_get q i) (a_get q ((i + 1) mod 4))) (a_get q ((i + 3) mod 4))) in
  let q := a_set q ((i + 1) mod 4) (N.lxor (a_get q ((i + 1) mod 4)) r) in
  let r := wsub 64 r i in
  let q := a_set q ((i + 2) mod 4) (N.lxor (a_get q ((i + 2) mod 4)) r) in
  (a_set q i r, (i + 1) mod 4).
(** tinymt64.c:76-127  tinymt64_init_by_array; key_length is the length of the
    list.  key_length + 1 is signed: INT_MAX overflows. *)
Definition t64_init_by_array (t : t64) (key : list N) : res t64 :=
  let len := Z.of_nat (length key) in
  if (2 ^ 31 <=? len + 1)%Z then Undef
  else
    let count := (if (8 <? len + 1)%Z then (len + 1)%Z else 8%Z) in
    let q := (0, s_mat1 t, s_mat2 t, s_tmat t) in
    let r := ini64_func1 (N.lxor (N.lxor (a_get q 0) (a_get q (1 mod 4))) (a_get q (3 mod 4))) in
    let q := a_set q (1 mod 4) (wadd 64 (a_get q (1 mod 4)) r) in
    let r := wadd 64 r (N.of_nat (length key)) in
    let q := a_set q (2 mod 4) (wadd 64 (a_get q (2 mod 4)) r) in
    let q := a_set q 0 r in
    let count := (count - 1)%Z in
    let s := key64_turns (firstn (Z.to_nat count) key) (q, 1) in
    let s := key64_turns (repeat 0 (Z.to_nat count - length key)) s in
    let q := fst (Nat.iter 4 end64_turn s) in
    Ret (t64_certify (with_status64 t (N.lxor (a_get q 0) (a_get q 1), N.lxor (a_get q 2) (a_get q 3)))).

(** test_generator.hpp:115-120  Tiny64(seed); 121-123 generate is
    t64_uint64 true (LINEARITY_CHECK is defined). *)
Definition tiny64_new (seed : N) : t64 := t64_init (T64 (0, 0) 0xfa051f40 0xffd0fff4 0x58d02ffeffbfffbc) seed.
(** test_generator.hpp:113-132  class Tiny64.  The class has generate, seed and
    bitSize only; the other members are added here, in the manner of Tiny32, so
    that the generator can be an argument of the toolbox functions. *)
Definition tiny64_ops : gen_ops t64 :=
  {| g_width := 64; g_generate := t64_uint64 true;
     g_generate_len := fun v t => let '(r, u) := t64_uint64 true t in (N.land r (wshl 64 (wnot 64 0) (64 - Z.to_N v)), u);
     g_add := fun t u => with_status64 t (N.lxor (fst (s_status t)) (fst (s_status u)), N.lxor (snd (s_status t)) (snd (s_status u)));
     g_setZero := fun t => with_status64 t (0, 0);
     g_isZero := fun t => (N.land (fst (s_status t)) 0x7fffffffffffffff =? 0) && (snd (s_status t) =? 0);
     g_seed := fun v t => t64_init t v; g_bitSize := fun _ => 127%nat |}.
