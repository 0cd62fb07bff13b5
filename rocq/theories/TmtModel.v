(** Model of the TinyMT32 that comes with the repository's tests
    (test/tinymt32.h, test/tinymt32.c) and of the class Tiny32 of
    test/test_generator.hpp that hands it to the toolbox. *)
From Coq Require Import NArith ZArith List Bool QArith.
From Verif Require Import Base GenModel EquiModel.
Import ListNotations.
Local Open Scope N_scope.

(** tinymt32.h:35-40 struct TINYMT32_T; status[4] is a quadruple. *)
Record tmt := Tmt { t_status : N * N * N * N; t_mat1 : N; t_mat2 : N; t_tmat : N }.
(** status[i] for i = 0, 1, 2, 3 *)
Definition st_get (q : N * N * N * N) (i : N) : N :=
  let '(a, b, c, d) := q in
  if i =? 0 then a else if i =? 1 then b else if i =? 2 then c else d.
Definition st_set (q : N * N * N * N) (i v : N) : N * N * N * N :=
  let '(a, b, c, d) := q in
  if i =? 0 then (v, b, c, d) else if i =? 1 then (a, v, c, d) else if i =? 2 then (a, b, v, d) else (a, b, c, v).
Definition with_status (t : tmt) (q : N * N * N * N) : tmt := Tmt q (t_mat1 t) (t_mat2 t) (t_tmat t).

(** tinymt32.h:70-88  tinymt32_next_state *)
Definition tmt_next (t : tmt) : tmt :=
  let y := st_get (t_status t) 3 in
  let x := N.lxor (N.lxor (N.land (st_get (t_status t) 0) 0x7fffffff) (st_get (t_status t) 1)) (st_get (t_status t) 2) in
  let x := N.lxor x (wshl 32 x 1) in
  let y := N.lxor y (N.lxor (wshr y 1) x) in
  let q := t_status t in
  let q := st_set q 0 (st_get q 1) in
  let q := st_set q 1 (st_get q 2) in
  let q := st_set q 2 (N.lxor x (wshl 32 y 10)) in
  let q := st_set q 3 y in
  if negb (N.land y 1 =? 0) then
    let q := st_set q 1 (N.lxor (st_get q 1) (t_mat1 t)) in
    let q := st_set q 2 (N.lxor (st_get q 2) (t_mat2 t)) in
    with_status t q
  else with_status t q.

(** tinymt32.h:96-111  tinymt32_temper; [lin] says whether LINEARITY_CHECK is
    defined. *)
Definition tmt_t1 (lin : bool) (t : tmt) : N :=
  let s0 := st_get (t_status t) 0 in let s2 := wshr (st_get (t_status t) 2) 8 in
  if lin then N.lxor s0 s2 else wadd 32 s0 s2.
Definition tmt_temper (lin : bool) (t : tmt) : N :=
  let t0 := st_get (t_status t) 3 in
  let t1 := tmt_t1 lin t in
  let t0 := N.lxor t0 t1 in
  if negb (N.land t1 1 =? 0) then N.lxor t0 (t_tmat t) else t0.
(** tinymt32.h:178-181  tinymt32_generate_uint32 *)
Definition tmt_uint32 (lin : bool) (t : tmt) : N * tmt :=
  let t := tmt_next t in (tmt_temper lin t, t).

(** A positive normal binary32 number given by its bits (the union in
    tinymt32_temper_conv).  Floating point results are modelled by their exact
    rational values; the theorems show that these are binary32 (or binary64)
    numbers, so that no rounding takes place. *)
Definition f32_bits (u : N) : Q :=
  (inject_Z (8388608 + Z.of_N (u mod 2 ^ 23)) * Qpower (2 # 1) (Z.of_N (wshr u 23) - 150))%Q.
(** tinymt32.h:119-141, 149-171  tinymt32_temper_conv, tinymt32_temper_conv_open:
    [one] is 0x3f800000 and 0x3f800001. *)
Definition tmt_conv (one : N) (lin : bool) (t : tmt) : Q :=
  let t0 := st_get (t_status t) 3 in
  let t1 := tmt_t1 lin t in
  let t0 := N.lxor t0 t1 in
  if negb (N.land t1 1 =? 0) then f32_bits (N.lor (wshr (N.lxor t0 (t_tmat t)) 9) one)
  else f32_bits (N.lor (wshr t0 9) one).
(** tinymt32.h:191-194 generate_float *)
Definition tmt_float (lin : bool) (t : tmt) : Q * tmt :=
  let t := tmt_next t in
  ((inject_Z (Z.of_N (wshr (tmt_temper lin t) 8)) * (1 # 16777216))%Q, t).
(** 202-205 generate_float12, 213-216 generate_float01 *)
Definition tmt_float12 (lin : bool) (t : tmt) : Q * tmt :=
  let t := tmt_next t in (tmt_conv 0x3f800000 lin t, t).
Definition tmt_float01 (lin : bool) (t : tmt) : Q * tmt :=
  let t := tmt_next t in ((tmt_conv 0x3f800000 lin t - 1)%Q, t).
(** 224-227 generate_floatOC *)
Definition tmt_floatOC (lin : bool) (t : tmt) : Q * tmt :=
  let t := tmt_next t in let '(f, t) := tmt_float lin t in ((1 - f)%Q, t).
(** 235-238 generate_floatOO *)
Definition tmt_floatOO (lin : bool) (t : tmt) : Q * tmt :=
  let t := tmt_next t in ((tmt_conv 0x3f800001 lin t - 1)%Q, t).
(** 248-251 generate_32double *)
Definition tmt_32double (lin : bool) (t : tmt) : Q * tmt :=
  let t := tmt_next t in ((inject_Z (Z.of_N (tmt_temper lin t)) * (1 # 4294967296))%Q, t).

(** tinymt32.c:44-54  period_certification *)
Definition tmt_certify (t : tmt) : tmt :=
  if (N.land (st_get (t_status t) 0) 0x7fffffff =? 0) && (st_get (t_status t) 1 =? 0)
     && (st_get (t_status t) 2 =? 0) && (st_get (t_status t) 3 =? 0)
  then with_status t (84, 73, 78, 89) else t.
(** tinymt32.c:67-71: one turn of the loop of tinymt32_init *)
Definition tmt_init_turn (q : N * N * N * N) (i : N) : N * N * N * N :=
  let p := st_get q (N.land (i - 1) 3) in
  st_set q (N.land i 3)
    (N.lxor (st_get q (N.land i 3)) (wadd 32 i (wmul 32 1812433253 (N.lxor p (wshr p 30))))).
Definition tmt_init_loop (t : tmt) (seed : N) : N * N * N * N :=
  fold_left tmt_init_turn [1; 2; 3; 4; 5; 6; 7] (seed, t_mat1 t, t_mat2 t, t_tmat t).
(** 73-75, 142-144: eight steps *)
Definition tmt_pre_loop (t : tmt) : tmt := Nat.iter 8 tmt_next t.
(** tinymt32.c:62-76  tinymt32_init *)
Definition tmt_init (t : tmt) (seed : N) : tmt :=
  tmt_pre_loop (tmt_certify (with_status t (tmt_init_loop t seed))).

(** tinymt32.c:26-28, 36-38  ini_func1, ini_func2 *)
Definition ini_func1 (x : N) : N := wmul 32 (N.lxor x (wshr x 27)) 1664525.
Definition ini_func2 (x : N) : N := wmul 32 (N.lxor x (wshr x 27)) 1566083941.
(** tinymt32.c:112-119, 122-129: one turn with i; [a] is what is added to r
    besides i.  i stays below 4. *)
Definition key_turn (q : N * N * N * N) (i a : N) : N * N * N * N :=
  let r := ini_func1 (N.lxor (N.lxor (st_get q (i mod 4)) (st_get q ((i + 1) mod 4))) (st_get q ((i + 3) mod 4))) in
  let q := st_set q ((i + 1) mod 4) (wadd 32 (st_get q ((i + 1) mod 4)) r) in
  let r := wadd 32 r (wadd 32 a i) in
  let q := st_set q ((i + 2) mod 4) (wadd 32 (st_get q ((i + 2) mod 4)) r) in
  st_set q (i mod 4) r.
Definition key_turns (l : list N) (s : (N * N * N * N) * N) : (N * N * N * N) * N :=
  fold_left (fun s a => (key_turn (fst s) (snd s) a, (snd s + 1) mod 4)) l s.
(** tinymt32.c:132-139 *)
Definition end_turn (s : (N * N * N * N) * N) : (N * N * N * N) * N :=
  let '(q, i) := s in
  let r := ini_func2 (wadd 32 (wadd 32 (st_get q (i mod 4)) (st_get q ((i + 1) mod 4))) (st_get q ((i + 3) mod 4))) in
  let q := st_set q ((i + 1) mod 4) (N.lxor (st_get q ((i + 1) mod 4)) r) in
  let r := wsub 32 r i in
  let q := st_set q ((i + 2) mod 4) (N.lxor (st_get q ((i + 2) mod 4)) r) in
  (st_set q (i mod 4) r, (i + 1) mod 4).
(** tinymt32.c:85-145  tinymt32_init_by_array; key_length is the length of the
    list.  key_length + 1 is signed: INT_MAX overflows. *)
Definition tmt_init_by_array (t : tmt) (key : list N) : res tmt :=
  let len := Z.of_nat (length key) in
  if (2 ^ 31 <=? len + 1)%Z then Undef
  else
    let count := (if (8 <? len + 1)%Z then (len + 1)%Z else 8%Z) in
    let q := (0, t_mat1 t, t_mat2 t, t_tmat t) in
    let r := ini_func1 (N.lxor (N.lxor (st_get q 0) (st_get q (1 mod 4))) (st_get q (3 mod 4))) in
    let q := st_set q (1 mod 4) (wadd 32 (st_get q (1 mod 4)) r) in
    let r := wadd 32 r (N.of_nat (length key)) in
    let q := st_set q (2 mod 4) (wadd 32 (st_get q (2 mod 4)) r) in
    let q := st_set q 0 r in
    let count := (count - 1)%Z in
    let s := key_turns (firstn (Z.to_nat count) key) (q, 1) in
    let s := key_turns (repeat 0 (Z.to_nat count - length key)) s in
    let s := Nat.iter 4 end_turn s in
    Ret (tmt_pre_loop (tmt_certify (with_status t (fst s)))).

(** test_generator.hpp:17-111  class Tiny32 *)
Definition tiny32_new (seed : N) : tmt := tmt_init (Tmt (0, 0, 0, 0) 0x8f7011ee 0xfc78ff1f 0x3793fdff) seed.
(** 36-38, 40-44 generate; LINEARITY_CHECK is defined (line 1) *)
Definition tiny32_generate (t : tmt) : N * tmt := tmt_uint32 true t.
Definition tiny32_generate_len (v : Z) (t : tmt) : N * tmt :=
  let mask := wshl 32 (wnot 32 0) (32 - Z.to_N v) in
  let '(r, t) := tmt_uint32 true t in (N.land r mask, t).
(** 54-70 add, without the test for equal parameters; 76-80 setZero; 82-91
    isZero *)
Definition tiny32_add (t u : tmt) : tmt :=
  let f i q := st_set q i (N.lxor (st_get q i) (st_get (t_status u) i)) in
  with_status t (f 3 (f 2 (f 1 (f 0 (t_status t))))).
Definition tiny32_setZero (t : tmt) : tmt := with_status t (0, 0, 0, 0).
Definition tiny32_isZero (t : tmt) : bool :=
  (N.land (st_get (t_status t) 0) 0x7fffffff =? 0) && (st_get (t_status t) 1 =? 0)
  && (st_get (t_status t) 2 =? 0) && (st_get (t_status t) 3 =? 0).
Definition tiny32_ops : gen_ops tmt :=
  {| g_width := 32; g_generate := tiny32_generate; g_generate_len := tiny32_generate_len;
     g_add := tiny32_add; g_setZero := tiny32_setZero; g_isZero := tiny32_isZero;
     g_seed := fun v t => tmt_init t v; g_bitSize := fun _ => 127%nat |}.

(** test/test_equidist.cpp:14-27, for a given seed (1234 there): the value
    returned by main.  [pos] is calc_1pos. *)
Definition test_equidist_main (pos : N -> res Z) (fuel : nat) (veq0 : list Z) (seed : N) : res Z :=
  do '(_, _, delta) <- get_all_equidist tiny32_ops pos fuel (ae_new tiny32_ops (tiny32_new seed) 32 0) veq0;
  Ret (if (delta =? 0)%Z then 0%Z else (-1)%Z).
