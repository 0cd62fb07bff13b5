(** Model of samples/TinyMTDC/tinymt32search.hpp: the generator TinyMT32 as
    the parameter search uses it (NO_TEMPER and NON_LINEAR not defined). *)
From Coq Require Import NArith ZArith List Bool.
From Verif Require Import Base UtilModel GenModel TemperModel.
Import ListNotations.
Local Open Scope N_scope.

(** 67-72 tinymt32_param, 439-442 the members. *)
Record tiny_param := TP { tp_id : N; tp_mat1 : N; tp_mat2 : N; tp_tmat : N }.
Record tiny := TM { tm_st : N * N * N * N; tm_par : tiny_param; tm_rev : bool }.

(** 446-461  next_state, on the four words *)
Definition tiny_next (p : tiny_param) (st : N * N * N * N) : N * N * N * N :=
  let '(s0, s1, s2, s3) := st in
  let y := s3 in
  let x := N.lxor (N.lxor (N.land s0 0x7fffffff) s1) s2 in
  let x := N.lxor x (wshl 32 x 1) in
  let y := N.lxor y (N.lxor (wshr y 1) x) in
  let t1 := s2 in
  let t2 := N.lxor x (wshl 32 y 10) in
  if N.testbit y 0 then (s1, N.lxor t1 (tp_mat1 p), N.lxor t2 (tp_mat2 p), y)
  else (s1, t1, t2, y).
(** 326-344  temper *)
Definition tiny_temper (p : tiny_param) (st : N * N * N * N) : N :=
  let '(s0, s1, s2, s3) := st in
  let t1 := N.lxor s0 (wshr s2 8) in
  let t0 := N.lxor s3 t1 in
  if N.testbit t1 0 then N.lxor t0 (tp_tmat p) else t0.
(** 238-241  generate() *)
Definition tiny_generate (g : tiny) : N * tiny :=
  let st := tiny_next (tm_par g) (tm_st g) in
  (tiny_temper (tm_par g) st, TM st (tm_par g) (tm_rev g)).
(** 250-260  generate(int) *)
Definition tiny_generate_len (v : Z) (g : tiny) : N * tiny :=
  let '(r, g') := tiny_generate g in
  let u := if tm_rev g then reverse_bit32 r else r in
  (N.land u (wshl 32 (wnot 32 0) (32 - Z.to_N v)), g').
(** 365-390  add; the test for equal parameters, which throws, is left out:
    the algorithms only add clones of one object. *)
Definition tiny_add (g h : tiny) : tiny :=
  let '(a0, a1, a2, a3) := tm_st g in
  let '(b0, b1, b2, b3) := tm_st h in
  TM (N.lxor a0 b0, N.lxor a1 b1, N.lxor a2 b2, N.lxor a3 b3) (tm_par g) (tm_rev g).
(** 171-176  setZero *)
Definition tiny_setZero (g : tiny) : tiny := TM (0, 0, 0, 0) (tm_par g) (tm_rev g).
(** 311-316  isZero *)
Definition tiny_isZero (g : tiny) : bool :=
  let '(s0, s1, s2, s3) := tm_st g in
  (N.land s0 0x7fffffff =? 0) && (s1 =? 0) && (s2 =? 0) && (s3 =? 0).
(** 199-204  seed *)
Definition tiny_seed (v : N) (g : tiny) : tiny := TM (0, 0, 0, v) (tm_par g) (tm_rev g).
Definition tiny_ops : gen_ops tiny :=
  {| g_width := 32; g_generate := tiny_generate; g_generate_len := tiny_generate_len;
     g_add := tiny_add; g_setZero := tiny_setZero; g_isZero := tiny_isZero;
     g_seed := tiny_seed; g_bitSize := fun _ => 127%nat |}.

(** 267-277  setUpParam; num is getUint32() of the parameter generator *)
Definition tiny_setUpParam (num : N) (g : tiny) : tiny :=
  let p := tm_par g in
  let work := N.lxor (N.lxor num (wshl 32 num 15)) (wshl 32 num 23) in
  let work := wshl 32 work 1 in
  let mat1 := N.lor (N.land work 0xffff0000) (N.land (tp_id p) 0xffff) in
  let mat2 := N.lor (N.land work 0xffff) (N.land (tp_id p) 0xffff0000) in
  let mat1 := N.lxor mat1 (wshr mat1 19) in
  let mat2 := N.lxor mat2 (wshl 32 mat2 18) in
  let mat2 := N.lxor mat2 1 in
  TM (tm_st g) (TP (tp_id p) mat1 mat2 0) (tm_rev g).

(** 133-140  tinymt32(uint32_t id) *)
Definition tiny_new (id : N) : tiny := TM (0, 0, 0, 0) (TP id 0 0 0) false.
(** 146-153, 164-166: the copy constructor and clone do not copy
    reverse_bit_flag. *)
Definition tiny_clone (g : tiny) : tiny := TM (tm_st g) (tm_par g) false.
(** 352-356 setTemperingPattern, 396-397 setUpTempering, 423-433
    setReverseOutput, resetReverseOutput *)
Definition tiny_set (mask pattern : N) (_ : nat) (g : tiny) : tiny :=
  let p := tm_par g in
  let t := N.land (tp_tmat p) (wnot 32 mask) in
  let t := N.lor t (N.land pattern mask) in
  TM (tm_st g) (TP (tp_id p) (tp_mat1 p) (tp_mat2 p) t) (tm_rev g).
Definition tiny_temper_ops : temper_ops tiny :=
  {| t_set := tiny_set; t_up := fun g => g;
     t_setRev := fun g => TM (tm_st g) (tm_par g) true;
     t_resetRev := fun g => TM (tm_st g) (tm_par g) false;
     t_clone := tiny_clone |}.

(** 47, 57-58: the typedefs st32 and stlsb32, with the equidistribution algorithm
    of the library as the defect. *)
Definition tiny_defect (pos : N -> res Z) (fuel : nat) (veq0 : list Z) (g : tiny) : res Z :=
  tm_get_equidist tiny tiny_ops tiny_temper_ops pos fuel veq0 32 g.
Definition st32 (pos : N -> res Z) (fuel : nat) (veq0 : list Z) (fuel' : nat) (g : tiny) : res (Z * tiny) :=
  pb_call tiny tiny_temper_ops 32 count_bit32 (fun _ => 127%Z) (tiny_defect pos fuel veq0) 32 1 23 6 false fuel' g.
Definition stlsb32 (pos : N -> res Z) (fuel : nat) (veq0 : list Z) (fuel' : nat) (g : tiny) : res (Z * tiny) :=
  pb_call tiny tiny_temper_ops 32 count_bit32 (fun _ => 127%Z) (tiny_defect pos fuel veq0) 32 1 9 5 true fuel' g.
