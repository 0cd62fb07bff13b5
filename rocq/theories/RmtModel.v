(** Model of samples/RMT/rmt64.hpp: the class RMT64Search. *)
From Coq Require Import Arith NArith ZArith List Bool.
From Verif Require Import Base UtilModel GenModel TemperModel ArrayModel.
Import ListNotations.
Local Open Scope N_scope.

(** 255-264: the members except state and index. *)
Record rmtp := RMTP {
  r_mexp : nat; r_size : nat; r_rev : bool; r_pos : nat; r_mata : N; r_par : N; r_maskb : N; r_maskc : N }.
Definition rmt : Type := rmtp * rr.

(** 93-96 the tempering; 254 sh1 = 29, sh2 = 17, sh3 = 37, sh4 = 43 *)
Definition rmt_temper (p : rmtp) (x : N) : N :=
  let x := N.lxor x (N.land (wshr x 29) 0x5555555555555555) in
  let x := N.lxor x (N.land (wshl 64 x 17) (r_maskb p)) in
  let x := N.lxor x (N.land (wshl 64 x 37) (r_maskc p)) in
  N.lxor x (wshr x 43).
(** 82-98  generate() *)
Definition rmt_generate (g : rmt) : N * rmt :=
  let '(p, s) := g in
  let a := rr_arr s in
  let index := Nat.modulo (rr_idx s + 1) (r_size p) in
  let x := rr_at (r_size p) a index in
  let y := rr_at (r_size p) a (index + r_pos p) in
  let y := N.lxor y (wshl 64 y 17) in
  let x := N.lxor (N.lxor y (wshr x 1)) (if N.testbit x 0 then r_mata p else 0) in
  (rmt_temper p x, (p, RR index (put a index x))).
(** 100-110  generate(int) *)
Definition rmt_generate_len (v : Z) (g : rmt) : N * rmt :=
  let '(r, g') := rmt_generate g in
  let u := if r_rev (fst g) then reverse_bit64 r else r in
  (N.land u (wshl 64 (wnot 64 0) (64 - Z.to_N v)), g').
(** 112-114 getParityValue, 116-119 setParityValue *)
Definition rmt_getParity (g : rmt) : N := rr_at (r_size (fst g)) (rr_arr (snd g)) (rr_idx (snd g)).
Definition rmt_setParity (x : N) (g : rmt) : rmt :=
  let '(p, s) := g in
  (RMTP (r_mexp p) (r_size p) (r_rev p) (r_pos p) (r_mata p) x (r_maskb p) (r_maskc p),
   RR (rr_idx s) (put (rr_arr s) (Nat.modulo (rr_idx s) (r_size p)) x)).
(** 147-152  setZero *)
Definition rmt_setZero (g : rmt) : rmt := (fst g, RR (r_size (fst g) - 1) (repeat 0 (r_size (fst g)))).
(** 121-136  setOneBit.  1 << r is a shift of the int 1: undefined for r >= 32;
    for r = 31 the value is taken to be INT_MIN (defined so from C++20 on, before
    that undefined or up to the compiler) and is converted to uint64_t. *)
Definition rmt_setOneBit (bitPos : nat) (g : rmt) : res rmt :=
  let '(p, s) := rmt_setZero g in
  let idx := Nat.div bitPos 64 in
  let r := Nat.modulo bitPos 64 in
  if (r_size p <=? idx)%nat then Ret (p, s)
  else if (32 <=? r)%nat then Undef
  else Ret (p, RR (rr_idx s) (put (rr_arr s) idx
         (of_int 64 (if (r =? 31)%nat then (- 2 ^ 31)%Z else (2 ^ Z.of_nat r)%Z)))).
(** 138-145  isZero *)
Definition rmt_isZero (g : rmt) : bool := rr_zero_loop (r_size (fst g)) (r_size (fst g)) 0 0 (rr_arr (snd g)).
(** 154-164  add; the dynamic_cast, which throws for an object of another
    class, is left out. *)
Definition rmt_add (g h : rmt) : rmt := (fst g, rr_xor (r_size (fst g)) (snd g) (snd h)).
(** 170-178  seed *)
Definition rmt_seed_word (i : nat) (prev : N) : N :=
  wadd 64 (N.of_nat i) (wmul 64 6364136223846793005 (N.lxor prev (wshr prev 62))).
Definition rmt_seed (v : N) (g : rmt) : rmt :=
  let p := fst g in (p, RR (r_size p - 1) (v :: rr_fill (r_size p - 1) 1 v rmt_seed_word)).
(** 180-182 bitSize *)
Definition rmt_ops : gen_ops rmt :=
  {| g_width := 64; g_generate := rmt_generate; g_generate_len := rmt_generate_len;
     g_add := rmt_add; g_setZero := rmt_setZero; g_isZero := rmt_isZero;
     g_seed := rmt_seed; g_bitSize := fun g => (r_size (fst g) * 64)%nat |}.

(** 22-59  the constructors; the first leaves pos and mata uninitialised, here
    they are arguments. *)
Definition rmt_new (mexp pos : nat) (mata mb mc v : N) : rmt :=
  rmt_seed v (RMTP mexp (mexp / 64 + 1) false pos mata 0 mb mc, RR 0 []).
(** 188-192  setUpParam; u1 and u2 are the two values of getUint64() *)
Definition rmt_setUpParam (u1 u2 : N) (g : rmt) : rmt :=
  let '(p, s) := g in
  (RMTP (r_mexp p) (r_size p) (r_rev p) (N.to_nat (u1 mod N.of_nat (r_size p))) u2 (r_par p) (r_maskb p) (r_maskc p), s).
(** 198-202: getParamString shifts the unused low bits out of the masks of the
    object itself. *)
Definition rmt_getParamString_effect (g : rmt) : rmt :=
  let '(p, s) := g in
  (RMTP (r_mexp p) (r_size p) (r_rev p) (r_pos p) (r_mata p) (r_par p)
     (wshl 64 (wshr (r_maskb p) 17) 17) (wshl 64 (wshr (r_maskc p) 37) 37), s).
(** 213-232 setTemperingPattern, setUpTempering, setReverseOutput,
    resetReverseOutput; 61-76, 166-168 clone *)
Definition rmt_set (mask pattern : N) (src_bit : nat) (g : rmt) : rmt :=
  let '(p, s) := g in
  let f m := N.lor (N.land m (wnot 64 mask)) (N.land pattern mask) in
  match src_bit with
  | O => (RMTP (r_mexp p) (r_size p) (r_rev p) (r_pos p) (r_mata p) (r_par p) (f (r_maskb p)) (r_maskc p), s)
  | S _ => (RMTP (r_mexp p) (r_size p) (r_rev p) (r_pos p) (r_mata p) (r_par p) (r_maskb p) (f (r_maskc p)), s)
  end.
Definition rmt_setrev (b : bool) (g : rmt) : rmt :=
  let '(p, s) := g in
  (RMTP (r_mexp p) (r_size p) b (r_pos p) (r_mata p) (r_par p) (r_maskb p) (r_maskc p), s).
Definition rmt_temper_ops : temper_ops rmt :=
  {| t_set := rmt_set; t_up := fun g => g; t_setRev := rmt_setrev true;
     t_resetRev := rmt_setrev false; t_clone := fun g => g |}.
