(** Model of samples/MTGPDC/MTGP32search.hpp: the class mtgp32, and of the
    parameter class in mtgp_param.h. *)
From Coq Require Import Arith NArith ZArith List Bool.
From Verif Require Import Base UtilModel GenModel TemperModel ArrayModel.
Import ListNotations.
Local Open Scope N_scope.

(** MTGP32search.hpp:306-311 the members except idx and state, and
    mtgp_param.h:144-153 the members of param.  [gp_imask] is the member mask of
    mtgp32, which no function ever sets; gp_mask is param.mask.  sha1, which is
    only printed, is left out. *)
Record gpp := GPP {
  gp_mexp : nat; gp_size : nat; gp_rev : bool; gp_imask : N; gp_mask : N; gp_pos : nat;
  gp_sh1 : N; gp_sh2 : N; gp_id : N; gp_tbl : list N; gp_p : list N; gp_tmp : list N; gp_tp : list N }.
Definition gpu : Type := gpp * rr.

(** 362-367  rec; 16 entries of p, so p[p3 & 0x0f] is in range *)
Definition gpu_rec (p : gpp) (p1 p2 p3 : N) : N :=
  let p1 := N.lxor (N.land p1 (gp_mask p)) p2 in
  let p1 := N.lxor p1 (wshl 32 p1 (gp_sh1 p)) in
  let p3 := N.lxor p1 (wshr p3 (gp_sh2 p)) in
  N.lxor p3 (nth (N.to_nat (N.land p3 0x0f)) (gp_p p) 0).
(** 321-326  next_state *)
Definition gpu_next_state (g : gpu) : gpu :=
  let '(p, s) := g in
  let idx := Nat.modulo (rr_idx s + 1) (gp_size p) in
  let a := rr_arr s in
  (p, RR idx (put a idx (gpu_rec p (nth idx a 0) (rr_at (gp_size p) a (idx + 1)) (rr_at (gp_size p) a (idx + gp_pos p))))).
(** 329-335  temper *)
Definition gpu_temper (g : gpu) : N :=
  let '(p, s) := g in
  let v := nth (rr_idx s) (rr_arr s) 0 in
  let t := rr_at (gp_size p) (rr_arr s) (rr_idx s + gp_pos p - 1) in
  let t := N.lxor t (wshr t 16) in
  let t := N.lxor t (wshr t 8) in
  N.lxor v (nth (N.to_nat (N.land t 0x0f)) (gp_tp p) 0).
(** 102-105  generate() *)
Definition gpu_generate (g : gpu) : N * gpu :=
  let g' := gpu_next_state g in (gpu_temper g', g').
(** 114-124  generate(int) *)
Definition gpu_generate_len (v : Z) (g : gpu) : N * gpu :=
  let '(r, g') := gpu_generate g in
  let u := if gp_rev (fst g) then reverse_bit32 r else r in
  (N.land u (wshl 32 (wnot 32 0) (32 - Z.to_N v)), g').
(** 216-239  add; the dynamic_cast, which throws for an object of another
    class, is left out. *)
Definition gpu_add (g h : gpu) : gpu := (fst g, rr_xor (gp_size (fst g)) (snd g) (snd h)).
(** 253-261  seed *)
Definition gpu_seed_word (i : nat) (prev : N) : N :=
  wadd 32 (wmul 32 1812433253 (N.lxor prev (wshr prev 30))) (trunc 32 (N.of_nat i)).
Definition gpu_seed (v : N) (g : gpu) : gpu :=
  let p := fst g in (p, RR (gp_size p - 1) (v :: rr_fill (gp_size p - 1) 1 v gpu_seed_word)).
(** 266-270  setZero; the index stays *)
Definition gpu_setZero (g : gpu) : gpu := (fst g, RR (rr_idx (snd g)) (repeat 0 (gp_size (fst g)))).
(** 277-287  isZero *)
Definition gpu_isZero (g : gpu) : bool :=
  let '(p, s) := g in
  if negb (N.land (nth (rr_idx s) (rr_arr s) 0) (gp_imask p) =? 0) then false
  else rr_zero_loop (gp_size p) (gp_size p - 1) 1 (rr_idx s) (rr_arr s).
(** 98-100 bitSize *)
Definition gpu_ops : gen_ops gpu :=
  {| g_width := 32; g_generate := gpu_generate; g_generate_len := gpu_generate_len;
     g_add := gpu_add; g_setZero := gpu_setZero; g_isZero := gpu_isZero;
     g_seed := gpu_seed; g_bitSize := fun g => gp_mexp (fst g) |}.

(** 57-69 the constructor, mtgp_param.h:31-40.  The shift by size * 32 - mexp is
    undefined when it is 32.  pos, sh1 and sh2 stay uninitialised; here they and
    the uninitialised mask are arguments. *)
Definition gpu_new (mexp : nat) (id imask : N) (pos : nat) (sh1 sh2 : N) : res gpu :=
  let size := (mexp / 32 + 1)%nat in
  let r := (size * 32 - mexp)%nat in
  if (32 <=? r)%nat then Undef
  else Ret (gpu_seed 0 (GPP mexp size false imask (wshl 32 (wnot 32 0) (N.of_nat r)) pos sh1 sh2 id
              (repeat 0 4) (repeat 0 16) (repeat 0 4) (repeat 0 16), RR 0 [])).
(** 177-182: the loop over tbl; us are the values of getUint32() *)
Definition tbl_entry (i : nat) (u : N) : N :=
  if N.land u 0x0f =? wshl 32 1 (N.of_nat i) then N.lxor u (wshl 32 1 (N.of_nat i)) else u.
(** 166-190  setUpParam; u is the first value of getUint32(), u0 ... u3 the
    others.  fill_table of 343-353 is the same text as util.hpp:197-206. *)
Definition gpu_setUpParam (u u0 u1 u2 u3 : N) (g : gpu) : res gpu :=
  let '(p, s) := g in
  let size := gp_size p in
  do pos <- (if (100 <? size)%nat then
               do fl <- floor2p (S (N.to_nat (N.log2 (N.of_nat size)))) (N.of_nat size);
               get_range u 3 (Z.of_nat size - Z.of_N fl - 1)
             else get_range u 3 (Z.of_nat (size / 2) - 1));
  let t2 := N.lxor (N.land (tbl_entry 2 u2) 0xfff0000f) (N.land (wshl 32 (gp_id p) 4) 0x000ffff0) in
  let t3 := N.lxor (N.land (tbl_entry 3 u3) 0x0000ffff) (N.land (gp_id p) 0xffff0000) in
  let tbl := [tbl_entry 0 u0; tbl_entry 1 u1; t2; t3] in
  do tab <- fill_table (repeat 0 16) tbl 16;
  Ret (GPP (gp_mexp p) size (gp_rev p) (gp_imask p) (gp_mask p) (Z.to_nat pos) 13 4 (gp_id p) tbl tab (gp_tmp p) (gp_tp p), s).
(** 205-208  setTemperingPattern: a write outside tmp_tbl is undefined *)
Definition gpu_setPattern (mask pattern : N) (src_bit : nat) (g : gpu) : res gpu :=
  let '(p, s) := g in
  match nth_error (gp_tmp p) src_bit with
  | None => Undef
  | Some t =>
      Ret (GPP (gp_mexp p) (gp_size p) (gp_rev p) (gp_imask p) (gp_mask p) (gp_pos p) (gp_sh1 p) (gp_sh2 p) (gp_id p)
             (gp_tbl p) (gp_p p) (upd (gp_tmp p) src_bit (N.lor (N.land t (wnot 32 mask)) (N.land pattern mask))) (gp_tp p), s)
  end.
(** 241-244  setUpTempering *)
Definition gpu_setUpTempering (g : gpu) : res gpu :=
  let '(p, s) := g in
  do tab <- fill_table (repeat 0 16) (gp_tmp p) 16;
  Ret (GPP (gp_mexp p) (gp_size p) (gp_rev p) (gp_imask p) (gp_mask p) (gp_pos p) (gp_sh1 p) (gp_sh2 p) (gp_id p)
         (gp_tbl p) (gp_p p) (gp_tmp p) tab, s).
