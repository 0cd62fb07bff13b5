(** Model of the programs samples/sfmtdc/test_period.cpp and
    samples/dSFMTdc/calc_period.cpp, and of the texts of get_string of
    sfmt_param and dSFMT_param. *)
From Coq Require Import NArith ZArith List Bool.
From mathcomp Require Import all_ssreflect all_algebra.
From Verif Require Import Base UtilModel GenModel PolyF2 PeriodModel ParityModel ArrayModel W128Model W128Spec SfmtModel DsfmtModel AnniModel RmtCalcModel.
Import ListNotations.
Set Implicit Arguments.
Unset Strict Implicit.
Unset Printing Implicit Defensive.
Import GRing.Theory.
Local Open Scope ring_scope.
Delimit Scope Z_scope with coqZ.

(** * The texts *)
(** operator<< for uint32_t with hex, setw(8), setfill('0') *)
Definition hex8 (x : N) : list N := hex_digits 8 x.
(** A list of fields, each followed by a comma. *)
Fixpoint fields (l : list (list N)) : list N :=
  match l with
  | [] => []
  | x :: r => x ++ chr_comma :: fields r
  end.
(** sfmtsearch.hpp:112-133  sfmt_param::get_string; there is no white space in the
    text, ss >> s takes all of it. *)
Definition sf_text (p : sfp) : list N :=
  let w k := hex8 (w32 (w_of (f_parity p)) k) in
  fields [long_chars (f_mexp p); long_chars (f_pos1 p); long_chars (f_sl1 p); long_chars (f_sl2 p);
          long_chars (f_sr1 p); long_chars (f_sr2 p); hex8 (f_msk1 p); hex8 (f_msk2 p); hex8 (f_msk3 p); hex8 (f_msk4 p);
          w 0; w 1; w 2; w 3]%N.
(** dSFMTsearch.hpp:95-109  dSFMT_param::get_string *)
Definition ds_text (p : dsp) : list N :=
  fields [long_chars (d_mexp p); long_chars (d_pos1 p); long_chars (d_sl1 p); hex16 (d_msk1 p); hex16 (d_msk2 p);
          hex16 (lo64 (d_fix p)); hex16 (hi64 (d_fix p)); hex16 (lo64 (d_parity p)); hex16 (hi64 (d_parity p))].

(** Fields in the given bases with para++ between them; strtoul is strtoull
    where unsigned long has 64 bits. *)
Fixpoint read_fields (bases : list N) (para : list N) : res (list N) :=
  match bases with
  | [] => Ret []
  | [b] => let '(x, _) := strtoull b para in Ret [x]
  | b :: r =>
      let '(x, para) := strtoull b para in
      do para <- para_next para;
      do l <- read_fields r para;
      Ret (x :: l)
  end.
(** test_period.cpp:19-47: static_cast<int>, static_cast<uint32_t> *)
Definition sf_bases : list N := (List.repeat 10 6 ++ List.repeat 16 8)%num.
Definition sf_parse (para : list N) : res sfp :=
  do l <- read_fields sf_bases para;
  let i k := rc_int (List.nth k l 0%num) in
  let u k := trunc 32 (List.nth k l 0%num) in
  Ret (SFP (i 0) (i 1) (i 2) (i 3) (i 4) (i 5) (u 6) (u 7) (u 8) (u 9) (wval (w_of32 (u 10) (u 11) (u 12) (u 13))))%N.
(** calc_period.cpp:19-37; unsigned long is converted to int *)
Definition ds_bases : list N := (List.repeat 10 3 ++ List.repeat 16 6)%num.
Definition ds_parse (para : list N) : res dsp :=
  do l <- read_fields ds_bases para;
  let i k := rc_int (List.nth k l 0%num) in
  let u k := List.nth k l 0%num in
  Ret (DSP (i 0) (i 1) (i 2) (u 3) (u 4) (join (u 5) (u 6)) (join (u 7) (u 8)))%N.
(** seedw.u[0] = 1; u[1], u[2], u[3] are not initialised, here they are taken from
    [junk]. *)
Definition pt_seed (junk : N) : N := (1 + 2 ^ 32 * (junk mod 2 ^ 96))%num.

(** * min_max_poly *)
(** NTL::weight: the number of coefficients that are not zero *)
Definition pweight (p : f2x) : Z := Z.of_nat (count (fun a => a != 0) (polyseq p)).
Section MinMax.
Variables (S : Type) (G : gen_ops S) (M : seq 'F_2 -> nat -> f2x).
(** test_period.cpp:82-98 with the bits 0 .. 127, calc_period.cpp:70-95 with the
    bits 0 .. 51 and 64 .. 103 and without max_weight: the loop.  The degrees
    are less than 2^31. *)
Record mm := MM { mm_min : Z; mm_max : Z; mm_weight : Z }.
Definition mm_next (poly : f2x) (m : mm) : mm :=
  let d := deg poly in
  MM (if d <? mm_min m then d else mm_min m)%coqZ
     (if mm_max m <? d then d else mm_max m)%coqZ
     (if mm_max m <? d then pweight poly else mm_weight m)%coqZ.
Fixpoint mm_loop (bits : list nat) (s : S) (m : mm) : res (mm * S) :=
  match bits with
  | [] => Ret (m, s)
  | i :: r =>
      do '(poly, s') <- minpoly G M s (Z.of_nat i) 0;
      mm_loop r s' (mm_next poly m)
  end.
Definition min_max_poly (bits : list nat) (s : S) (weight : Z) : res (mm * S) :=
  mm_loop bits s (MM 2147483647 (-10) weight).
End MinMax.
Definition sf_bits : list nat := List.seq 0 128.
Definition ds_bits : list nat := (List.seq 0 52 ++ List.seq 64 40)%N.

(** * The programs *)
(** A line of the table: start mode, weight mode, min, max. *)
Record pt_row := ROW { row_start : Z; row_weight : Z; row_min : Z; row_max : Z }.
(** The line of the parameters, the numbers before anni, the lines of the table
    and the value returned by main: 0, or -1 after the message "annihilate
    fail". *)
Record pt_out := PTO { pt_text : list N; pt_before : mm; pt_rows : list pt_row; pt_code : Z }.
Section Programs.
Variables (M : seq 'F_2 -> nat -> f2x) (fuel : nat) (junk : N).
Section Modes.
Variables (S : Type) (G : gen_ops S) (anni : S -> res (bool * S)) (set : Z -> Z -> S -> S) (bits : list nat) (sf : S).
(** test_period.cpp:62-78, calc_period.cpp:50-66: the loops for the modes left *)
Fixpoint pt_modes (modes : list (Z * Z)) (weight : Z) : res (list pt_row * Z) :=
  match modes with
  | [] => Ret ([], 0%coqZ)
  | (i, j) :: r =>
      do '(b, sf2) <- anni (set i j sf);
      if ~~ b then Ret ([], (-1)%coqZ)
      else
        do '(m, _) <- min_max_poly G M bits sf2 weight;
        do '(rows, code) <- pt_modes r (mm_weight m);
        Ret (ROW i j (mm_min m) (mm_max m) :: rows, code)
  end.
End Modes.
Definition sf_modes : list (Z * Z) :=
  List.flat_map (fun i => List.map (fun j => (i, j)) [4; 3; 2; 1]%coqZ) [0; 1; 2; 3]%coqZ.
Definition ds_modes : list (Z * Z) :=
  List.flat_map (fun i => List.map (fun j => (i, j)) [2; 1]%coqZ) [0; 1]%coqZ.
(** test_period.cpp:12-80 with one argument.  A negative mexp is not followed any
    further (the length of the array). *)
Definition sf_test_period (para : list N) : res pt_out :=
  do p <- sf_parse para;
  if (f_mexp p <? 0)%coqZ then Undef
  else
    let sf := sf_seed (pt_seed junk) (sf_new p) in
    do '(m, sf1) <- min_max_poly sf_ops M sf_bits sf 0;
    do '(rows, code) <- pt_modes sf_ops (anni_s sf_ops sf_par_ops M fuel) (fun i j s => sf_setWeight j (sf_setStart i s)) sf_bits sf1
                          sf_modes (mm_weight m);
    Ret (PTO (sf_text p) m rows code).
(** calc_period.cpp:12-68 with one argument; likewise a mexp less than 128. *)
Definition ds_calc_period (para : list N) : res pt_out :=
  do p <- ds_parse para;
  if (d_mexp p <? 128)%coqZ then Undef
  else
    let sf := ds_seed (pt_seed junk) (ds_new p) in
    do '(m, sf1) <- min_max_poly ds_ops M ds_bits sf 0;
    do '(rows, code) <- pt_modes ds_ops (anni_d ds_ops ds_par_ops M fuel) (fun i j s => ds_setWeight j (ds_setStart i s)) ds_bits sf1
                          ds_modes (mm_weight m);
    Ret (PTO (ds_text p) m rows code).
End Programs.
