(** Model of the tempering searches AlgorithmPartialBitPattern.hpp and
    AlgorithmBestBits.hpp.  [int] values are unbounded [Z] except where a shift
    is evaluated; the output type U has W = 32 or 64 bits (no integer
    promotion). *)
From Coq Require Import NArith ZArith List Bool.
From Verif Require Import Base GenModel EquiModel.
Import ListNotations.
Local Open Scope Z_scope.

(** TemperingCalculatable.hpp:85-141: the virtual functions of a generator
    that can be tempered.  [t_clone] is clone(), which the equidistribution
    algorithm applies to its argument; most classes copy everything. *)
Record temper_ops (S : Type) : Type := {
  t_set : N -> N -> nat -> S -> S;
  t_up : S -> S;
  t_setRev : S -> S;
  t_resetRev : S -> S;
  t_clone : S -> S
}.
Arguments t_set {S}.
Arguments t_up {S}.
Arguments t_setRev {S}.
Arguments t_resetRev {S}.
Arguments t_clone {S}.

(** Shifts of a W-bit word by an int: undefined unless 0 <= k < W. *)
Definition sh_ok (W : N) (k : Z) : bool := (0 <=? k) && (k <? Z.of_N W).
Definition cshl (W x : N) (k : Z) : res N := if sh_ok W k then Ret (wshl W x (Z.to_N k)) else Undef.
Definition cshr (W x : N) (k : Z) : res N := if sh_ok W k then Ret (wshr x (Z.to_N k)) else Undef.
(** (1 << k) as an int, from which 1 is subtracted: k at most 30. *)
Definition int_pow2 (k : Z) : res Z := if (0 <=? k) && (k <=? 30) then Ret (2 ^ k) else Undef.

Section Defect.
Variables (S : Type) (G : gen_ops S) (T : temper_ops S) (pos : N -> res Z) (fuel : nat).
(** AlgorithmPartialBitPattern.hpp:298-304 and AlgorithmBestBits.hpp:424-429
    get_equidist; [veq0] is the uninitialised array. *)
Definition tm_get_equidist (veq0 : list Z) (bit_length : nat) (s : S) : res Z :=
  do '(_, _, sum) <- get_all_equidist G pos fuel (ae_new G (t_clone T s) bit_length 0) veq0;
  Ret sum.
End Defect.

(** * AlgorithmPartialBitPattern *)
Section Pbp.
Variables (S : Type) (T : temper_ops S).
(** bit_size<U>(), count_bit on U, bitSize() and get_equidist(rand, bit_len). *)
Variables (W : N) (count_bit : N -> N) (bitSize : S -> Z) (defect : S -> res Z).
(** The template arguments, AlgorithmPartialBitPattern.hpp:96-98. *)
Variables (bit_len param_num try_bit_len step : Z) (lsb : bool).

(** 330-346  make_mask *)
Definition pb_make_mask (start size : Z) : res N :=
  let mask := wnot W 0 in
  let size := if start + size >? bit_len then bit_len - start else size in
  if lsb then
    do m <- cshr W mask start;
    do m <- cshl W m (bit_len - size);
    cshr W m (bit_len - start - size)
  else
    do m <- cshl W mask start;
    do m <- cshr W m (bit_len - size);
    cshl W m (bit_len - start - size).
(** 178-184  make_temper_bit *)
Definition pb_make_temper_bit (s : S) (mask : N) (param_pos : nat) (pattern : N) : S :=
  t_up T (t_set T mask pattern param_pos s).
(** 246-270: the loop of search_best_temper; [k] is i + 1. *)
Fixpoint pb_loop (k : nat) (mask : N) (param_pos : nat) (v_bit size : Z)
  (s : S) (min_delta : Z) (min_pattern : N) : res (S * Z * N) :=
  match k with
  | O => Ret (s, min_delta, min_pattern)
  | Datatypes.S i =>
      do pattern <- (if lsb then cshl W (trunc W (N.of_nat i)) v_bit
                     else cshl W (trunc W (N.of_nat i)) (bit_len - v_bit - size));
      let s1 := pb_make_temper_bit s mask param_pos pattern in
      do delta <- defect s1;
      if delta <? min_delta then pb_loop i mask param_pos v_bit size s1 delta pattern
      else if (delta =? min_delta) && (count_bit min_pattern <? count_bit pattern)%N then
        pb_loop i mask param_pos v_bit size s1 min_delta pattern
      else pb_loop i mask param_pos v_bit size s1 min_delta min_pattern
  end.
(** 235-278  search_best_temper *)
Definition pb_search_best_temper (s : S) (v_bit : Z) (param_pos : nat) (max_v_bit : Z) : res (Z * S) :=
  let min_delta := bitSize s * bit_len in
  let size := max_v_bit - v_bit in
  do mask <- pb_make_mask v_bit size;
  do n <- int_pow2 size;
  do '(s1, min_delta, min_pattern) <- pb_loop (Z.to_nat n) mask param_pos v_bit size s min_delta 0%N;
  Ret (min_delta, pb_make_temper_bit s1 mask param_pos min_pattern).
(** 152-154: the loop over the parameters. *)
Fixpoint pb_params (cnt : nat) (i : nat) (p max_depth : Z) (s : S) : res S :=
  match cnt with
  | O => Ret s
  | Datatypes.S c =>
      do '(_, s1) <- pb_search_best_temper s p i max_depth;
      pb_params c (Datatypes.S i) p max_depth s1
  end.
(** 147-155: the loop over the windows. *)
Fixpoint pb_windows (fuel : nat) (p : Z) (s : S) : res S :=
  match fuel with
  | O => NoFuel
  | Datatypes.S f =>
      if p <? try_bit_len then
        let max_depth := if p + step >? try_bit_len then try_bit_len else p + step in
        do s1 <- pb_params (Z.to_nat param_num) 0 p max_depth s;
        pb_windows f (p + step) s1
      else Ret s
  end.
(** 129-161  operator() *)
Definition pb_call (fuel : nat) (s : S) : res (Z * S) :=
  let s0 := if lsb then t_setRev T s else t_resetRev T s in
  do s1 <- pb_windows fuel 0 s0;
  Ret (0, t_resetRev T s1).
End Pbp.

(** * AlgorithmBestBits *)
(** AlgorithmBestBits.hpp:60-149  temper_params; [size] is the length of the
    array. *)
Record temper_params : Type := { tp_delta : Z; tp_param : list N }.

Section Bb.
Variables (S : Type) (T : temper_ops S).
(** obSize = bit_size<U>(), bitSize() and get_equidist(rand, bit_length). *)
Variables (W : N) (bitSize : S -> Z) (defect : nat -> S -> res Z).
(** The fields set by the constructor, AlgorithmBestBits.hpp:229-242; bit_len
    is not used. *)
Variables (size : nat) (shifts : list Z) (limit : Z).
Notation obSize := (Z.of_N W).
Definition bb_num_pat : nat := size * (size + 1) / 2.

(** 481-488 and 533-540: the end of the loop bodies; (index, idx, rdx, sum). *)
Definition bb_next (st : nat * nat * Z * Z) : res (nat * nat * Z * Z) :=
  let '(index, idx, rdx, sum) := st in
  let index := Datatypes.S index in
  if (size <=? index)%nat then
    do sh <- geti shifts rdx;
    Ret (idx, Datatypes.S idx, rdx - 1, sum + sh)
  else Ret (index, idx, rdx, sum).
Definition bb_start : nat * nat * Z * Z := (0%nat, 0%nat, Z.of_nat size - 1, 0).

(** 522-543  inRange; [k] is the number of mask bits left, so that the mask is
    1 << (k - 1). *)
Fixpoint bb_inRange_loop (k : nat) (pat : N) (v : Z) (st : nat * nat * Z * Z) : res bool :=
  match k with
  | O => Ret true
  | Datatypes.S k' =>
      let '(index, _, _, sum) := st in
      do out <- (if N.testbit pat (N.of_nat k') then
                   do sh <- geti shifts (Z.of_nat index);
                   Ret (v + sh + sum >? obSize)
                 else Ret false);
      if out : bool then Ret false
      else do st' <- bb_next st; bb_inRange_loop k' pat v st'
  end.
Definition bb_inRange (pat : N) (v : Z) : res bool := bb_inRange_loop bb_num_pat pat v bb_start.

(** 458-496  make_pattern *)
Fixpoint bb_pattern_loop (k : nat) (pat : N) (v : Z) (para_mask : N) (param : list N)
  (st : nat * nat * Z * Z) : res (list N) :=
  match k with
  | O => Ret param
  | Datatypes.S k' =>
      let '(index, _, _, sum) := st in
      do param1 <-
        (if obSize >? v + sum + 1 then
           do bit <- cshl W 1 (obSize - v - sum - 1);
           do old <- geti param (Z.of_nat index);
           if N.testbit pat (N.of_nat k') then
             seti param (Z.of_nat index) (N.lor old (N.land bit para_mask))
           else seti param (Z.of_nat index) (N.land old (wnot W bit))
         else Ret param);
      do st' <- bb_next st;
      bb_pattern_loop k' pat v para_mask param1 st'
  end.
Definition bb_make_pattern (pat : N) (v : Z) (para : list N) : res (list N) :=
  do para_mask <- cshr W (wnot W 0) v;
  bb_pattern_loop bb_num_pat pat v para_mask para bb_start.

(** 392-394 and 328-330: installing all parameters with the full mask. *)
Definition bb_install (param : list N) (s : S) : S :=
  fold_left (fun s '(j, x) => t_set T (wnot W 0) x j s) (combine (seq 0 size) param) s.

(** 383-403: the loop of search_best_temper; [k] is i + 1. *)
Fixpoint bb_search_loop (k : nat) (v_bit : nat) (para : list N) (s : S) (delta : Z)
  (current : list temper_params) : res (S * list temper_params) :=
  match k with
  | O => Ret (s, current)
  | Datatypes.S i =>
      do inr <- bb_inRange (N.of_nat i) (Z.of_nat v_bit);
      if inr : bool then
        do pattern <- bb_make_pattern (N.of_nat i) (Z.of_nat v_bit) para;
        let s1 := bb_install pattern s in
        do d <- defect (v_bit + 1) s1;
        if d <=? delta then
          bb_search_loop i v_bit para s1 d (current ++ [{| tp_delta := d; tp_param := pattern |}])
        else bb_search_loop i v_bit para s1 delta current
      else bb_search_loop i v_bit para s delta current
  end.
(** 373-404  search_best_temper; the masks 1 << num_pat and 1 << (num_pat - 1)
    must be int shifts. *)
Definition bb_search_best_temper (s : S) (v_bit : nat) (para : list N) (current : list temper_params)
  : res (S * list temper_params) :=
  do n <- int_pow2 (Z.of_nat bb_num_pat);
  do _ <- int_pow2 (Z.of_nat bb_num_pat - 1);
  bb_search_loop (Z.to_nat n) v_bit para s (bitSize s * obSize) current.
(** 303-306 *)
Fixpoint bb_all (params : list temper_params) (v_bit : nat) (s : S) (current : list temper_params)
  : res (S * list temper_params) :=
  match params with
  | [] => Ret (s, current)
  | p :: r =>
      do '(s1, current1) <- bb_search_best_temper s v_bit (tp_param p) current;
      bb_all r v_bit s1 current1
  end.
(** 307-312 *)
Definition bb_min (init : Z) (current : list temper_params) : Z :=
  fold_left (fun d c => if tp_delta c <? d then tp_delta c else d) current init.
(** 300-325: the loop over the bits; [cnt] turns from p on. *)
Fixpoint bb_bits (cnt : nat) (p : nat) (params : list temper_params) (s : S)
  : res (S * list temper_params) :=
  match cnt with
  | O => Ret (s, params)
  | Datatypes.S c =>
      do '(s1, current) <- bb_all params p s [];
      let delta := bb_min (bitSize s1 * obSize) current in
      bb_bits c (Datatypes.S p) (filter (fun x => tp_delta x =? delta) current) s1
  end.
(** 283-337  operator() *)
Definition bb_call (s : S) : res (Z * S) :=
  let s0 := t_resetRev T s in
  let initial := {| tp_delta := 0; tp_param := repeat 0%N size |} in
  do '(s1, params) <- bb_bits (Z.to_nat limit) 0 [initial] s0;
  do best <- geti params 0;
  Ret (0, t_resetRev T (t_up T (bb_install (tp_param best) s1))).
End Bb.
