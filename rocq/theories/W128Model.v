(** Model of samples/sfmtdc/w128.hpp (samples/dSFMTdc/w128.hpp has the same
    functions), of the 128-bit shifts of samples/sfmtdc/sfmtsearch.hpp and of
    its period certification.  The union of four 32-bit and two 64-bit words is
    modelled by the two 64-bit words; the 32-bit words are their halves as on a
    little endian machine. *)
From Coq Require Import NArith ZArith List Bool.
From Verif Require Import Base UtilModel.
Local Open Scope N_scope.

(** w128.hpp:39-42  union w128_t: u64[0] and u64[1]. *)
Record w128 := W128 { u0 : N; u1 : N }.

(** A shift of a 64-bit word; a count outside 0..63 is undefined behaviour. *)
Definition shl64 (x : N) (s : Z) : res N :=
  if ((0 <=? s) && (s <? 64))%Z then Ret (wshl 64 x (Z.to_N s)) else Undef.
Definition shr64 (x : N) (s : Z) : res N :=
  if ((0 <=? s) && (s <? 64))%Z then Ret (wshr x (Z.to_N s)) else Undef.

(** w128.hpp:43-57  make_msb_mask. *)
Definition w_mask (n : Z) : res w128 :=
  if (n =? 128)%Z then Ret (W128 0xffffffffffffffff 0xffffffffffffffff)
  else if (n <? 64)%Z then
    do m <- shr64 (wnot 64 0) n; Ret (W128 0 (wnot 64 m))
  else
    do m <- shr64 (wnot 64 0) (n - 64); Ret (W128 (wnot 64 m) 0xffffffffffffffff).

(** w128.hpp:59-64  and_mask; 161-166  operator&. *)
Definition w_and (a b : w128) : w128 := W128 (N.land (u0 a) (u0 b)) (N.land (u1 a) (u1 b)).

(** w128.hpp:67-72  getOne. *)
Definition w_one : w128 := W128 1 0.

(** w128.hpp:75-85  getBitOfPos. *)
Definition w_getBit (x : w128) (pos : Z) : res N :=
  if (pos =? 0)%Z then Ret (N.land (u0 x) 1)
  else if (pos <? 64)%Z then do y <- shr64 (u0 x) pos; Ret (N.land y 1)
  else if (pos =? 64)%Z then Ret (N.land (u1 x) 1)
  else do y <- shr64 (u1 x) (pos - 64); Ret (N.land y 1).

(** w128.hpp:88-108  setBitOfPos; b is an unsigned int. *)
Definition w_setBit (x : w128) (pos : Z) (b : N) : res w128 :=
  let b := N.land b 1 in
  if (pos =? 0)%Z then Ret (W128 (N.lor (N.land (u0 x) (wnot 64 1)) b) (u1 x))
  else if (pos <? 64)%Z then
    do m <- shl64 1 pos;
    do y <- shl64 b pos;
    Ret (W128 (N.lor (N.land (u0 x) (wnot 64 m)) y) (u1 x))
  else if (pos =? 64)%Z then Ret (W128 (u0 x) (N.lor (N.land (u1 x) (wnot 64 1)) b))
  else
    do m <- shl64 1 (pos - 64);
    do y <- shl64 b (pos - 64);
    Ret (W128 (u0 x) (N.lor (N.land (u1 x) (wnot 64 m)) y)).

(** w128.hpp:111-113  isZero. *)
Definition w_isZero (x : w128) : bool := (u0 x =? 0) && (u1 x =? 0).
(** w128.hpp:116-119  setZero. *)
Definition w_zero : w128 := W128 0 0.

(** w128.hpp:121-139  operator>>. *)
Definition w_shr (x : w128) (s : Z) : res w128 :=
  if (s =? 0)%Z then Ret x
  else if (s =? 64)%Z then Ret (W128 (u1 x) 0)
  else if (64 <=? s)%Z then do r <- shr64 (u1 x) (s - 64); Ret (W128 r 0)
  else
    do w <- shl64 (u1 x) (64 - s);
    do r1 <- shr64 (u1 x) s;
    do r0 <- shr64 (u0 x) s;
    Ret (W128 (N.lor w r0) r1).

(** w128.hpp:141-159  operator<<. *)
Definition w_shl (x : w128) (s : Z) : res w128 :=
  if (s =? 0)%Z then Ret x
  else if (s =? 64)%Z then Ret (W128 0 (u0 x))
  else if (64 <? s)%Z then do r <- shl64 (u0 x) (s - 64); Ret (W128 0 r)
  else
    do w <- shr64 (u0 x) (64 - s);
    do r0 <- shl64 (u0 x) s;
    do r1 <- shl64 (u1 x) s;
    Ret (W128 r0 (N.lor w r1)).

(** w128.hpp:168-173  operator^; 188-192  operator^=. *)
Definition w_xor (a b : w128) : w128 := W128 (N.lxor (u0 a) (u0 b)) (N.lxor (u1 a) (u1 b)).
(** w128.hpp:175-180  operator~. *)
Definition w_not (a : w128) : w128 := W128 (wnot 64 (u0 a)) (wnot 64 (u1 a)).
(** w128.hpp:182-186  operator|=. *)
Definition w_or (a b : w128) : w128 := W128 (N.lor (u0 a) (u0 b)) (N.lor (u1 a) (u1 b)).
(** w128.hpp:194-196  operator==. *)
Definition w_eq (a b : w128) : bool := (u0 a =? u0 b) && (u1 a =? u1 b).

(** w128.hpp:209-223  calc_1pos: both branches compute what calc_1pos of the
    64-bit word computes (util.hpp:348-356 has the same statements). *)
Definition w_calc_1pos (x : w128) : res Z :=
  if w_isZero x then Ret (-1)%Z
  else if u0 x =? 0 then
    let y := to_signed 64 (u1 x) in
    do ny <- sneg 64 y;
    let c := count_bit64 (wsub 64 (of_int 64 (Z.land y ny)) 1) in
    Ret (63 - Z.of_N c)%Z
  else
    let y := to_signed 64 (u0 x) in
    do ny <- sneg 64 y;
    let c := count_bit64 (wsub 64 (of_int 64 (Z.land y ny)) 1) in
    Ret (63 - Z.of_N c + 64)%Z.
(** The same where signed negation wraps. *)
Definition w_calc_1pos_wrap (x : w128) : Z :=
  if w_isZero x then (-1)%Z
  else if u0 x =? 0 then
    let y := to_signed 64 (u1 x) in
    let ny := to_signed 64 (of_int 64 (- y)) in
    (63 - Z.of_N (count_bit64 (wsub 64 (of_int 64 (Z.land y ny)) 1)))%Z
  else
    let y := to_signed 64 (u0 x) in
    let ny := to_signed 64 (of_int 64 (- y)) in
    (63 - Z.of_N (count_bit64 (wsub 64 (of_int 64 (Z.land y ny)) 1)) + 64)%Z.

(** w128.hpp:225-239  convert from a 64-bit or 32-bit word. *)
Definition w_convert (x : N) : w128 := W128 x 0.
(** w128.hpp:241-246  reverse_bit. *)
Definition w_reverse (x : w128) : w128 := W128 (reverse_bit64 (u1 x)) (reverse_bit64 (u0 x)).

(** The 32-bit words u[0] .. u[3] of the union. *)
Definition w32 (x : w128) (i : nat) : N :=
  match i with
  | 0%nat => trunc 32 (u0 x)
  | 1%nat => wshr (u0 x) 32
  | 2%nat => trunc 32 (u1 x)
  | _ => wshr (u1 x) 32
  end.
(** The union given by its 32-bit words. *)
Definition w_of32 (a b c d : N) : w128 := W128 (N.lor a (N.shiftl b 32)) (N.lor c (N.shiftl d 32)).

(** sfmtsearch.hpp:259-272  rshift128; [int shift] counts bytes. *)
Definition rshift128 (x : w128) (shift : Z) : res w128 :=
  let th := N.lor (wshl 64 (w32 x 3) 32) (w32 x 2) in
  let tl := N.lor (wshl 64 (w32 x 1) 32) (w32 x 0) in
  do oh <- shr64 th (shift * 8);
  do ol <- shr64 tl (shift * 8);
  do m <- shl64 th (64 - shift * 8);
  let ol := N.lor ol m in
  Ret (w_of32 (trunc 32 ol) (trunc 32 (wshr ol 32)) (trunc 32 oh) (trunc 32 (wshr oh 32))).

(** sfmtsearch.hpp:274-287  lshift128. *)
Definition lshift128 (x : w128) (shift : Z) : res w128 :=
  let th := N.lor (wshl 64 (w32 x 3) 32) (w32 x 2) in
  let tl := N.lor (wshl 64 (w32 x 1) 32) (w32 x 0) in
  do oh <- shl64 th (shift * 8);
  do ol <- shl64 tl (shift * 8);
  do m <- shr64 tl (64 - shift * 8);
  let oh := N.lor oh m in
  Ret (w_of32 (trunc 32 ol) (trunc 32 (wshr ol 32)) (trunc 32 oh) (trunc 32 (wshr oh 32))).

(** Write of one 32-bit word of the union. *)
Definition w_put32 (x : w128) (i : nat) (v : N) : w128 :=
  match i with
  | 0%nat => w_of32 v (w32 x 1) (w32 x 2) (w32 x 3)
  | 1%nat => w_of32 (w32 x 0) v (w32 x 2) (w32 x 3)
  | 2%nat => w_of32 (w32 x 0) (w32 x 1) v (w32 x 3)
  | _ => w_of32 (w32 x 0) (w32 x 1) (w32 x 2) v
  end.

(** sfmtsearch.hpp:615-622  the inner loop over the bits of parity.u[i]. *)
Fixpoint pc_bits (cnt : nat) (work : N) (st par : w128) (i : nat) : option w128 :=
  match cnt with
  | O => None
  | S c =>
      if negb (N.land work (w32 par i) =? 0)
      then Some (w_put32 st i (N.lxor (w32 st i) work))
      else pc_bits c (wshl 32 work 1) st par i
  end.
(** sfmtsearch.hpp:614-623  the outer loop. *)
Fixpoint pc_words (cnt : nat) (i : nat) (st par : w128) : Z * w128 :=
  match cnt with
  | O => (0%Z, st)
  | S c => match pc_bits 32 1 st par i with
           | Some st' => (0%Z, st')
           | None => pc_words c (S i) st par
           end
  end.
(** sfmtsearch.hpp:595-625  periodCertification, as a function of state[0] and
    the parity vector; returns the result and the new state[0]. *)
Definition periodCertification (st par : w128) : Z * w128 :=
  let tmp := w_and st par in
  let c := (Z.of_N (count_bit32 (w32 tmp 0)) + Z.of_N (count_bit32 (w32 tmp 1))
            + Z.of_N (count_bit32 (w32 tmp 2)) + Z.of_N (count_bit32 (w32 tmp 3)))%Z in
  if (Z.land c 1 =? 1)%Z then (1%Z, st)
  else if N.land (w32 par 0) 1 =? 1 then (0%Z, w_put32 st 0 (N.lxor (w32 st 0) 1))
  else pc_words 4 0 st par.

(** dSFMTsearch.hpp:595-602  the inner loop over the bits of parity.u64[i]:
    the new word lung.u64[i]. *)
Fixpoint dc_bits (cnt : nat) (work : N) (word par : N) : option N :=
  match cnt with
  | O => None
  | S c => if negb (N.land work par =? 0) then Some (N.lxor word work)
           else dc_bits c (wshl 64 work 1) word par
  end.
(** samples/dSFMTdc/dSFMTsearch.hpp:570-605  periodCertification of dSFMT, as a
    function of the lung, the parity vector and the fixed point; the loop over
    i = 1, 0 is written out. *)
Definition dsfmt_certification (lung par fix_ : w128) (noFix : bool) : Z * w128 :=
  let tmp := if noFix then w_and lung par else w_and (w_xor lung fix_) par in
  let c := (Z.of_N (count_bit64 (u0 tmp)) + Z.of_N (count_bit64 (u1 tmp)))%Z in
  if (Z.land c 1 =? 1)%Z then (1%Z, lung)
  else if N.land (u1 par) 1 =? 1 then (0%Z, W128 (u0 lung) (N.lxor (u1 lung) 1))
  else match dc_bits 64 1 (u1 lung) (u1 par) with
       | Some y => (0%Z, W128 (u0 lung) y)
       | None => match dc_bits 64 1 (u0 lung) (u0 par) with
                 | Some y => (0%Z, W128 y (u1 lung))
                 | None => (0%Z, lung)
                 end
       end.
