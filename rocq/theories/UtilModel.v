(** Model of include/MTToolBox/util.hpp (everything that does not involve NTL
    polynomials). *)
From Coq Require Import NArith ZArith List Bool.
From Verif Require Import Base.
Import ListNotations.
Local Open Scope N_scope.

(** util.hpp:399-406  count_bit(uint32_t). *)
Definition count_bit32 (x : N) : N :=
  let x := wsub 32 x (N.land (wshr x 1) 0x55555555) in
  let x := wadd 32 (N.land (wshr x 2) 0x33333333) (N.land x 0x33333333) in
  let x := N.land (wadd 32 (wshr x 4) x) 0x0f0f0f0f in
  let x := wadd 32 x (wshr x 8) in
  let x := wadd 32 x (wshr x 16) in
  N.land x 0x3f.

(** util.hpp:421-430  count_bit(uint64_t). *)
Definition count_bit64 (x : N) : N :=
  let x := wsub 64 x (N.land (wshr x 1) 0x5555555555555555) in
  let x := wadd 64 (N.land (wshr x 2) 0x3333333333333333)
                   (N.land x 0x3333333333333333) in
  let x := N.land (wadd 64 (wshr x 4) x) 0x0f0f0f0f0f0f0f0f in
  let x := wadd 64 x (wshr x 8) in
  let x := wadd 64 x (wshr x 16) in
  let x := wadd 64 x (wshr x 32) in
  N.land x 0x7f.

(** util.hpp:378-384  count_bit(uint16_t).  The operands are promoted to
    [int]; no intermediate value exceeds 2^17, so the only wrap-around is the
    conversion back to uint16_t on assignment. *)
Definition count_bit16 (x : N) : N :=
  let x := wsub 16 x (N.land (wshr x 1) 0x5555) in
  let x := wadd 16 (N.land (wshr x 2) 0x3333) (N.land x 0x3333) in
  let x := trunc 16 (N.land (wshr x 4 + x) 0x0f0f) in
  let x := wadd 16 x (wshr x 8) in
  N.land x 0x1f.

(** util.hpp:454-465  reverse_bit(uint32_t). *)
Definition reverse_bit32 (x : N) : N :=
  let y := 0x55555555 in
  let x := N.lor (N.land (wshr x 1) y) (wshl 32 (N.land x y) 1) in
  let y := 0x33333333 in
  let x := N.lor (N.land (wshr x 2) y) (wshl 32 (N.land x y) 2) in
  let y := 0x0f0f0f0f in
  let x := N.lor (N.land (wshr x 4) y) (wshl 32 (N.land x y) 4) in
  let y := 0x00ff00ff in
  let x := N.lor (N.land (wshr x 8) y) (wshl 32 (N.land x y) 8) in
  N.lor (wshr x 16) (wshl 32 x 16).

(** util.hpp:480-493  reverse_bit(uint64_t). *)
Definition reverse_bit64 (x : N) : N :=
  let y := 0x5555555555555555 in
  let x := N.lor (N.land (wshr x 1) y) (wshl 64 (N.land x y) 1) in
  let y := 0x3333333333333333 in
  let x := N.lor (N.land (wshr x 2) y) (wshl 64 (N.land x y) 2) in
  let y := 0x0f0f0f0f0f0f0f0f in
  let x := N.lor (N.land (wshr x 4) y) (wshl 64 (N.land x y) 4) in
  let y := 0x00ff00ff00ff00ff in
  let x := N.lor (N.land (wshr x 8) y) (wshl 64 (N.land x y) 8) in
  let y := 0x0000ffff0000ffff in
  let x := N.lor (N.land (wshr x 16) y) (wshl 64 (N.land x y) 16) in
  N.lor (wshr x 32) (wshl 64 x 32).

(** Signed negation of a w-bit integer: overflow is undefined behaviour. *)
Definition sneg (w : N) (y : Z) : res Z :=
  if (y =? - 2 ^ (Z.of_N w - 1))%Z then Undef else Ret (- y)%Z.

(** util.hpp:280-288  calc_1pos(uint16_t): the operand of unary minus is
    promoted to [int], so the negation is a 32-bit one. *)
Definition calc_1pos16 (x : N) : res Z :=
  if x =? 0 then Ret (-1)%Z
  else
    let y := to_signed 16 x in
    do ny <- sneg 32 y;
    let c := count_bit16 (of_int 16 (Z.land y ny - 1)) in
    Ret (15 - Z.of_N c)%Z.

(** util.hpp:314-322  calc_1pos(uint32_t). *)
Definition calc_1pos32 (x : N) : res Z :=
  if x =? 0 then Ret (-1)%Z
  else
    let y := to_signed 32 x in
    do ny <- sneg 32 y;
    let c := count_bit32 (wsub 32 (of_int 32 (Z.land y ny)) 1) in
    Ret (31 - Z.of_N c)%Z.

(** util.hpp:348-356  calc_1pos(uint64_t). *)
Definition calc_1pos64 (x : N) : res Z :=
  if x =? 0 then Ret (-1)%Z
  else
    let y := to_signed 64 x in
    do ny <- sneg 64 y;
    let c := count_bit64 (wsub 64 (of_int 64 (Z.land y ny)) 1) in
    Ret (63 - Z.of_N c)%Z.

(** The same two functions on an implementation where signed negation wraps
    (gcc -fwrapv, or the code every usual compiler emits here). *)
Definition calc_1pos32_wrap (x : N) : Z :=
  if x =? 0 then (-1)%Z
  else
    let y := to_signed 32 x in
    let ny := to_signed 32 (of_int 32 (- y)) in
    (31 - Z.of_N (count_bit32 (wsub 32 (of_int 32 (Z.land y ny)) 1)))%Z.
Definition calc_1pos64_wrap (x : N) : Z :=
  if x =? 0 then (-1)%Z
  else
    let y := to_signed 64 x in
    let ny := to_signed 64 (of_int 64 (- y)) in
    (63 - Z.of_N (count_bit64 (wsub 64 (of_int 64 (Z.land y ny)) 1)))%Z.

(** util.hpp:98-105  floor2p.  Unbounded recursion: fuel = number of
    recursive calls allowed.  [n] is non-negative (the toolbox calls it on
    positive ints); for n = 0 the C++ recursion never ends. *)
Fixpoint floor2p (fuel : nat) (n : N) : res N :=
  match fuel with
  | O => NoFuel
  | S f => if n =? 1 then Ret 1
           else do r <- floor2p f (n / 2); Ret (2 * r)
  end.

(** util.hpp:169-178  get_range<T>(input, start, end), T an unsigned type at
    least as wide as int.  [end - start + 1] is computed in [int]. *)
Definition get_range (input : N) (start end_ : Z) : res Z :=
  if (end_ <? start)%Z then Exit
  else
    let d := (end_ - start)%Z in
    if negb (int_ok d) then Undef
    else if negb (int_ok (d + 1)) then Undef
    else
      let m := of_int 32 (d + 1) in
      if m =? 0 then Undef (* division by zero *)
      else
        let r := to_signed 32 (trunc 32 (input mod m)) in
        let s := (r + start)%Z in
        if int_ok s then Ret s else Undef.

(** util.hpp:197-206  fill_table.  Arrays are lists; reading or writing
    outside a list is [Undef].  [j] is an int: doubling it past 2^30 is
    undefined. *)
Definition upd {A : Type} (l : list A) (i : nat) (x : A) : list A :=
  firstn i l ++ x :: skipn (S i) l.

Fixpoint fill_inner (fuel : nat) (dist src : list N) (i j k : N)
  : res (list N) :=
  match fuel with
  | O => NoFuel
  | S f =>
      if j <=? i then
        do dist' <-
          (if negb (N.land i j =? 0) then
             match nth_error dist (N.to_nat i), nth_error src (N.to_nat k) with
             | Some d, Some s => Ret (upd dist (N.to_nat i) (N.lxor d s))
             | _, _ => Undef
             end
           else Ret dist);
        if 2 ^ 30 <=? j then Undef
        else fill_inner f dist' src i (2 * j) (k + 1)
      else Ret dist
  end.

Fixpoint fill_outer (cnt : nat) (dist src : list N) (i : N) : res (list N) :=
  match cnt with
  | O => Ret dist
  | S c => do d <- fill_inner 33 dist src i 1 0; fill_outer c d src (i + 1)
  end.

Definition fill_table (dist src : list N) (size : N) : res (list N) :=
  fill_outer (N.to_nat (size - 1)) dist src 1.

(** util.hpp:609-612  getBitOfPos, shift count in range or undefined. *)
Definition getBitOfPos (w : N) (bits : N) (pos : Z) : res N :=
  if ((0 <=? pos) && (pos <? Z.of_N w))%Z
  then Ret (N.land (wshr bits (Z.to_N pos)) 1) else Undef.

(** util.hpp:632-638  setBitOfPos (b is an unsigned int). *)
Definition setBitOfPos (w : N) (bits : N) (pos : Z) (b : N) : res N :=
  if ((0 <=? pos) && (pos <? Z.of_N w))%Z then
    let p := Z.to_N pos in
    let b := N.land b 1 in
    let mask := wnot w (wshl w 1 p) in
    Ret (N.lor (N.land bits mask) (wshl w b p))
  else Undef.

(** util.hpp:536-550  toGF2Vec: most significant bit first. *)
Fixpoint toGF2Vec_loop (cnt : nat) (value mask : N) : list bool :=
  match cnt with
  | O => []
  | S c => negb (N.land value mask =? 0) :: toGF2Vec_loop c value (wshr mask 1)
  end.
Definition toGF2Vec (w : N) (value : N) : list bool :=
  toGF2Vec_loop (N.to_nat w) value (wshl w 1 (w - 1)).

(** util.hpp:655-673  fromGF2Vec.  The loop body recomputes the mask for the
    next position also in the last iteration, where pos is -1. *)
Fixpoint fromGF2Vec_loop (w : N) (value : list bool) (cnt : nat) (pos : Z)
         (mask result : N) : res N :=
  match cnt with
  | O => Ret result
  | S c =>
      match value with
      | [] => Undef (* value[i] out of range *)
      | b :: value' =>
          let result' := if b then N.lor result mask else result in
          let pos' := (pos - 1)%Z in
          do mask' <- setBitOfPos w 0 pos' 1;
          fromGF2Vec_loop w value' c pos' mask' result'
      end
  end.
Definition fromGF2Vec (w : N) (value : list bool) : res N :=
  let pos := (Z.of_N w - 1)%Z in
  do mask <- setBitOfPos w 0 pos 1;
  fromGF2Vec_loop w value (N.to_nat w) pos mask 0.

(** fromGF2Vec on an implementation where the out-of-range shift yields the
    value [junk] instead of undefined behaviour. *)
Definition setBitOfPos_junk (junk w : N) (bits : N) (pos : Z) (b : N) : N :=
  match setBitOfPos w bits pos b with Ret v => v | _ => junk end.
Fixpoint fromGF2Vec_junk_loop (junk w : N) (value : list bool) (cnt : nat)
         (pos : Z) (mask result : N) : res N :=
  match cnt with
  | O => Ret result
  | S c =>
      match value with
      | [] => Undef
      | b :: value' =>
          let result' := if b then N.lor result mask else result in
          let pos' := (pos - 1)%Z in
          fromGF2Vec_junk_loop junk w value' c pos'
            (setBitOfPos_junk junk w 0 pos' 1) result'
      end
  end.
Definition fromGF2Vec_junk (junk w : N) (value : list bool) : res N :=
  let pos := (Z.of_N w - 1)%Z in
  fromGF2Vec_junk_loop junk w value (N.to_nat w) pos
    (setBitOfPos_junk junk w 0 pos 1) 0.
