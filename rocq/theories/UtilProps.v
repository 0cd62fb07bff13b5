(** Property theorems C01-C08 (util.hpp). *)
From Coq Require Import NArith ZArith List Bool Lia.
From Verif Require Import Base UtilModel UtilSpec UtilProofs UtilProofs2 UtilProofs3.
Import ListNotations.
Local Open Scope N_scope.

(** * C01 *)
Theorem C01_count_bit16 : forall x : N, x < 2 ^ 16 -> count_bit16 x = N.of_nat (popcount 16 x).
Proof. exact count_bit16_ok. Qed.
Theorem C01_count_bit32 : forall x : N, x < 2 ^ 32 -> count_bit32 x = N.of_nat (popcount 32 x).
Proof. exact count_bit32_ok. Qed.
Theorem C01_count_bit64 : forall x : N, x < 2 ^ 64 -> count_bit64 x = N.of_nat (popcount 64 x).
Proof. exact count_bit64_ok. Qed.
Example C01_ex : popcount 32 0x80000001 = 2%nat /\ count_bit32 0x80000001 = 2
  /\ count_bit64 (2 ^ 64 - 1) = 64 /\ count_bit16 0xffff = 16.
Proof. repeat split. Qed.
Print Assumptions C01_count_bit16.
Print Assumptions C01_count_bit32.
Print Assumptions C01_count_bit64.

(** * C02 *)
Theorem C02_reverse_bit32 : forall x : N, x < 2 ^ 32 ->
  reverse_bit32 x < 2 ^ 32 /\
  (forall i, i < 32 -> N.testbit (reverse_bit32 x) i = N.testbit x (31 - i)) /\
  reverse_bit32 (reverse_bit32 x) = x.
Proof. exact reverse_bit32_all. Qed.
Theorem C02_reverse_bit64 : forall x : N, x < 2 ^ 64 ->
  reverse_bit64 x < 2 ^ 64 /\
  (forall i, i < 64 -> N.testbit (reverse_bit64 x) i = N.testbit x (63 - i)) /\
  reverse_bit64 (reverse_bit64 x) = x.
Proof. exact reverse_bit64_all. Qed.
Example C02_ex : reverse_bit32 0x00000003 = 0xc0000000 /\ reverse_bit64 2 = 2 ^ 62.
Proof. split; vm_compute; reflexivity. Qed.
Print Assumptions C02_reverse_bit32.
Print Assumptions C02_reverse_bit64.

(** * C03 *)
Theorem C03_calc_1pos16 : forall x : N, x < 2 ^ 16 ->
  exists p, calc_1pos16 x = Ret p /\
    (x = 0 -> p = (-1)%Z) /\ (x <> 0 -> lowest_one_from_msb 16 x p).
Proof. exact calc_1pos16_all. Qed.
(** Full statement for 32 and 64 bits: the same with [calc_1pos32] and
    [calc_1pos64] for every word.  It is false: the word with only the top bit
    set makes the code negate INT_MIN. *)
Theorem C03_calc_1pos32_refuted : exists x, x < 2 ^ 32 /\ x <> 0 /\ calc_1pos32 x = Undef.
Proof. exact calc_1pos32_undef. Qed.
Theorem C03_calc_1pos64_refuted : exists x, x < 2 ^ 64 /\ x <> 0 /\ calc_1pos64 x = Undef.
Proof. exact calc_1pos64_undef. Qed.
(** What remains: every word except that one. *)
Theorem C03_calc_1pos32_partial : forall x : N, x < 2 ^ 32 -> x <> 2 ^ 31 ->
  exists p, calc_1pos32 x = Ret p /\
    (x = 0 -> p = (-1)%Z) /\ (x <> 0 -> lowest_one_from_msb 32 x p).
Proof. exact calc_1pos32_all. Qed.
Theorem C03_calc_1pos64_partial : forall x : N, x < 2 ^ 64 -> x <> 2 ^ 63 ->
  exists p, calc_1pos64 x = Ret p /\
    (x = 0 -> p = (-1)%Z) /\ (x <> 0 -> lowest_one_from_msb 64 x p).
Proof. exact calc_1pos64_all. Qed.
(** With wrapping negation (what compilers generate) there is no exception. *)
Theorem C03_calc_1pos32_wrapping : forall x : N, x < 2 ^ 32 ->
  (x = 0 -> calc_1pos32_wrap x = (-1)%Z) /\
  (x <> 0 -> lowest_one_from_msb 32 x (calc_1pos32_wrap x)).
Proof. exact calc_1pos32_wrap_all. Qed.
Theorem C03_calc_1pos64_wrapping : forall x : N, x < 2 ^ 64 ->
  (x = 0 -> calc_1pos64_wrap x = (-1)%Z) /\
  (x <> 0 -> lowest_one_from_msb 64 x (calc_1pos64_wrap x)).
Proof. exact calc_1pos64_wrap_all. Qed.
(** The specified position is unique. *)
Theorem C03_position_unique : forall (w x : N) (p q : Z),
  lowest_one_from_msb w x p -> lowest_one_from_msb w x q -> p = q.
Proof. exact lowest_one_unique. Qed.
Example C03_ex : calc_1pos32 0x40000000 = Ret 1%Z /\ calc_1pos16 0x8000 = Ret 0%Z
  /\ calc_1pos64 12 = Ret 61%Z /\ calc_1pos32_wrap 0x80000000 = 0%Z.
Proof. repeat split. Qed.
Print Assumptions C03_calc_1pos16.
Print Assumptions C03_calc_1pos32_refuted.
Print Assumptions C03_calc_1pos64_refuted.
Print Assumptions C03_calc_1pos32_partial.
Print Assumptions C03_calc_1pos64_partial.
Print Assumptions C03_calc_1pos32_wrapping.
Print Assumptions C03_calc_1pos64_wrapping.
Print Assumptions C03_position_unique.

(** * C04 *)
Theorem C04_floor2p : forall n : N, 1 <= n ->
  exists fuel k, forall fuel', (fuel <= fuel')%nat ->
    floor2p fuel' n = Ret (2 ^ k) /\ 2 ^ k <= n /\ n < 2 * 2 ^ k.
Proof. exact floor2p_ok. Qed.
Theorem C04_floor2p_zero : forall fuel : nat, floor2p fuel 0 = NoFuel.
Proof. exact floor2p_zero_diverges. Qed.
Example C04_ex : floor2p 10 100 = Ret 64 /\ floor2p 10 64 = Ret 64.
Proof. split; reflexivity. Qed.
Print Assumptions C04_floor2p.
Print Assumptions C04_floor2p_zero.

(** * C05 *)
Theorem C05_get_range : forall (start end_ : Z),
  int_ok start = true -> int_ok end_ = true -> (start <= end_)%Z ->
  (end_ - start + 1 < 2 ^ 31)%Z ->
  (forall input, exists r, get_range input start end_ = Ret r /\ (start <= r <= end_)%Z) /\
  (forall r, (start <= r <= end_)%Z ->
     exists input, input < 2 ^ 31 /\ get_range input start end_ = Ret r) /\
  (forall input r, get_range input start end_ = Ret r ->
     get_range (input + 1) start end_ = Ret (if (r =? end_)%Z then start else r + 1)%Z).
Proof. exact get_range_all. Qed.
Theorem C05_get_range_exit : forall (input : N) (start end_ : Z), (end_ < start)%Z ->
  get_range input start end_ = Exit.
Proof. exact get_range_exit. Qed.
(** Outside the stated condition the computation overflows. *)
Theorem C05_get_range_overflow : forall (input : N) (start end_ : Z),
  int_ok start = true -> int_ok end_ = true -> (start <= end_)%Z ->
  (2 ^ 31 <= end_ - start + 1)%Z -> get_range input start end_ = Undef.
Proof. exact get_range_overflow. Qed.
Example C05_ex : get_range 17 (-3) 5 = Ret 5%Z /\ get_range 18 (-3) 5 = Ret (-3)%Z
  /\ get_range 7 5 4 = Exit /\ get_range 7 (-1) (2 ^ 31 - 1) = Undef.
Proof. repeat split. Qed.
Print Assumptions C05_get_range.
Print Assumptions C05_get_range_exit.
Print Assumptions C05_get_range_overflow.

(** * C06 *)
Theorem C06_fill_table : forall (dist src : list N) (size : N),
  1 <= size -> size <= 2 ^ 30 -> (N.to_nat size <= length dist)%nat ->
  (forall k, 2 ^ k < size -> (N.to_nat k < length src)%nat) ->
  exists dist', fill_table dist src size = Ret dist' /\
    length dist' = length dist /\
    forall j d, nth_error dist j = Some d ->
      nth_error dist' j =
        Some (if N.of_nat j <? size then N.lxor d (select_xor (N.of_nat j) src 0) else d).
Proof. exact fill_table_ok. Qed.
(** On a zeroed table the result is the linear table. *)
Theorem C06_fill_table_linear : forall (dist src : list N) (size : N),
  1 <= size -> size <= 2 ^ 30 -> N.to_nat size = length dist ->
  (forall k, 2 ^ k < size -> (N.to_nat k < length src)%nat) ->
  (forall d, In d dist -> d = 0) ->
  exists dist', fill_table dist src size = Ret dist' /\
    nth_error dist' 0 = Some 0 /\
    (forall k s, nth_error src k = Some s -> 2 ^ N.of_nat k < size ->
       nth_error dist' (N.to_nat (2 ^ N.of_nat k)) = Some s) /\
    (forall i j a b, N.lxor i j < size ->
       nth_error dist' (N.to_nat i) = Some a -> nth_error dist' (N.to_nat j) = Some b ->
       nth_error dist' (N.to_nat (N.lxor i j)) = Some (N.lxor a b)).
Proof. exact fill_table_linear. Qed.
Example C06_ex :
  fill_table (repeat 0 8) [1; 0x10; 0x101] 8
  = Ret [0; 1; 0x10; 0x11; 0x101; 0x100; 0x111; 0x110].
Proof. vm_compute. reflexivity. Qed.
Print Assumptions C06_fill_table.
Print Assumptions C06_fill_table_linear.

(** * C07 *)
Theorem C07_toGF2Vec : forall (w value : N) (i : nat), (i < N.to_nat w)%nat ->
  length (toGF2Vec w value) = N.to_nat w /\
  nth_error (toGF2Vec w value) i = Some (N.testbit value (w - 1 - N.of_nat i)).
Proof. exact toGF2Vec_all. Qed.
(** Full statement: for every x, [fromGF2Vec w (toGF2Vec w x) = Ret x].  It is
    false: the last iteration shifts by -1. *)
Theorem C07_round_trip_refuted : exists w x : N,
  0 < w /\ x < 2 ^ w /\ fromGF2Vec w (toGF2Vec w x) = Undef.
Proof. exact from_to_GF2Vec_undef. Qed.
Theorem C07_fromGF2Vec_always_undef : forall (w : N) (v : list bool),
  0 < w -> length v = N.to_nat w -> fromGF2Vec w v = Undef.
Proof. exact fromGF2Vec_undef. Qed.
(** What remains: whatever value the stray shift produces, the conversions
    are inverse to each other. *)
Theorem C07_from_to_partial : forall (junk w x : N), 0 < w -> x < 2 ^ w ->
  fromGF2Vec_junk junk w (toGF2Vec w x) = Ret x.
Proof. exact from_to_GF2Vec. Qed.
Theorem C07_to_from_partial : forall (junk w : N) (v : list bool), 0 < w -> length v = N.to_nat w ->
  exists x, fromGF2Vec_junk junk w v = Ret x /\ x < 2 ^ w /\ toGF2Vec w x = v.
Proof. exact to_from_GF2Vec. Qed.
Example C07_ex : toGF2Vec 8 0xa1 = [true; false; true; false; false; false; false; true]
  /\ fromGF2Vec_junk 77 8 (toGF2Vec 8 0xa1) = Ret 0xa1 /\ fromGF2Vec 8 (toGF2Vec 8 0xa1) = Undef.
Proof. repeat split. Qed.
Print Assumptions C07_toGF2Vec.
Print Assumptions C07_round_trip_refuted.
Print Assumptions C07_fromGF2Vec_always_undef.
Print Assumptions C07_from_to_partial.
Print Assumptions C07_to_from_partial.

(** * C08 *)
Theorem C08_getBitOfPos : forall w x p : N, p < w ->
  getBitOfPos w x (Z.of_N p) = Ret (N.b2n (N.testbit x p)).
Proof. exact getBitOfPos_ok. Qed.
Theorem C08_setBitOfPos : forall w x p b : N, p < w -> x < 2 ^ w ->
  exists y, setBitOfPos w x (Z.of_N p) b = Ret y /\ y < 2 ^ w /\
    getBitOfPos w y (Z.of_N p) = Ret (b mod 2) /\
    forall i, i <> p -> i < w -> getBitOfPos w y (Z.of_N i) = getBitOfPos w x (Z.of_N i).
Proof. exact setBitOfPos_get. Qed.
Example C08_ex : setBitOfPos 16 0xf0f0 3 1 = Ret 0xf0f8 /\ setBitOfPos 16 0xf0f8 3 2 = Ret 0xf0f0
  /\ getBitOfPos 16 0xf0f8 3 = Ret 1.
Proof. repeat split. Qed.
Print Assumptions C08_getBitOfPos.
Print Assumptions C08_setBitOfPos.
