(** What the tempering searches should do, for an arbitrary cost. *)
From Coq Require Import NArith ZArith List Bool.
From Verif Require Import UtilSpec.
Import ListNotations.

(** A window of bits: [size] bits from position [lo] (from the least
    significant).  The window of the search from the top begins [p] bits below
    the top, that of the search from the bottom at bit p. *)
Definition window_lo (W : N) (lsb : bool) (p size : nat) : N :=
  if lsb then N.of_nat p else (W - N.of_nat p - N.of_nat size)%N.
(** The words with ones in the window only. *)
Definition in_window (lo : N) (size : nat) (q : N) : Prop :=
  forall j, N.testbit q j = true -> (lo <= j < lo + N.of_nat size)%N.
(** The mask of the window. *)
Definition window_mask (lo : N) (size : nat) (mask : N) : Prop :=
  forall j, N.testbit mask j = true <-> (lo <= j < lo + N.of_nat size)%N.

(** [q] costs least among the words of the window; of those it has most one
    bits, and of those it is the largest. *)
Definition best_pattern (W : nat) (cost : N -> Z) (lo : N) (size : nat) (q : N) : Prop :=
  in_window lo size q /\
  forall q', in_window lo size q' ->
    (cost q < cost q')%Z \/
    cost q = cost q' /\ ((popcount W q' < popcount W q)%nat \/
                         popcount W q' = popcount W q /\ (q' <= q)%N).

(** The windows, as (start, size), that a search of [n] bits in steps of
    [step] bits goes through. *)
Definition window_list (n step : nat) : list (nat * nat) :=
  map (fun k => (k * step, Nat.min step (n - k * step))%nat) (seq 0 ((n + step - 1) / step)).

(** The steps of the whole search: every window for every parameter. *)
Definition step_list (n step param_num : nat) : list (nat * nat * nat) :=
  flat_map (fun '(p, size) => map (fun i => (p, size, i)) (seq 0 param_num)) (window_list n step).
(** [tempered steps s s']: going through the steps, each time a best pattern
    is put into the window; [make mask q i s] is the generator s with the
    pattern q in the bits [mask] of the parameter i. *)
Inductive tempered {S : Type} (make : N -> N -> nat -> S -> S) (cost : S -> Z) (W : N) (lsb : bool)
  : list (nat * nat * nat) -> S -> S -> Prop :=
| tempered_nil s : tempered make cost W lsb [] s s
| tempered_cons p size i mask q r s s' :
    window_mask (window_lo W lsb p size) size mask -> (mask < 2 ^ W)%N ->
    best_pattern (N.to_nat W) (fun q => cost (make mask q i s)) (window_lo W lsb p size) size q ->
    tempered make cost W lsb r (make mask q i s) s' ->
    tempered make cost W lsb ((p, size, i) :: r) s s'.

(** What the searches rely on: [make mask q i s] stays within the legal states,
    overwrites what was put into the same window before and does not change
    the dimension; the defect of every legal state exists and is at most
    dimension times word size. *)
Record temper_laws {S : Type} (make : N -> N -> nat -> S -> S) (bitSize : S -> Z) (cost : S -> Z)
  (W : N) (param_num : nat) (legal : S -> Prop) : Prop := {
  tl_legal : forall m q i s, (m < 2 ^ W)%N -> legal s -> (i < param_num)%nat -> legal (make m q i s);
  tl_over : forall m q q' i s, (m < 2 ^ W)%N -> legal s -> (i < param_num)%nat -> make m q i (make m q' i s) = make m q i s;
  tl_size : forall m q i s, (m < 2 ^ W)%N -> legal s -> (i < param_num)%nat -> bitSize (make m q i s) = bitSize s;
  tl_cost : forall s, legal s -> (cost s <= bitSize s * Z.of_N W)%Z
}.
(** [view s i] is the parameter i of s: [make] writes the bits of the mask, and
    writing the bits that are there has no effect on the defect. *)
Record temper_view {S : Type} (make : N -> N -> nat -> S -> S) (cost : S -> Z)
  (W : N) (param_num : nat) (legal : S -> Prop) (view : S -> nat -> N) : Prop := {
  tv_bits : forall m q i s j, (m < 2 ^ W)%N -> legal s -> (i < param_num)%nat ->
    view (make m q i s) j = if (i =? j)%nat then N.lor (N.ldiff (view s j) m) (N.land q m) else view s j;
  tv_same : forall m i s, (m < 2 ^ W)%N -> legal s -> (i < param_num)%nat -> cost (make m (N.land (view s i) m) i s) = cost s
}.
