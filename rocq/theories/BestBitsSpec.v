(** What AlgorithmBestBits should do, for an arbitrary cost. *)
From Coq Require Import NArith ZArith List Bool.
Import ListNotations.
Local Open Scope Z_scope.

(** The parameter bits tried together, as (number of the parameter, distance
    below the bit v): row 0 has every parameter at distance 0, row r > 0 has the
    parameters r-1, r, ... at the distance of the last r shifts together.  There
    are size * (size + 1) / 2 of them. *)
Definition cell_row (size : nat) (shifts : list Z) (r : nat) : list (nat * Z) :=
  let dist := fold_right Z.add 0 (firstn r (rev shifts)) in
  map (fun i => (i, dist)) (seq (Nat.pred r) (size - Nat.pred r)).
Definition cells (size : nat) (shifts : list Z) : list (nat * Z) :=
  firstn (size * (size + 1) / 2) (flat_map (cell_row size shifts) (seq 0 size)).

(** The choice number pat gives the k-th cell the k-th bit of pat from the
    top of its size * (size + 1) / 2 bits. *)
Definition choices (size : nat) (shifts : list Z) (pat : N) : list (nat * Z * bool) :=
  map (fun '(k, (i, d)) => (i, d, N.testbit pat (N.of_nat (size * (size + 1) / 2 - 1 - k))))
      (combine (seq 0 (size * (size + 1) / 2)) (cells size shifts)).
(** A choice is of use if no one bit is put where the shift by its own
    parameter leaves the word. *)
Definition useful (W v : N) (shifts : list Z) (l : list (nat * Z * bool)) : bool :=
  forallb (fun '(i, d, b) => negb b || (Z.of_N v + nth i shifts 0 + d <=? Z.of_N W)) l.
(** The bit of the j-th parameter at position pos (from the least significant)
    that a choice prescribes, the last one if there are several.  The least
    significant bit and what is beyond it are never written. *)
Definition prescribed (W v : N) (l : list (nat * Z * bool)) (j : nat) (pos : N) : option bool :=
  match find (fun '(i, d, _) => (i =? j)%nat && (Z.of_N v + d + 1 <? Z.of_N W) &&
                                (Z.of_N W - Z.of_N v - d - 1 =? Z.of_N pos)) (rev l) with
  | Some (_, _, b) => Some b
  | None => None
  end.
Definition follows (W v : N) (l : list (nat * Z * bool)) (para para' : list N) : Prop :=
  length para' = length para /\
  forall j pos, (j < length para)%nat ->
    N.testbit (nth j para' 0%N) pos =
      match prescribed W v l j pos with Some b => b | None => N.testbit (nth j para 0%N) pos end.

(** [extends para cands]: the useful choices in decreasing order, each with the
    parameters it makes from para. *)
Inductive extends (W v : N) (size : nat) (shifts : list Z) (para : list N) : nat -> list (list N) -> Prop :=
| extends_O : extends W v size shifts para 0 []
| extends_skip k l : useful W v shifts (choices size shifts (N.of_nat k)) = false ->
    extends W v size shifts para k l -> extends W v size shifts para (Datatypes.S k) l
| extends_take k l q : useful W v shifts (choices size shifts (N.of_nat k)) = true ->
    follows W v (choices size shifts (N.of_nat k)) para q ->
    extends W v size shifts para k l -> extends W v size shifts para (Datatypes.S k) (q :: l).
(** The candidates made from all parameters kept so far. *)
Inductive extends_all (W v : N) (size : nat) (shifts : list Z) : list (list N) -> list (list N) -> Prop :=
| extends_all_nil : extends_all W v size shifts [] []
| extends_all_cons p r l l' : extends W v size shifts p (2 ^ (size * (size + 1) / 2)) l ->
    extends_all W v size shifts r l' -> extends_all W v size shifts (p :: r) (l ++ l').

(** [kept cost cands best]: the candidates of least cost, in order. *)
Definition kept (cost : list N -> Z) (cands best : list (list N)) : Prop :=
  exists m, (exists c, In c cands /\ cost c = m) /\ (forall c, In c cands -> m <= cost c) /\
    best = filter (fun c => cost c =? m) cands.

(** [searched n l]: l is what the search has kept after the bits 0 ... n-1;
    [cost v] is the defect sum over the first v bits. *)
Inductive searched (W : N) (size : nat) (shifts : list Z) (cost : nat -> list N -> Z) : nat -> list (list N) -> Prop :=
| searched_O : searched W size shifts cost 0 [repeat 0%N size]
| searched_S v l cands l' : searched W size shifts cost v l ->
    extends_all W (N.of_nat v) size shifts l cands ->
    kept (cost (Datatypes.S v)) cands l' ->
    searched W size shifts cost (Datatypes.S v) l'.

(** Installing parameters, one after the other, with the full mask. *)
Definition set_all {S : Type} (set : N -> N -> nat -> S -> S) (W : N) (q : list N) (s : S) : S :=
  fold_left (fun s '(j, x) => set (N.ones W) x j s) (combine (seq 0 (length q)) q) s.
(** What the search relies on: a parameter set with the full mask is
    overwritten by a later one, different parameters do not interfere. *)
Record set_laws {S : Type} (set : N -> N -> nat -> S -> S) (bitSize : S -> Z) (W : N) (size : nat) (legal : S -> Prop) : Prop := {
  sl_legal : forall q i s, (q < 2 ^ W)%N -> (i < size)%nat -> legal s -> legal (set (N.ones W) q i s);
  sl_size : forall q i s, (q < 2 ^ W)%N -> (i < size)%nat -> legal s -> bitSize (set (N.ones W) q i s) = bitSize s;
  sl_same : forall q q' i s, (q < 2 ^ W)%N -> (q' < 2 ^ W)%N -> (i < size)%nat -> legal s ->
    set (N.ones W) q i (set (N.ones W) q' i s) = set (N.ones W) q i s;
  sl_comm : forall q q' i j s, (q < 2 ^ W)%N -> (q' < 2 ^ W)%N -> (i < size)%nat -> (j < size)%nat -> i <> j -> legal s ->
    set (N.ones W) q i (set (N.ones W) q' j s) = set (N.ones W) q' j (set (N.ones W) q i s)
}.
