(** Specification of MT19937 and MT19937-64, independent of the model: plain
    sequences [nat -> N], numbers instead of buffers. *)
From Coq Require Import Arith NArith List Bool.
Import ListNotations.
Local Open Scope N_scope.

Record ref_params := mkRef {
  r_w : N;       (* word size in bits *)
  r_n : nat;     (* degree of the recurrence *)
  r_m : nat;     (* middle word *)
  r_a : N;       (* coefficients of the twist matrix *)
  r_sh : N;      (* seeding shift *)
  r_f : N; r_c1 : N; r_c2 : N   (* seeding multipliers *)
}.

(** Matsumoto & Nishimura 1998, mt19937ar.c. *)
Definition ref32 : ref_params :=
  mkRef 32 624 397 0x9908b0df 30 1812433253 1664525 1566083941.
(** Nishimura 2000, mt19937-64.c. *)
Definition ref64 : ref_params :=
  mkRef 64 312 156 0xb5026f5aa96619e9 62
        6364136223846793005 3935559000370003845 2862933555777941757.

Section Ref.
Variable R : ref_params.
Notation w := (r_w R).
Notation n := (r_n R).

(** The recurrence: the upper w-31 bits of [a] joined with the lower 31 bits
    of [b], times the twist matrix. *)
Definition join (a b : N) : N := a / 2 ^ 31 * 2 ^ 31 + b mod 2 ^ 31.
Definition twist (u : N) : N := N.lxor (u / 2) (if N.odd u then r_a R else 0).

Definition mt_recurrence (x : nat -> N) : Prop :=
  forall k : nat,
    x (k + n)%nat = N.lxor (x (k + r_m R)%nat) (twist (join (x k) (x (S k)))).

(** The sequence that starts with [init] and follows the recurrence; [xlist t]
    is x_{t-1}, ..., x_0. *)
Definition xval (init : nat -> N) (t : nat) (l : list N) : N :=
  if Nat.ltb t n then init t
  else N.lxor (nth (n - r_m R - 1) l 0)
              (twist (join (nth (n - 1) l 0) (nth (n - 2) l 0))).
Fixpoint xlist (init : nat -> N) (t : nat) : list N :=
  match t with
  | O => []
  | S u => let l := xlist init u in xval init u l :: l
  end.
Definition mt_stream (init : nat -> N) (t : nat) : N := xval init t (xlist init t).

(** * Seeding *)
Definition scr (x : N) : N := N.lxor x (x / 2 ^ r_sh R).

(** init_genrand. *)
Fixpoint genrand (s : N) (i : nat) : N :=
  match i with
  | O => s mod 2 ^ w
  | S j => (r_f R * scr (genrand s j) + N.of_nat i) mod 2 ^ w
  end.

(** init_by_array.  The two loops walk cyclically over the words 1..n-1; the
    word written at time t is z_t.  It depends on the word written just
    before (z_{t-1}) and on the word that was there (z_{t-(n-1)}, in the first
    round the word of init_genrand(19650218)). *)
Definition cyc : nat := (n - 1)%nat.
Definition rounds (key : list N) : nat := Nat.max n (length key).
Definition zfun (key : list N) (t : nat) (prev old : N) : N :=
  if Nat.ltb t (rounds key) then
    let j := (t mod length key)%nat in
    (N.lxor old ((scr prev * r_c1 R) mod 2 ^ w) + nth j key 0 + N.of_nat j) mod 2 ^ w
  else
    (N.lxor old ((scr prev * r_c2 R) mod 2 ^ w)
     + (2 ^ w - N.of_nat (t mod cyc + 1)%nat mod 2 ^ w)) mod 2 ^ w.

Definition zprev (z : nat -> N) (t : nat) : N :=
  match t with O => genrand 19650218 0 | S u => z u end.
Definition zold (z : nat -> N) (t : nat) : N :=
  if Nat.ltb t cyc then genrand 19650218 (S t) else z (t - cyc)%nat.
Definition array_chain (key : list N) (z : nat -> N) : Prop :=
  forall t, z t = zfun key t (zprev z t) (zold z t).

Definition zval (key : list N) (t : nat) (l : list N) : N :=
  zfun key t (hd (genrand 19650218 0) l) (nth (cyc - 1) l (genrand 19650218 (S t))).
Fixpoint zlist (key : list N) (t : nat) : list N :=
  match t with
  | O => []
  | S u => let l := zlist key u in zval key u l :: l
  end.
Definition zseq (key : list N) (t : nat) : N := zval key t (zlist key t).

(** The state after init_by_array: word 0 has only its top bit set, word p is
    the last value written there. *)
Definition last_time (key : list N) (q : nat) : nat :=
  let K := rounds key in (K + (q + (cyc - K mod cyc)) mod cyc)%nat.
Definition by_array (key : list N) (p : nat) : N :=
  match p with
  | O => 2 ^ (w - 1)
  | S q => zseq key (last_time key q)
  end.

(** A string as a key: its characters as signed bytes. *)
Definition byte_word (c : N) : N := if c <? 128 then c else 2 ^ w - 256 + c.
Definition string_key (s : list N) : list N :=
  match s with [] => [0] | _ => map byte_word s end.
End Ref.

(** * Tempering *)
Definition ref_temper32 (y : N) : N :=
  let y := N.lxor y (y / 2 ^ 11) in
  let y := N.lxor y (N.land ((y * 2 ^ 7) mod 2 ^ 32) 0x9d2c5680) in
  let y := N.lxor y (N.land ((y * 2 ^ 15) mod 2 ^ 32) 0xefc60000) in
  N.lxor y (y / 2 ^ 18).
Definition ref_temper64 (y : N) : N :=
  let y := N.lxor y (N.land (y / 2 ^ 29) 0x5555555555555555) in
  let y := N.lxor y (N.land ((y * 2 ^ 17) mod 2 ^ 64) 0x71d67fffeda60000) in
  let y := N.lxor y (N.land ((y * 2 ^ 37) mod 2 ^ 64) 0xfff7eee000000000) in
  N.lxor y (y / 2 ^ 43).

(** * Objects as seen by a client *)
Inductive mt_op : Type :=
| MSeed (v : N)             (* seed(v) *)
| MSeedArray (key : list N) (* seed_array / seed(array, length) *)
| MSeedString (s : list N)  (* seed(string) *)
| MGen32                    (* getUint32 *)
| MGen64.                   (* getUint64 *)

Definition mt_op_ok (w : N) (o : mt_op) : Prop :=
  match o with
  | MSeed v => True
  | MSeedArray key => key <> [] /\ Forall (fun k => k < 2 ^ w) key
  | MSeedString s => Forall (fun c => c < 256) s
  | _ => True
  end.

(** State of the specified object: the current sequence and the number of
    words already used. *)
Definition mt_spec_state : Type := (nat -> N) * nat.

Section Client.
Variable R : ref_params.
Variable temper : N -> N.
(** How the two getters use up the outputs: given the position, the value and
    the number of words used. *)
Variable gen32 gen64 : (nat -> N) -> nat -> N * nat.

Definition out (x : nat -> N) (k : nat) : N := temper (x (r_n R + k)%nat).

Definition mt_spec_step (st : mt_spec_state) (o : mt_op) : option N * mt_spec_state :=
  match o with
  | MSeed v => (None, (mt_stream R (genrand R v), O))
  | MSeedArray key => (None, (mt_stream R (by_array R key), O))
  | MSeedString s => (None, (mt_stream R (by_array R (string_key R s)), O))
  | MGen32 => let '(v, u) := gen32 (out (fst st)) (snd st) in
              (Some v, (fst st, (snd st + u)%nat))
  | MGen64 => let '(v, u) := gen64 (out (fst st)) (snd st) in
              (Some v, (fst st, (snd st + u)%nat))
  end.

Fixpoint mt_spec_run (st : mt_spec_state) (ops : list mt_op) : list (option N) :=
  match ops with
  | [] => []
  | o :: ops' => let '(e, st') := mt_spec_step st o in e :: mt_spec_run st' ops'
  end.
End Client.

(** MT19937: one word per 32-bit value; two words, first one high, per 64-bit
    value. *)
Definition spec32_run : mt_spec_state -> list mt_op -> list (option N) :=
  mt_spec_run ref32 ref_temper32
    (fun o k => (o k, 1%nat))
    (fun o k => (o k * 2 ^ 32 + o (S k), 2%nat)).
(** MT19937-64: one word per value; the 32-bit value is the high half. *)
Definition spec64_run : mt_spec_state -> list mt_op -> list (option N) :=
  mt_spec_run ref64 ref_temper64
    (fun o k => (o k / 2 ^ 32, 1%nat))
    (fun o k => (o k, 1%nat)).

(** The words x_0, ..., x_{n-1} that a seeding operation asks for. *)
Definition seed_words (R : ref_params) (o : mt_op) : nat -> N :=
  match o with
  | MSeed v => genrand R v
  | MSeedArray key => by_array R key
  | MSeedString s => by_array R (string_key R s)
  | _ => fun _ => 0
  end.

(** Number of words that a sequence of getter calls uses up. *)
Fixpoint words_used (per64 : nat) (ops : list mt_op) : nat :=
  match ops with
  | [] => O
  | MGen64 :: r => (per64 + words_used per64 r)%nat
  | _ :: r => S (words_used per64 r)
  end.
Definition is_getter (o : mt_op) : Prop := o = MGen32 \/ o = MGen64.

(** * Bijections of words and the state space *)
Definition bij (w : N) (f : N -> N) : Prop :=
  (forall a, a < 2 ^ w -> f a < 2 ^ w) /\
  (forall a b, a < 2 ^ w -> b < 2 ^ w -> f a = f b -> a = b) /\
  (forall y, y < 2 ^ w -> exists x, x < 2 ^ w /\ f x = y).

Section State.
Variable R : ref_params.
Notation w := (r_w R).
Notation n := (r_n R).
(** Two generators are in the same state: the upper w-31 bits of the oldest
    word and the n-1 following words agree. *)
Definition same_state (x : nat -> N) (k : nat) (y : nat -> N) (l : nat) : Prop :=
  x k / 2 ^ 31 = y l / 2 ^ 31 /\
  (forall i, (1 <= i < n)%nat -> x (k + i)%nat = y (l + i)%nat).
Definition words (x : nat -> N) : Prop := forall t, x t < 2 ^ w.
Definition zero_seq : nat -> N := fun _ => 0.
(** The state is not the zero state (which the recurrence never leaves). *)
Definition nonzero_at (x : nat -> N) (k : nat) : Prop := ~ same_state x k zero_seq 0.
End State.
