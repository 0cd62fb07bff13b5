(** Squarings modulo 2^p - 1 on lists of 24-bit limbs (machine integers), used
    to run the Lucas-Lehmer test inside the proofs; not part of the modelled
    program. *)
From Coq Require Import ZArith List Bool Uint63 Lia.
Import ListNotations.
Local Open Scope Z_scope.

Fixpoint lval (l : list int) : Z :=
  match l with [] => 0 | x :: r => to_Z x + 2 ^ 24 * lval r end.

(** acc + a * l without carries *)
Fixpoint addmul (a : int) (l acc : list int) : list int :=
  match l with
  | [] => acc
  | x :: l' =>
    match acc with
    | [] => (a * x)%uint63 :: addmul a l' []
    | y :: acc' => (y + a * x)%uint63 :: addmul a l' acc'
    end
  end.
(** The square: (a + B r)^2 = a^2 + 2 a B r + B^2 r^2. *)
Fixpoint sqr (l : list int) : list int :=
  match l with
  | [] => []
  | a :: r => (a * a)%uint63 :: match r with [] => [] | _ => addmul (a + a)%uint63 r (0%uint63 :: sqr r) end
  end.
Fixpoint carry (c : int) (l : list int) : list int :=
  match l with
  | [] => [c land 0xffffff; (c >> 24) land 0xffffff; (c >> 48)]%uint63
  | x :: r => let t := (x + c)%uint63 in (t land 0xffffff)%uint63 :: carry (t >> 24)%uint63 r
  end.
(** 2^(24 k) = 2^r modulo 2^p - 1; [c] is 2^r. *)
Definition fold (k : nat) (c : int) (l : list int) : list int :=
  addmul c (skipn k l) (firstn k l).
Definition small (b : int) (l : list int) : bool := forallb (fun x => (x <=? b)%uint63) l.
(** One squaring plus the constant [sub]. *)
Definition step (k : nat) (c : int) (sub l : list int) : option (list int) :=
  if small 0x2000000%uint63 l && Nat.leb (length l) 512 then
    let x := carry 0 (addmul 1 sub (sqr l)) in
    let x := carry 0 (fold k c x) in
    let x := carry 0 (fold k c x) in
    Some (fold k c x)
  else None.
Fixpoint steps (n k : nat) (c : int) (sub l : list int) : option (list int) :=
  match n with
  | O => Some l
  | S m => match steps m k c sub l with Some x => step k c sub x | None => None end
  end.
(** The limbs of z, [n] of them. *)
Fixpoint limbs (n : nat) (z : Z) : list int :=
  match n with O => [] | S m => of_Z (z mod 2 ^ 24) :: limbs m (z / 2 ^ 24) end.

(** Parameters for the exponent p. *)
Definition nlimbs (p : Z) : Z := (p + 23) / 24.
Definition topc (p : Z) : int := of_Z (2 ^ (24 * nlimbs p - p)).
Definition run (p : Z) (n : nat) (sub start : Z) : option (list int) :=
  let k := Z.to_nat (nlimbs p) in
  steps n k (topc p) (limbs k sub) (limbs k start).
(** Lucas-Lehmer. *)
Definition ll_test (p : Z) : bool :=
  (2 <? p) &&
  match run p (Z.to_nat (p - 2)) (2 ^ p - 3) 4 with
  | Some l => lval l mod (2 ^ p - 1) =? 0
  | None => false
  end.
(** 3^(2^p) is not 9: then 2^p - 1 is not prime. *)
Definition fermat_composite (p : Z) : bool :=
  (4 <=? p) &&
  match run p (Z.to_nat p) 0 3 with
  | Some l => negb (lval l mod (2 ^ p - 1) =? 9)
  | None => false
  end.
