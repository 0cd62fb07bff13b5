(** Common conventions of the model: outcomes and machine words. *)
From Coq Require Import NArith ZArith List Bool Lia.
Import ListNotations.

(** Outcome of a modelled C++ call.  [Undef] is undefined behaviour, [Throw]
    a C++ exception, [Exit] process termination by [exit], [NoFuel] an
    exhausted recursion budget of the model (never claimed as a result). *)
Inductive res (A : Type) : Type :=
| Ret (a : A)
| Undef
| Throw
| Exit
| NoFuel.
Arguments Ret {A} a.
Arguments Undef {A}.
Arguments Throw {A}.
Arguments Exit {A}.
Arguments NoFuel {A}.

Definition bind {A B : Type} (m : res A) (f : A -> res B) : res B :=
  match m with
  | Ret a => f a
  | Undef => Undef
  | Throw => Throw
  | Exit => Exit
  | NoFuel => NoFuel
  end.

Notation "'do' x <- m ; k" := (bind m (fun x => k))
  (at level 200, x name, m at level 100, k at level 200, right associativity).
Notation "'do' ' p <- m ; k" := (bind m (fun x => match x with p => k end))
  (at level 200, p pattern, m at level 100, k at level 200, right associativity).

(** Unsigned machine words: an [N] below [2^w]; C++ unsigned arithmetic wraps. *)
Definition trunc (w x : N) : N := (x mod 2 ^ w)%N.
Definition wadd (w x y : N) : N := trunc w (x + y).
Definition wsub (w x y : N) : N := trunc w (x + (2 ^ w - trunc w y)).
Definition wmul (w x y : N) : N := trunc w (x * y).
Definition wshl (w x k : N) : N := trunc w (N.shiftl x k).
Definition wshr (x k : N) : N := N.shiftr x k.
Definition wnot (w x : N) : N := N.lxor x (N.ones w).
Definition wones (w : N) : N := N.ones w.

(** Reading of a word as a two's complement signed integer, and conversion
    of an integer to an unsigned word (C++ conversion modulo [2^w]). *)
Definition to_signed (w x : N) : Z :=
  if (x <? 2 ^ (w - 1))%N then Z.of_N x else (Z.of_N x - 2 ^ Z.of_N w)%Z.
Definition of_int (w : N) (z : Z) : N := Z.to_N (z mod 2 ^ Z.of_N w).

(** Range of C++ [int] (32 bit). *)
Definition int_ok (z : Z) : bool := ((- 2 ^ 31 <=? z) && (z <? 2 ^ 31))%Z.
