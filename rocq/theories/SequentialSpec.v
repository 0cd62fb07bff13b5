(** Specification of the Sequential counter generator, independent of the
    model: an object is a mask and what is still to come. *)
From Coq Require Import NArith List Bool.
Import ListNotations.
Local Open Scope N_scope.

(** [Some c]: the values for c, c-1, ..., 0 are still to be returned.
    [None]: exhausted. *)
Definition spec_obj : Type := N * option N.

(** What a client does with a growing family of objects, numbered in order of
    creation. *)
Inductive op : Type :=
| ONew (mask : N)                 (* Sequential<T>(mask) *)
| ONewSeed (mask seed : N)        (* Sequential<T>(mask, seed) *)
| OCopy (o : nat)                 (* copy construction *)
| OSeed (o : nat) (v : N)         (* seed(v), v 32 or 64 bits *)
| OReseed (o : nat) (v : N)       (* reseed(v), v of type T *)
| OGen (o : nat).                 (* generate() *)

(** What the client sees. *)
Inductive event : Type :=
| EOk
| EValue (v : N)
| EUnderflow        (* std::underflow_error *)
| EBroken           (* undefined behaviour; the specification never does this *)
| ENoObject.        (* the client named an object that does not exist *)

Fixpoint set_nth {A : Type} (l : list A) (i : nat) (x : A) : list A :=
  match l, i with
  | [], _ => []
  | _ :: l', O => x :: l'
  | a :: l', S i' => a :: set_nth l' i' x
  end.

Definition spec_step (w : N) (st : list spec_obj) (o : op) : event * list spec_obj :=
  match o with
  | ONew m => (EOk, st ++ [(m, Some (2 ^ w - 1))])
  | ONewSeed m s => (EOk, st ++ [(m, Some s)])
  | OCopy i => match nth_error st i with
               | Some x => (EOk, st ++ [x]) | None => (ENoObject, st) end
  | OSeed i v => match nth_error st i with
                 | Some (m, _) => (EOk, set_nth st i (m, Some (v mod 2 ^ w)))
                 | None => (ENoObject, st) end
  | OReseed i v => match nth_error st i with
                 | Some (m, _) => (EOk, set_nth st i (m, Some v))
                 | None => (ENoObject, st) end
  | OGen i => match nth_error st i with
              | Some (m, Some c) =>
                  (EValue (N.lxor c m),
                   set_nth st i (m, if c =? 0 then None else Some (c - 1)))
              | Some (m, None) => (EUnderflow, st)
              | None => (ENoObject, st) end
  end.

Fixpoint spec_run (w : N) (st : list spec_obj) (ops : list op) : list event :=
  match ops with
  | [] => []
  | o :: ops' => let '(e, st') := spec_step w st o in e :: spec_run w st' ops'
  end.

(** Arguments that are values of their C++ type. *)
Definition op_ok (w : N) (o : op) : Prop :=
  match o with
  | ONew m => m < 2 ^ w
  | ONewSeed m s => m < 2 ^ w /\ s < 2 ^ w
  | OReseed _ v => v < 2 ^ w
  | _ => True
  end.
