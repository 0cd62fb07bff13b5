(** Specification notions for the xorshift generators. *)
From Coq Require Import NArith List.
From Verif Require Import XorshiftModel.
Local Open Scope N_scope.

(** States of the class: four 32-bit words. *)
Definition xs_okw (s : xs) : Prop :=
  xs_x s < 2 ^ 32 /\ xs_y s < 2 ^ 32 /\ xs_z s < 2 ^ 32 /\ xs_w s < 2 ^ 32.

(** [f] maps the set [P] bijectively onto itself. *)
Definition bijective_on {A} (P : A -> Prop) (f : A -> A) : Prop :=
  (forall s, P s -> P (f s)) /\
  (forall s t, P s -> P t -> f s = f t -> s = t) /\
  (forall s, P s -> exists t, P t /\ f t = s).

(** The shift counts of xorshift-4.cpp that must not vanish. *)
Definition xs4_needs (pat b c : N) : Prop := c <> 0 /\ (4 <= pat -> b <> 0).
