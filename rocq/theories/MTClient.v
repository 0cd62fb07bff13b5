(** A client of the Mersenne Twister classes: the operations of MTSpec.v
    executed on the model.  The constructors allocate and seed, so a client
    history is a run from the allocated object whose first operation seeds. *)
From Coq Require Import NArith List.
From Verif Require Import Base MTModel MTSpec.
Import ListNotations.
Local Open Scope N_scope.

Section Run.
Variable S : Type.
Variable step : S -> mt_op -> res (option N * S).
Fixpoint mt_run_gen (s : S) (ops : list mt_op) : res (list (option N)) :=
  match ops with
  | [] => Ret []
  | o :: ops' =>
      do '(e, s') <- step s o;
      do l <- mt_run_gen s' ops';
      Ret (e :: l)
  end.
End Run.

Definition noval {S : Type} (r : res S) : res (option N * S) :=
  do s <- r; Ret (None, s).
Definition val {S : Type} (r : res (N * S)) : res (option N * S) :=
  do '(v, s) <- r; Ret (Some v, s).

Definition mt_step (s : mt32) (o : mt_op) : res (option N * mt32) :=
  match o with
  | MSeed v => noval (mt_seed s v)
  | MSeedArray key => noval (mt_seed_array s key (length key))
  | MSeedString str => noval (mt_seed_string s str)
  | MGen32 => val (mt_getUint32 s)
  | MGen64 => val (mt_getUint64 s)
  end.
Definition mt_run : mt32 -> list mt_op -> res (list (option N)) := mt_run_gen mt32 mt_step.

Definition mt64_step (s : mt64) (o : mt_op) : res (option N * mt64) :=
  match o with
  | MSeed v => noval (mt64_seed s v)
  | MSeedArray key => noval (mt64_seed_array s key (length key))
  | MSeedString str => noval (mt64_seed_string s str)
  | MGen32 => val (mt64_getUint32 s)
  | MGen64 => val (mt64_getUint64 s)
  end.
Definition mt64_run : mt64 -> list mt_op -> res (list (option N)) := mt_run_gen mt64 mt64_step.

Definition is_seeding (o : mt_op) : bool :=
  match o with MGen32 | MGen64 => false | _ => true end.
