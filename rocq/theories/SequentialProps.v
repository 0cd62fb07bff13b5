(** Property theorems C18, C19 (Sequential.hpp). *)
From Coq Require Import NArith ZArith List Bool Sorted.
From Verif Require Import Base SequentialModel SequentialSpec SequentialProofs.
Import ListNotations.
Local Open Scope N_scope.

(** * C18 *)
Theorem C18_enumerates_all : forall w mask : N, mask < 2 ^ w ->
  exists l s', sq_take w (N.to_nat (2 ^ w)) (sq_make w mask) = Ret (l, s') /\
    NoDup l /\ (forall v, In v l <-> v < 2 ^ w) /\
    StronglySorted (fun a b => N.lxor b mask < N.lxor a mask) l /\
    sq_next w s' = Throw.
Proof. exact enum_all. Qed.
Theorem C18_enumerates_from_seed : forall w mask seed : N, mask < 2 ^ w -> seed < 2 ^ w ->
  exists l s', sq_take w (S (N.to_nat seed)) (sq_make_seed mask seed) = Ret (l, s') /\
    NoDup l /\ (forall v, In v l <-> N.lxor v mask <= seed) /\
    StronglySorted (fun a b => N.lxor b mask < N.lxor a mask) l /\
    sq_next w s' = Throw.
Proof. exact enum_seed. Qed.
Example C18_ex :
  match sq_take 2 4 (sq_make 2 1) with Ret (l, _) => l = [2; 3; 0; 1] | _ => False end.
Proof. reflexivity. Qed.
Print Assumptions C18_enumerates_all.
Print Assumptions C18_enumerates_from_seed.

(** * C19
    [run] executes a client's operations on the model, [spec_run] on the
    independent specification; the events seen by the client are equal. *)
Theorem C19_refines : forall (w : N) (ops : list op),
  Forall (op_ok w) ops -> run w [] ops = spec_run w [] ops.
Proof. exact run_refines. Qed.
Theorem C19_values_in_range : forall (w : N) (ops : list op), Forall (op_ok w) ops ->
  forall v, In (EValue v) (run w [] ops) -> v < 2 ^ w.
Proof. exact next_lt. Qed.
Theorem C19_output_widths : forall (w : N) (s : sequential) (v : N) (s' : sequential),
  sq_next w s = Ret (v, s') ->
  sq_getUint32 w s = Ret (v mod 2 ^ 32, s') /\ sq_getUint64 w s = Ret (v mod 2 ^ 64, s').
Proof. exact getUint_values. Qed.
Example C19_ex :
  run 8 [] [ONewSeed 0xf0 1; OGen 0; OCopy 0; OGen 0; OGen 0; OGen 1; OGen 0; OSeed 0 0x105; OGen 0; OGen 1]
  = [EOk; EValue 0xf1; EOk; EValue 0xf0; EUnderflow; EValue 0xf0; EUnderflow; EOk; EValue 0xf5; EUnderflow].
Proof. reflexivity. Qed.
Print Assumptions C19_refines.
Print Assumptions C19_values_in_range.
Print Assumptions C19_output_widths.
