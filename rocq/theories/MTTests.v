(** Runs of the Mersenne Twister model against the values of
    test/test_mt.cpp (tests of the model, not proofs). *)
From Coq Require Import NArith List.
From Verif Require Import Base MTModel.
Import ListNotations.
Local Open Scope N_scope.

Definition outs {S : Type} (r : res (list N * S)) : option (list N) :=
  match r with Ret (l, _) => Some l | _ => None end.

(** test/test_mt.cpp, single_seed. *)
Example mt_single_seed :
  outs (do s <- mt_seed mt_alloc 5489; take mt_next 5 s)
  = Some [3499211612; 581869302; 3890346734; 3586334585; 545404204].
Proof. vm_compute. reflexivity. Qed.

(** test/test_mt.cpp, array_seed. *)
Example mt_array_seed :
  outs (do s <- mt_seed_array mt_alloc [0x123; 0x234; 0x345; 0x456] 4; take mt_next 5 s)
  = Some [1067595299; 955945823; 477289528; 4107218783; 4228976476].
Proof. vm_compute. reflexivity. Qed.

(** First outputs of the published mt19937-64.out.txt. *)
Example mt64_array_seed :
  outs (do s <- mt64_seed_array mt64_alloc [0x12345; 0x23456; 0x34567; 0x45678] 4;
        take mt64_next 3 s)
  = Some [7266447313870364031; 4946485549665804864; 16945909448695747420].
Proof. vm_compute. reflexivity. Qed.
