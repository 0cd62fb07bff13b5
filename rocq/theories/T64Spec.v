(** Specification notions for the TinyMT64 in test/. *)
From Coq Require Import NArith ZArith List Bool.
From Verif Require Import T64Model.
Local Open Scope N_scope.

(** mat1 and mat2 are 32-bit words, tmat and the status 64-bit words. *)
Definition par64_ok (t : t64) : Prop := s_mat1 t < 2 ^ 32 /\ s_mat2 t < 2 ^ 32 /\ s_tmat t < 2 ^ 64.
Definition words64_ok (t : t64) : Prop :=
  (fst (s_status t) < 2 ^ 64 /\ snd (s_status t) < 2 ^ 64) /\ par64_ok t.
Definition same_par (t u : t64) : Prop := s_mat1 t = s_mat1 u /\ s_mat2 t = s_mat2 u /\ s_tmat t = s_tmat u.
(** The 127 bits that count. *)
Definition state64 (t : t64) : N * N := (fst (s_status t) mod 2 ^ 63, snd (s_status t)).
(** The sequence of states has the least period e. *)
Definition least_period64 (e : N) (t : t64) : Prop :=
  state64 (Nat.iter (N.to_nat e) t64_next t) = state64 t /\
  forall i, 0 < i < e -> state64 (Nat.iter (N.to_nat i) t64_next t) <> state64 t.
(** The published parameters. *)
Definition published64 (t : t64) : Prop := s_mat1 t = 0xfa051f40 /\ s_mat2 t = 0xffd0fff4 /\ s_tmat t = 0x58d02ffeffbfffbc.
(** Bitwise exclusive or of two states. *)
Definition xor64 (t u : t64) : t64 :=
  with_status64 t (N.lxor (fst (s_status t)) (fst (s_status u)), N.lxor (snd (s_status t)) (snd (s_status u))).
