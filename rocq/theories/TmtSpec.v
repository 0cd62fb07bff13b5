(** Specification notions for the TinyMT32 in test/. *)
From Coq Require Import NArith ZArith List Bool.
From Verif Require Import TmtModel TinyModel.
Local Open Scope N_scope.

(** The object of the search class (samples/TinyMTDC) with the same words. *)
Definition as_search (t : tmt) : tiny := TM (t_status t) (TP 0 (t_mat1 t) (t_mat2 t) (t_tmat t)) false.
(** 32-bit words everywhere. *)
Definition words_ok (t : tmt) : Prop :=
  let '(a, b, c, d) := t_status t in
  (a < 2 ^ 32 /\ b < 2 ^ 32 /\ c < 2 ^ 32 /\ d < 2 ^ 32) /\
  t_mat1 t < 2 ^ 32 /\ t_mat2 t < 2 ^ 32 /\ t_tmat t < 2 ^ 32.
(** The 127 bits that count. *)
Definition state127 (t : tmt) : N * N * N * N :=
  let '(a, b, c, d) := t_status t in (a mod 2 ^ 31, b, c, d).
(** The sequence of states has the least period e. *)
Definition least_period (e : N) (t : tmt) : Prop :=
  state127 (Nat.iter (N.to_nat e) tmt_next t) = state127 t /\
  forall i, 0 < i < e -> state127 (Nat.iter (N.to_nat i) tmt_next t) <> state127 t.
