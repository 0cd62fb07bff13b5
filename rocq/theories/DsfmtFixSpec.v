(** Specification of the fixed point of dSFMT. *)
From Coq Require Import NArith ZArith List.
From mathcomp Require Import all_ssreflect all_algebra.
From Verif Require Import Base GenModel PolyF2 PeriodSpec ArrayModel DsfmtModel.
Set Implicit Arguments.
Unset Strict Implicit.
Unset Printing Implicit Defensive.
Import GRing.Theory.
Local Open Scope ring_scope.

(** NTL::XGCD: the greatest common divisor as a combination. *)
Definition xgcd_spec (XGCD : f2x -> f2x -> f2x * f2x * f2x) : Prop :=
  forall x y d a b, XGCD x y = (d, a, b) -> [/\ d = a * x + b * y, d %| x & d %| y].

(** The map is x |-> x A + C.  C is the sum of a part C1 killed by f(A) and a part
    killed by q(A); F is in the first component and fixed by x |-> x A + C1. *)
Definition is_fixpoint (n : nat) (A : 'M['F_2]_n) (C : 'rV['F_2]_n) (f q : f2x) (F : 'rV['F_2]_n) : Prop :=
  exists C1 C2, [/\ C = C1 + C2, C1 *m poly_mx A f = 0, C2 *m poly_mx A q = 0, F *m poly_mx A f = 0 & F *m A + C1 = F].

(** k calls of generate. *)
Fixpoint ds_steps (k : nat) (g : dsfmt) : res dsfmt :=
  match k with
  | O => Ret g
  | S k => do '(_, g) <- ds_generate g; ds_steps k g
  end.
(** The members of an object with another fixed point and parity vector, and with
    the prefix. *)
Definition with_cert (fx pr : N) (c : dsc) : dsc :=
  DSC (DSP (d_mexp (e_par c)) (d_pos1 (e_par c)) (d_sl1 (e_par c)) (d_msk1 (e_par c)) (d_msk2 (e_par c)) fx pr)
      (e_size c) (e_start c) (e_weight c) (e_prefix c) (e_fixed c) (e_fixedSL1 c).
Definition with_prefix (x : N) (c : dsc) : dsc :=
  DSC (e_par c) (e_size c) (e_start c) (e_weight c) x (e_fixed c) (e_fixedSL1 c).
(** A 128-bit word of two doubles in [1, 2): sign and exponent are 0x3ff. *)
Definition two_doubles (x : N) : Prop :=
  (x < 2 ^ 128)%num /\ N.shiftr (x mod 2 ^ 64) 52 = 0x3ff%num /\ N.shiftr (x / 2 ^ 64) 52 = 0x3ff%num.
(** A state of the object in use: the members of [c] with the prefix, size words
    of two doubles, and any lung. *)
Definition ds_live (c : dsc) (g : dsfmt) : Prop :=
  [/\ g.1.1 = with_prefix 0x3ff0000000000000%num c, (rr_idx g.1.2 < e_size c)%coq_nat /\ length (rr_arr g.1.2) = e_size c,
      forall x, List.In x (rr_arr g.1.2) -> two_doubles x & (ds_lung g < 2 ^ 128)%num /\ (ds_prev g < 2 ^ 128)%num].
