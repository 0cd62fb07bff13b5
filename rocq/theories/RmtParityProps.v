(** Property C31 for the sample generator RMT64. *)
From Coq Require Import NArith ZArith List.
From mathcomp Require Import all_ssreflect all_algebra.
From Verif Require Import Base UtilModel GenModel PolyF2 LinSpec PeriodModel PeriodSpec PeriodProofs4.
From Verif Require Import ArrayModel RmtModel RmtLin RmtProofs ParityModel ParitySpec RmtParity RmtProps.
Set Implicit Arguments.
Unset Strict Implicit.
Unset Printing Implicit Defensive.
Import GRing.Theory.
Local Open Scope ring_scope.
Delimit Scope Z_scope with coqZ.

(** RMT64 with an invertible transition meets the contract of searchParity, and
    its parity words determine the state. *)
Theorem C31_rmt_contract : forall p, rmtp_ok p ->
  parity_gen rmt_ops rmt_par (rmt_ok p) (rmt_vec p) (r_size p * 64) (@rmt_e p) (@rmt_Q p) /\
  (rmt_A p \in unitmx -> observable (rmt_A p) (@rmt_Q p) 64).
Proof. by move=> p Hp; split; [exact: rmt_parity_gen | exact: rmt_observable]. Qed.

(** searchParity returns a certificate unless setOneBit is undefined ... *)
Theorem C31_rmt_partial : forall p pos kernel f junk fuel g, rmtp_ok p -> rmt_A p \in unitmx -> pos_spec 64 pos -> kernel_spec kernel ->
  irreducible_poly f -> size f = (r_mexp p).+1 -> f %| char_poly (rmt_A p) -> ~~ (f ^+ 2 %| char_poly (rmt_A p)) ->
  (r_size p * 64 < r_mexp p + 64)%N -> (r_size p * 64 <= fuel)%N -> rmt_ok p g ->
  (exists s i, [/\ rmt_ok p s, (i < r_size p * 64)%N & rmt_setOneBit i s = Undef]) /\
    searchParity rmt_ops rmt_par pos kernel (Some junk) fuel g f = Undef \/
  exists v, [/\ searchParity rmt_ops rmt_par pos kernel (Some junk) fuel g f = Ret (v, rmt_setParity v g), (0 < v < 2 ^ 64)%num &
    forall s, rmt_ok p s -> inner 64 v (rmt_getParity s) = 1 ->
      rmt_vec p s *m poly_mx (rmt_A p) (char_poly (rmt_A p) %/ f) != 0 /\
      (primitive f (r_mexp p) -> forall k, rmt_vec p (run rmt_ops k s) = rmt_vec p s -> 2 ^ r_mexp p - 1 %| k)%N].
Proof. move=> p pos kernel f junk fuel g H1 H2 H3 H4 H5 H6 H7 H8 H9 H10 H11; exact: (rmt_search H1 H2 H3 H4 H5 H6 H7 H8 junk H9 H10 H11). Qed.
(** ... which it is, whenever there are more than 32 bits beside the Mersenne
    exponent: the search never gets past bit 32. *)
Theorem C31_rmt_undefined : forall p pos kernel f junk fuel g, rmtp_ok p -> rmt_A p \in unitmx -> pos_spec 64 pos -> kernel_spec kernel ->
  irreducible_poly f -> size f = (r_mexp p).+1 -> f %| char_poly (rmt_A p) -> ~~ (f ^+ 2 %| char_poly (rmt_A p)) ->
  (r_mexp p + 33 <= r_size p * 64 < r_mexp p + 64)%N -> (r_size p * 64 <= fuel)%N -> rmt_ok p g ->
  searchParity rmt_ops rmt_par pos kernel (Some junk) fuel g f = Undef.
Proof.
move=> p pos kernel f junk fuel g H1 H2 H3 H4 H5 H6 H7 H8 /andP[H9 H10] H11 H12.
exact: (rmt_search_undef H1 H2 H3 H4 H5 H6 H7 H8 junk H10 H9 H11 H12).
Qed.

(** The object of the example of C57 (Mersenne exponent 521, 576 bits). *)
Example C31_rmt_case : rmtp_ok rmt_ex.1 /\ rmt_A rmt_ex.1 \in unitmx /\ rmt_ok rmt_ex.1 rmt_ex /\
  (r_mexp rmt_ex.1 + 33 <= r_size rmt_ex.1 * 64 < r_mexp rmt_ex.1 + 64)%N.
Proof.
have [H1 H2] : rmtp_ok rmt_ex.1 /\ rmt_ok rmt_ex.1 rmt_ex by apply: rmt_new_ok.
by split=> //; split=> //; apply/(rmt_unit H1).
Qed.

Print Assumptions C31_rmt_contract.
Print Assumptions C31_rmt_partial.
Print Assumptions C31_rmt_undefined.
