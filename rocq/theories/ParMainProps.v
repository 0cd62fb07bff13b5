(** Property C84: the program calc_parity of sfmtdc. *)
From Coq Require Import NArith ZArith List Bool Lia.
From mathcomp Require Import all_ssreflect all_algebra.
From mathcomp Require Import zify.
From Verif Require Import Base UtilModel GenModel PolyF2 LinSpec PeriodModel PeriodSpec PolyAct ParityModel ParitySpec ParityEx ArrayModel W128Model W128Spec
  SfmtModel SfmtLin SfmtParity SfmtProps PerTestModel EqMainModel EqMainSpec ParMainModel ParMainSpec ParMainProofs.
Import ListNotations.
Set Implicit Arguments.
Unset Strict Implicit.
Unset Printing Implicit Defensive.
Local Open Scope ring_scope.
Delimit Scope Z_scope with coqZ.

(** C84: calc_parity of sfmtdc, started with the line of the parameters q (d = mexp at
    least 256 and no multiple of 128) and whatever follows.  If the minimal polynomial
    of the lowest output bit of the seeded object has an irreducible factor f of
    degree d, the program prints the line of q with a parity vector v in place of the
    given one; v certifies for the component of f, and for a Mersenne prime a state
    with an odd number of common bits has a period that is a multiple of 2^d - 1.
    With the option -c the last line is right: it says that the check has succeeded
    100 times if f divides the minimal polynomials of the first 100 seeds, and
    otherwise it gives the first seed for which this fails; the branches for wrong
    parity vectors are not taken.  Without a factor the program says so. *)
Theorem C84_calc_parity q : sfp_ok q -> (256 <= f_mexp q < 2 ^ 31 - 128)%coqZ -> (f_mexp q mod 128 <> 0)%coqZ -> (0 <= f_pos1 q < 2 ^ 31)%coqZ ->
  (0 < f_pos1 q mod (f_mexp q / 128 + 1))%coqZ -> (f_parity q < 2 ^ 128)%num ->
  forall M pos kernel fuel junk junk2, minpolyseq_spec M -> kernel_spec kernel -> pos_spec 128 pos ->
  let sz := Z.to_nat (f_mexp q / 128 + 1) in let d := Z.to_nat (f_mexp q) in
  ((sz * 512 + 194) * 129 <= fuel)%N ->
  let c := SFC q sz 0 4 false in let s0 := sf_seed (eq_seed 1 junk) (sf_new q) in
  forall check tail,
  (exists f v r, [/\ sf_par_main M pos kernel fuel junk junk2 check (sf_text q ++ tail) = Ret (Some (sf_text (with_parity q v), r)),
      low_factor sf_ops s0 d f /\ f %| char_poly (sfmt_A c), (0 < v < 2 ^ 128)%num,
      certifies_word c f v /\ (prime (2 ^ d - 1) -> long_period c d v) & if check then exists2 o, r = Some o & check_right q f 100 o else r = None]) \/
  sf_par_main M pos kernel fuel junk junk2 check (sf_text q ++ tail) = Ret None /\ forall f, ~ low_factor sf_ops s0 d f.
Proof. by move=> H1 H2 H3 H4 H5 H6 M pos kernel fuel junk junk2 H7 H8 H9 sz d H10 c s0 check tail; exact: par_thm. Qed.

(** C84: the check by itself.  For any parity vector v that certifies for an
    irreducible factor f of degree d of the characteristic polynomial the last line is
    right, whatever the number of seeds. *)
Theorem C84_check q : let c := SFC q (Z.to_nat (f_mexp q / 128 + 1)) 0 4 false in sfc_ok c -> (3 <= c_size c)%N -> (0 < sf_pos c)%N ->
  (0 < f_parity q < 2 ^ 128)%num -> forall f d, irreducible_poly f -> size f = d.+1 -> (c_size c * 128 < 2 * d)%N ->
  f %| char_poly (sfmt_A c) -> f_mexp q = Z.of_nat d -> certifies_word c f (f_parity q) ->
  forall M count, minpolyseq_spec M -> (0 < count)%N -> (N.of_nat (count + 3) < 2 ^ 128)%num ->
  exists2 r, tp_loop M count 0 0 f (sf_new q) = Ret r & check_right q f count r.
Proof.
move=> c Hc s3 p0 Hv f d If sf Hn Df Ed Cv M count HM c0 Hcount.
have n3 : (c_size c * 128 + wm_bits (c_weight c) < 2 * d)%N by rewrite addn0.
exact: (@tp_loop_ok c f d M Hc s3 p0 erefl HM If sf n3 Df Ed Hv Cv q erefl count 0 (sf_new q) c0 Hcount erefl
  (fun j (Hj : (j < 0)%N) => False_ind _ (notF Hj))).
Qed.

Example C84_case : (sfp_ok sf_exp /\ (256 <= f_mexp sf_exp < 2 ^ 31 - 128)%coqZ /\ (f_mexp sf_exp mod 128 <> 0)%coqZ /\ (0 <= f_pos1 sf_exp < 2 ^ 31)%coqZ /\
  (0 < f_pos1 sf_exp mod (f_mexp sf_exp / 128 + 1))%coqZ /\ (f_parity sf_exp < 2 ^ 128)%num) /\
  minpolyseq_spec mps /\ kernel_spec brute /\ pos_spec 128 (fun x => Ret (w_calc_1pos_wrap (w_of x))) /\
  (let c := SFC sf_exp (Z.to_nat (f_mexp sf_exp / 128 + 1)) 0 4 false in sfc_ok c /\ (3 <= c_size c)%N /\ (0 < sf_pos c)%N) /\
  (* an object whose word state[0] has one bit in common with the vector, and one with none *)
  let s w := ((SFC (with_parity sf_exp 10) 3 0 4 false, RR 0 [w; 0; 0]%num), 0%num) in
  sf_cert (s 2%num) = (1%coqZ, s 2%num) /\ sf_cert (s 5%num) = (0%coqZ, s 7%num) /\ tp_twice (s 5%num) = (true, s 7%num).
Proof.
split; first by split; [split|]. split; first exact: mps_spec. split; first exact: brute_spec. split; first exact: pos_spec128.
split; first by split; [split|split]. by vm_compute.
Qed.

Print Assumptions C84_calc_parity.
Print Assumptions C84_check.
