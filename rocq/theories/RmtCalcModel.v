(** Model of the programs samples/RMT/calc_period.cpp and
    samples/RMT/calc_equidist.cpp and of the text of getParamString of
    samples/RMT/rmt64.hpp. *)
From Coq Require Import NArith ZArith List Bool.
From mathcomp Require Import all_ssreflect all_algebra.
From Verif Require Import Base UtilModel GenModel PolyF2 PeriodModel EquiModel ArrayModel RmtModel.
Import ListNotations.
Set Implicit Arguments.
Unset Strict Implicit.
Unset Printing Implicit Defensive.
Local Open Scope ring_scope.
Delimit Scope Z_scope with coqZ.

(** * The text of the parameters *)
Definition chr_comma : N := 44%num.
(** operator<< for uint64_t with hex, setw(16), setfill('0'): the sixteen
    digits of a 64-bit number, the small letters for ten to fifteen. *)
Definition hex_chr (x : N) : N := (if x <? 10 then 48 + x else 87 + x)%num.
Fixpoint hex_digits (k : nat) (x : N) : list N :=
  match k with
  | O => []
  | S c => hex_chr (x / 16 ^ N.of_nat c mod 16)%num :: hex_digits c x
  end.
Definition hex16 (x : N) : list N := hex_digits 16 x.
(** rmt64.hpp:198-212  getParamString: the text; the change of the masks is
    rmt_getParamString_effect. *)
Definition rmt_text (p : rmtp) : list N :=
  long_chars (Z.of_nat (r_mexp p)) ++ chr_comma :: long_chars (Z.of_nat (r_pos p)) ++ chr_comma ::
  hex16 (r_mata p) ++ chr_comma :: hex16 (r_par p) ++ chr_comma :: hex16 (r_maskb p) ++ chr_comma :: hex16 (r_maskc p).
Definition rmt_getParamString (g : rmt) : list N * rmt :=
  let g' := rmt_getParamString_effect g in (rmt_text g'.1, g').

(** * Reading *)
(** The value of a digit in the base, strtoull(3). *)
Definition digit_of (base : N) (c : N) : option N :=
  let v := (if (48 <=? c) && (c <=? 57) then Some (c - 48)
            else if (97 <=? c) && (c <=? 122) then Some (c - 87)
            else if (65 <=? c) && (c <=? 90) then Some (c - 55) else None)%num in
  match v with
  | Some d => if (d <? base)%num then Some d else None
  | None => None
  end.
Fixpoint digits (base : N) (s : list N) (acc : N) : N * list N :=
  match s with
  | c :: r => match digit_of base c with
              | Some d => digits base r (acc * base + d)%num
              | None => (acc, s)
              end
  | [] => (acc, [])
  end.
Definition c_space (c : N) : bool := ((c =? 32) || (9 <=? c) && (c <=? 13))%num.
Fixpoint c_skip (s : list N) : list N :=
  match s with c :: r => if c_space c then c_skip r else s | [] => [] end.
(** strtoull(s, &s, base) of the C library, base 10 or 16: white space, a sign,
    0x for base 16 if a digit follows, digits; the largest number if there are
    too many; nothing is read if there is no digit. *)
Definition strtoull (base : N) (s : list N) : N * list N :=
  let s1 := c_skip s in
  let '(neg, s2) := match s1 with
                    | c :: r => if (c =? 45)%num then (true, r) else if (c =? 43)%num then (false, r) else (false, s1)
                    | [] => (false, [])
                    end in
  let s3 := match s2 with
            | z :: x :: c :: r =>
                if ((base =? 16) && (z =? 48) && ((x =? 120) || (x =? 88)))%num then
                  match digit_of 16 c with Some _ => c :: r | None => s2 end
                else s2
            | _ => s2
            end in
  match s3 with
  | c :: _ => match digit_of base c with
              | None => (0%num, s)
              | Some _ =>
                  let '(v, r) := digits base s3 0%num in
                  ((if (2 ^ 64 <=? v)%num then 2 ^ 64 - 1 else if neg then (2 ^ 64 - v) mod 2 ^ 64 else v)%num, r)
              end
  | [] => (0%num, s)
  end.
(** para++: past the end of the text the next strtoull reads memory that does
    not belong to it. *)
Definition para_next (s : list N) : res (list N) := match s with [] => Undef | _ :: r => Ret r end.
(** calc_period.cpp:17-28 and calc_equidist.cpp:17-28; static_cast<int> keeps
    the low 32 bits (up to the compiler before C++20). *)
Definition rc_int (x : N) : Z := to_signed 32 (x mod 2 ^ 32)%num.
Record rc_args := RCA { ra_mexp : Z; ra_pos : Z; ra_mata : N; ra_parity : N; ra_mskb : N; ra_mskc : N }.
Definition rc_parse (para : list N) : res rc_args :=
  let '(mexp, para) := strtoull 10 para in
  do para <- para_next para;
  let '(pos, para) := strtoull 10 para in
  do para <- para_next para;
  let '(mata, para) := strtoull 16 para in
  do para <- para_next para;
  let '(parity, para) := strtoull 16 para in
  do para <- para_next para;
  let '(mskb, para) := strtoull 16 para in
  do para <- para_next para;
  let '(mskc, _) := strtoull 16 para in
  Ret (RCA (rc_int mexp) (rc_int pos) mata parity mskb mskc).
(** 30-31: the object; a negative mexp or pos is not followed any further (the
    length of the array, an index). *)
Definition rc_object (a : rc_args) : res rmt :=
  if ((ra_mexp a <? 0) || (ra_pos a <? 0))%coqZ then Undef
  else Ret (rmt_setParity (ra_parity a)
              (rmt_new (Z.to_nat (ra_mexp a)) (Z.to_nat (ra_pos a)) (ra_mata a) (ra_mskb a) (ra_mskc a) 1234)).

(** * The programs *)
Section Programs.
(** NTL::MinPolySeq, calc_1pos, the fuel of hasFactorOfDegree and of
    get_all_equidist, the uninitialised array veq. *)
Variables (M : seq 'F_2 -> nat -> f2x) (pos : N -> res Z) (ffuel efuel : nat) (veq0 : list Z).

(** calc_period.cpp:32-46: the line of the parameters, whether the factor was
    found (the message of the error and return -1 otherwise) and
    deg(irreducible), which is printed in both cases. *)
Record rc_period := RCP { rp_text : list N; rp_deg : Z; rp_found : bool }.
Definition calc_period (para : list N) : res rc_period :=
  do a <- rc_parse para;
  do rmt0 <- rc_object a;
  let '(text, rmt1) := rmt_getParamString rmt0 in
  let rmt2 := rmt_seed 1234 rmt1 in
  do '(poly, _) <- minpoly rmt_ops M rmt2 0 0;
  do '(irreducible, found) <- hasFactorOfDegree ffuel poly (ra_mexp a);
  Ret (RCP text (deg irreducible) found).

(** calc_equidist.cpp:33-71: the text of the parameters, delta and for each j
    veq[j] and mexp / (j + 1) - veq[j]; None after the message of the error. *)
Record rc_equi := RCE { re_text : list N; re_delta : Z; re_k : list Z; re_d : list Z }.
Definition rc_ks (veq : list Z) : list Z := List.map (fun j => List.nth j veq 0%coqZ) (List.seq 0 64).
Definition rc_rows (mexp : Z) (veq : list Z) : list Z :=
  List.map (fun j => (mexp / Z.of_nat (j + 1) - List.nth j veq 0)%coqZ) (List.seq 0 64).
Definition calc_equidist (para : list N) : res (option rc_equi) :=
  do a <- rc_parse para;
  do rmt0 <- rc_object a;
  let rmt1 := rmt_seed 1234 rmt0 in
  do '(poly, rmt2) <- minpoly rmt_ops M rmt1 0 0;
  do '(irreducible, found) <- hasFactorOfDegree ffuel poly (ra_mexp a);
  if ~~ found then Ret None
  else
    do '(poly, rmt3) <- calcCharacteristicPolynomial rmt_ops M rmt2 poly;
    do quotient <- gf2x_div poly irreducible;
    let rmt4 := if quotient == 0 then rmt3 else annihilate rmt_ops rmt3 quotient in
    do '(_, rmt5) <- minpoly rmt_ops M rmt4 0 0;
    do '(_, veq, delta) <- get_all_equidist rmt_ops pos efuel (ae_new rmt_ops rmt5 64 (ra_mexp a)) veq0;
    let '(text, _) := rmt_getParamString rmt5 in
    Ret (Some (RCE text delta (rc_ks veq) (rc_rows (ra_mexp a) veq))).
End Programs.
