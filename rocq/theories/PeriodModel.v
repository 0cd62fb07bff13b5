(** Model of include/MTToolBox/period.hpp, lib/period.cpp, LCM and print_binary
    of util.hpp, lib/AlgorithmPrimitivity.cpp and annihilate of
    ReducibleGenerator.hpp.

    NTL::GF2X is mathcomp's {poly 'F_2}; the NTL operations +, *, /, %, GCD,
    coeff and deg are the mathematical ones (division by zero terminates the
    program: [Exit]).  GCD over GF(2) is unique, there is only one unit.
    NTL's IterIrredTest is [irredb] (an exact irreducibility test), NTL's
    MinPolySeq is a parameter, see PeriodSpec.  NTL::ZZ is N: the integers
    that occur are not negative. *)
From Coq Require Import NArith ZArith List Bool.
From mathcomp Require Import all_ssreflect all_algebra.
From Verif Require Import Base UtilModel GenModel PolyF2.
Set Implicit Arguments.
Unset Strict Implicit.
Unset Printing Implicit Defensive.
Import GRing.Theory.
Local Open Scope ring_scope.
Delimit Scope Z_scope with coqZ.
Import ListNotations.

(** NTL deg: -1 for the zero polynomial. *)
Definition deg (p : f2x) : Z := (Z.of_nat (size p) - 1)%coqZ.

(** NTL division and remainder. *)
Definition gf2x_div (p q : f2x) : res f2x := if q == 0 then Exit else Ret (p %/ q).
Definition gf2x_mod (p q : f2x) : res f2x := if q == 0 then Exit else Ret (p %% q).

(** util.hpp:510-517  LCM.  The arguments are values, the result is assigned to
    the variable lcm afterwards.  [LCM_alias] follows the statements on a store
    of three variables, the output being one of the inputs:
    GCD(gcd,x,y); mul(lcm,x,y); lcm /= gcd. *)
Definition LCM (x y : f2x) : res f2x := gf2x_div (x * y) (gcdp x y).
Inductive lcm_var := VLcm | VX | VY.
Definition lcm_store := lcm_var -> f2x.
Definition set_var (v : lcm_var) (p : f2x) (st : lcm_store) : lcm_store :=
  fun w => match v, w with VLcm, VLcm => p | VX, VX => p | VY, VY => p | _, _ => st w end.
(** [out] is the variable the reference parameter lcm is bound to. *)
Definition LCM_alias (out : lcm_var) (st : lcm_store) : res lcm_store :=
  let gcd := gcdp (st VX) (st VY) in
  let st1 := set_var out (st VX * st VY) st in
  do q <- gf2x_div (st1 out) gcd;
  Ret (set_var out q st1).

(** util.hpp:127-146  print_binary: the characters written. *)
Definition chr_0 : N := 48%num.
Definition chr_1 : N := 49%num.
Definition chr_nl : N := 10%num.
(** The text deg= and the minus sign. *)
Definition txt_deg : list N := [100; 101; 103; 61]%num.
Definition chr_minus : N := 45%num.
(** operator<< for long: decimal digits (Coq's own conversion). *)
Fixpoint uint_chars (u : Decimal.uint) : list N :=
  match u with
  | Decimal.Nil => []
  | Decimal.D0 r => 48%num :: uint_chars r
  | Decimal.D1 r => 49%num :: uint_chars r
  | Decimal.D2 r => 50%num :: uint_chars r
  | Decimal.D3 r => 51%num :: uint_chars r
  | Decimal.D4 r => 52%num :: uint_chars r
  | Decimal.D5 r => 53%num :: uint_chars r
  | Decimal.D6 r => 54%num :: uint_chars r
  | Decimal.D7 r => 55%num :: uint_chars r
  | Decimal.D8 r => 56%num :: uint_chars r
  | Decimal.D9 r => 57%num :: uint_chars r
  end.
Definition long_chars (z : Z) : list N :=
  match Z.to_int z with
  | Decimal.Pos u => uint_chars u
  | Decimal.Neg u => chr_minus :: uint_chars u
  end.
Definition print_digit (poly : f2x) (breakline : bool) (i : nat) : list N :=
  (if poly`_i == 1 then chr_1 else chr_0) ::
  (if breakline && (i %% 32 == 31)%N then [chr_nl] else []).
Definition print_binary (poly : f2x) (breakline : bool) : list N :=
  if (deg poly <? 0)%coqZ then
    chr_0 :: txt_deg ++ long_chars (-1)%coqZ ++ [chr_nl]
  else
    flat_map (print_digit poly breakline) (List.seq 0 (Z.to_nat (deg poly + 1)%coqZ))
    ++ txt_deg ++ long_chars (deg poly) ++ [chr_nl].

(** lib/period.cpp:15-20 *)
Definition mersenne_exponent : list Z :=
  [2; 3; 5; 7; 13; 17; 19; 31; 61; 89; 107; 127; 521; 607; 1279;
   2203; 2281; 3217; 4253; 4423; 9689; 9941; 11213; 19937; 21701;
   23209; 44497; 86243; 110503; 132049; 216091; 756839; 859433;
   1257787; 1398269; 2976221; 3021377; 6972593; 13466917;
   20996011; 25964951; -1]%coqZ.

(** lib/period.cpp:28-32  isIrreducible *)
Definition isIrreducible (poly : f2x) : bool := irredb poly.

(** lib/period.cpp:40-48  isMexp; [tab] is the part of the table not yet read;
    reading past its end would be undefined. *)
Fixpoint isMexp_loop (tab : list Z) (degree : N) : res bool :=
  match tab with
  | [] => Undef
  | e :: r =>
      if (0 <? e)%coqZ then
        if (to_signed 32 degree =? e)%coqZ then Ret true else isMexp_loop r degree
      else Ret false
  end.
Definition isMexp (degree : N) : res bool := isMexp_loop mersenne_exponent degree.

(** lib/period.cpp:61-72  isPrime(poly) *)
Definition isPrime (poly : f2x) : res bool :=
  if ~~ isIrreducible poly then Ret false
  else isMexp (of_int 32 (deg poly)).

(** lib/period.cpp:87-112  isPrime(poly, degree, prime_factors); PowerXMod is
    the remainder of a power of X. *)
Fixpoint isPrime_loop (poly : f2x) (period : N) (prime_factors : list N) : res bool :=
  match prime_factors with
  | [] => Ret true
  | p :: r =>
      if (p =? 0)%num then Exit
      else
        let pow := (period / p)%num in
        let x := 'X^(N.to_nat pow) %% poly in
        if x == 1 then Ret false else isPrime_loop poly period r
  end.
Definition isPrime_vec (poly : f2x) (degree : Z) (prime_factors : list N) : res bool :=
  if (deg poly =? degree)%coqZ then
    if ~~ isIrreducible poly then Ret false
    else isPrime_loop poly (2 ^ Z.to_N degree - 1)%num prime_factors
  else Ret false.

(** lib/period.cpp:145-151: the digit loop on a C string (the list of its
    characters before the terminator, as bytes; char is signed, isdigit of a
    negative value is undefined). *)
Definition is_digit (c : N) : bool := ((48 <=? c) && (c <=? 57))%num.
Fixpoint read_digits (s : list N) (w : N) : res N :=
  match s with
  | [] => Ret w
  | c :: r =>
      if (128 <=? c)%num then Undef
      else if is_digit c then read_digits r (w * 10 + c - 48)%num else Ret w
  end.
Fixpoint read_table (l : list (list N)) : res (list N) :=
  match l with
  | [] => Ret []
  | s :: r => do w <- read_digits s 0%num; do t <- read_table r; Ret (w :: t)
  end.
(** lib/period.cpp:127-156  isPrime(poly, degree, const char*[]); the array of
    pointers is the list of its entries before NULL. *)
Definition isPrime_str (poly : f2x) (degree : Z) (prime_factors : list (list N)) : res bool :=
  do zz_table <- read_table prime_factors;
  isPrime_vec poly degree zz_table.

(** lib/AlgorithmPrimitivity.cpp:13-30: one stringstream for all strings;
    [buf] is its unread part.  NTL's operator>> for ZZ skips white space,
    needs at least one digit (an error otherwise: [Exit]; a sign is not
    modelled) and leaves the first character after the digits. *)
Definition is_space (c : N) : bool := ((c =? 32) || (c =? 9) || (c =? 10))%num.
Fixpoint skip_space (buf : list N) : list N :=
  match buf with
  | [] => []
  | c :: r => if is_space c then skip_space r else buf
  end.
Fixpoint take_digits (buf : list N) (w : N) : N * list N :=
  match buf with
  | [] => (w, [])
  | c :: r => if is_digit c then take_digits r (w * 10 + (c - 48))%num else (w, buf)
  end.
Definition stream_read (buf : list N) : res (N * list N) :=
  match skip_space buf with
  | [] => Exit
  | c :: r => if is_digit c then Ret (take_digits (c :: r) 0%num) else Exit
  end.
Fixpoint stream_table (l : list (list N)) (buf : list N) : res (list N) :=
  match l with
  | [] => Ret []
  | s :: r =>
      do '(w, buf') <- stream_read (buf ++ s ++ [32%num]);
      do t <- stream_table r buf';
      Ret (w :: t)
  end.

(** AlgorithmPrimitivity.hpp:42-110: the object. *)
Record primitivity := { pr_mersenne : bool; pr_primes : list N }.
(** AlgorithmPrimitivity.hpp:55-59; MersennePrimitivity is such an object
    (lib/AlgorithmPrimitivity.cpp:51). *)
Definition MersennePrimitivity : primitivity := {| pr_mersenne := true; pr_primes := [] |}.
Definition AlgorithmPrimitivity (l : list (list N)) : res primitivity :=
  do t <- stream_table l [];
  Ret {| pr_mersenne := false; pr_primes := t |}.
(** lib/AlgorithmPrimitivity.cpp:32-49  operator() *)
Definition pr_call (a : primitivity) (max_degree : Z) (poly : f2x) : res bool :=
  if ~~ (max_degree =? deg poly)%coqZ then Ret false
  else if ~~ irredb poly then Ret false
  else if pr_mersenne a then Ret true
  else isPrime_vec poly max_degree (pr_primes a).

(** lib/period.cpp:166-202  hasFactorOfDegree.  The inner loop removes the
    common factors with t; it returns the polynomial and whether the loop was
    left by break (true) or the function by return false. *)
Fixpoint hf_inner (fuel : nat) (poly t : f2x) (degree : Z) : res (f2x * bool) :=
  match fuel with
  | O => NoFuel
  | S fuel' =>
      let alpha := gcdp poly t in
      if alpha == 1 then Ret (poly, true)
      else
        do poly' <- gf2x_div poly alpha;
        if (deg poly' <? degree)%coqZ then Ret (poly', false)
        else hf_inner fuel' poly' t degree
  end.
Fixpoint hf_outer (fuel0 fuel : nat) (poly t2m t : f2x) (degree : Z) : res (f2x * bool) :=
  if (degree <? deg poly)%coqZ then
    match fuel with
    | O => NoFuel
    | S fuel' =>
        do '(poly', go) <- hf_inner fuel0 poly t degree;
        if go then
          do t2m' <- gf2x_mod (t2m * t2m) poly';
          hf_outer fuel0 fuel' poly' t2m' (t2m' + 'X) degree
        else Ret (poly', false)
    end
  else if (deg poly =? degree)%coqZ then Ret (poly, isIrreducible poly)
  else Ret (poly, false).
Definition hasFactorOfDegree (fuel : nat) (poly : f2x) (degree : Z) : res (f2x * bool) :=
  if (deg poly <? degree)%coqZ then Ret (poly, false)
  else hf_outer fuel fuel poly 'X^2 ('X + 'X^2) degree.

Section Gen.
Variable S : Type.
Variable G : gen_ops S.
(** NTL::MinPolySeq(h, a, m) *)
Variable MinPolySeq : seq 'F_2 -> nat -> f2x.

(** period.hpp:69-72: the loop that records one bit of each output. *)
Fixpoint record_bits (cnt : nat) (pos : Z) (s : S) : res (seq 'F_2 * S) :=
  match cnt with
  | O => Ret ([], s)
  | Datatypes.S c =>
      let '(x, s') := g_generate G s in
      do b <- getBitOfPos (g_width G) x pos;
      do '(v, s'') <- record_bits c pos s';
      Ret ((b == 1%num)%:R :: v, s'')
  end.
(** period.hpp:55-75  minpoly *)
Definition minpoly (s : S) (pos : Z) (stateSize : Z) : res (f2x * S) :=
  let size := if (stateSize <=? 0)%coqZ then g_bitSize G s else Z.to_nat stateSize in
  do '(v, s') <- record_bits (2 * size) pos s;
  Ret (MinPolySeq v size, s').

(** ReducibleGenerator.hpp:143-155  annihilate; [i] counts from 0, [cnt] is the
    number of further iterations. *)
Fixpoint annihilate_loop (cnt i : nat) (poly : f2x) (rg other : S) : S :=
  match cnt with
  | O => rg
  | Datatypes.S c =>
      let rg' := if poly`_i == 0 then rg else g_add G rg other in
      annihilate_loop c i.+1 poly rg' (g_generate G other).2
  end.
Definition annihilate (rg : S) (poly : f2x) : S :=
  annihilate_loop (Z.to_nat (deg poly + 1)) 0 poly (g_setZero G rg) rg.

(** AlgorithmReducibleRecursionSearch.hpp:247-273
    calcCharacteristicPolynomial: [i] is the loop variable. *)
Fixpoint ccp_loop (cnt i : nat) (size : nat) (s : S) (lcmpoly : f2x) : res (f2x * S) :=
  match cnt with
  | O => Ret (lcmpoly, s)
  | Datatypes.S c =>
      if (deg lcmpoly =? Z.of_nat size)%coqZ then Ret (lcmpoly, s)
      else
        do '(minpol, s') <- minpoly s (Z.of_nat i) 0;
        do l <- LCM lcmpoly minpol;
        ccp_loop c i.+1 size s' l
  end.
Definition calcCharacteristicPolynomial (s : S) (poly : f2x) : res (f2x * S) :=
  ccp_loop (N.to_nat (g_width G)) 0 (g_bitSize G s) s poly.

(** The parameter generator and setUpParam (RecursionSearchable.hpp:73); it may
    throw when the parameter generator is exhausted. *)
Variable B : Type.
Variable setUpParam : S -> B -> res (S * B).
Variable getOne : N.

(** AlgorithmRecursionSearch.hpp:174-194  start; the object's fields are the
    generator, the parameter generator, poly and count. *)
Record rs_state := { rs_rand : S; rs_base : B; rs_poly : f2x; rs_count : Z }.
Fixpoint rs_loop (tries : nat) (prim : primitivity) (size : nat) (o : rs_state) : res (bool * rs_state) :=
  match tries with
  | O => Ret (false, o)
  | Datatypes.S c =>
      do '(r, b) <- setUpParam (rs_rand o) (rs_base o);
      let r := g_seed G getOne r in
      do '(poly, r') <- minpoly r 0 0;
      let o' := {| rs_rand := r'; rs_base := b; rs_poly := poly; rs_count := (rs_count o + 1)%coqZ |} in
      if (deg poly =? Z.of_nat size)%coqZ then
        do p <- pr_call prim (Z.of_nat size) poly;
        if p then Ret (true, o') else rs_loop c prim size o'
      else rs_loop c prim size o'
  end.
Definition rs_start (prim : primitivity) (try_count : Z) (o : rs_state) : res (bool * rs_state) :=
  rs_loop (Z.to_nat try_count) prim (g_bitSize G (rs_rand o)) o.

(** AlgorithmReducibleRecursionSearch.hpp:120-162  start *)
Record rr_state := { rr_rand : S; rr_base : B; rr_poly : f2x; rr_irreducible : f2x; rr_count : Z }.
Fixpoint rr_loop (fuel : nat) (tries : nat) (mexp : Z) (o : rr_state) : res (bool * rr_state) :=
  match tries with
  | O => Ret (false, o)
  | Datatypes.S c =>
      do '(r, b) <- setUpParam (rr_rand o) (rr_base o);
      let r := g_seed G getOne r in
      do '(poly, r') <- minpoly r 0 0;
      let count := (rr_count o + 1)%coqZ in
      if (deg poly <? mexp)%coqZ then
        rr_loop fuel c mexp {| rr_rand := r'; rr_base := b; rr_poly := poly; rr_irreducible := poly; rr_count := count |}
      else
        do '(irr, hasFactor) <- hasFactorOfDegree fuel poly mexp;
        let o' := {| rr_rand := r'; rr_base := b; rr_poly := poly; rr_irreducible := irr; rr_count := count |} in
        if ~~ hasFactor then rr_loop fuel c mexp o'
        else if ~~ (deg irr =? mexp)%coqZ then rr_loop fuel c mexp o'
        else Ret (true, o')
  end.
(** [mexp] is rand->getMexp(). *)
Definition rr_start (fuel : nat) (mexp : Z) (try_count : Z) (o : rr_state) : res (bool * rr_state) :=
  rr_loop fuel (Z.to_nat try_count) mexp o.

(** AlgorithmReducibleEquidistribution.hpp:73-83: the state given to
    AlgorithmEquidistribution. *)
Definition reducible_state (rg : S) (irreducibleFactor : f2x) : res S :=
  do '(poly, rand) <- calcCharacteristicPolynomial rg 1;
  do quotient <- gf2x_div poly irreducibleFactor;
  Ret (annihilate rand quotient).
End Gen.
