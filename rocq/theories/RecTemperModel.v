(** Model of AlgorithmRecursionAndTempering.hpp: search for recursion
    parameters, then for tempering parameters. *)
From Coq Require Import NArith ZArith List.
From mathcomp Require Import all_ssreflect all_algebra.
From Verif Require Import Base GenModel PolyF2 LinSpec EquiModel PeriodModel TemperModel.
Set Implicit Arguments.
Unset Strict Implicit.
Unset Printing Implicit Defensive.
Import GRing.Theory.
Local Open Scope ring_scope.
Delimit Scope Z_scope with coqZ.

Section RT.
Variables (S : Type) (G : gen_ops S) (T : temper_ops S).
(** MinPolySeq of NTL, the parameter generator with setUpParam, getOne. *)
Variables (M : seq 'F_2 -> nat -> f2x) (B : Type) (setUpParam : S -> B -> res (S * B)) (one : N).
(** calc_1pos, the fuel of the equidistribution algorithm and the
    uninitialised array veq. *)
Variables (pos : N -> res Z) (efuel : nat) (veq0 : list Z).

(** 259-261: the fields, and the objects passed by reference. *)
Record rt_state := { rt_weight : Z; rt_delta : Z; rt_poly : f2x; rt_rand : S; rt_base : B }.

(** 149-157: the loop; the object [search] keeps its state. *)
Fixpoint rt_find (fuel : nat) (prim : primitivity) (mexp : Z) (o : rs_state S B) : res (rs_state S B) :=
  match fuel with
  | O => NoFuel
  | f.+1 =>
      do '(found, o') <- rs_start G M setUpParam one prim (1000 * mexp)%coqZ o;
      if found : bool then Ret o' else rt_find f prim mexp o'
  end.
(** NTL: weight, the number of non-zero coefficients. *)
Definition weight (p : f2x) : Z := Z.of_nat (count (fun c => c != 0) p).
Definition rt_equidist (s : S) : res Z := tm_get_equidist S G T pos efuel veq0 (N.to_nat (g_width G)) s.

(** 135-205  search.  [st1] and [st2] are the operator() of the tempering
    algorithms, [lsb2] is isLSBTempering() of the second.  What verbose prints is
    left out; the equidistribution it calculates is not. *)
Definition rt_search (fuel : nat) (prim : primitivity) (st1 st2 : S -> res (Z * S)) (lsb2 : bool)
  (verbose no_lsb : bool) (lg : S) (b : B) : res (bool * rt_state) :=
  let mexp := Z.of_nat (g_bitSize G lg) in
  do o <- rt_find fuel prim mexp {| rs_rand := lg; rs_base := b; rs_poly := 0; rs_count := 0%coqZ |};
  let poly := rs_poly o in
  let w := weight poly in
  do _ <- (if verbose then rt_equidist (rs_rand o) else Ret 0%coqZ);
  do lg2 <- (if no_lsb then Ret (rs_rand o) else
               do '(_, l) <- st2 (rs_rand o);
               if verbose then
                 let l := if lsb2 then t_setRev T l else l in
                 do _ <- rt_equidist l;
                 Ret (t_resetRev T l)
               else Ret l);
  do '(_, lg1) <- st1 lg2;
  do delta <- rt_equidist lg1;
  Ret (true, {| rt_weight := w; rt_delta := delta; rt_poly := poly; rt_rand := lg1; rt_base := rs_base o |}).
(** 236-241  search with one tempering algorithm *)
Definition rt_search1 (fuel : nat) (prim : primitivity) (st : S -> res (Z * S)) (lsb : bool) (verbose : bool)
  (lg : S) (b : B) : res (bool * rt_state) := rt_search fuel prim st st lsb verbose true lg b.
End RT.
