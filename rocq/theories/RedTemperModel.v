(** Model of AlgorithmReducibleRT.hpp: search for the recursion parameters of a
    reducible generator, its parity vector, and tempering parameters. *)
From Coq Require Import NArith ZArith List.
From mathcomp Require Import all_ssreflect all_algebra.
From Verif Require Import Base GenModel PolyF2 LinSpec EquiModel PeriodModel TemperModel ParityModel RecTemperModel.
Set Implicit Arguments.
Unset Strict Implicit.
Unset Printing Implicit Defensive.
Import GRing.Theory.
Local Open Scope ring_scope.
Delimit Scope Z_scope with coqZ.

Section RRT.
Variables (S : Type) (G : gen_ops S) (T : temper_ops S) (P : par_ops S).
(** MinPolySeq and kernel of NTL, the parameter generator with setUpParam, getOne. *)
Variables (M : seq 'F_2 -> nat -> f2x) (kernel : nat -> nat -> (nat -> nat -> bool) -> list (list bool))
  (B : Type) (setUpParam : S -> B -> res (S * B)) (one : N).
(** calc_1pos, the value of a shift by -1 (as in ParityModel), the fuel of the
    loops of the library and the uninitialised array veq. *)
Variables (pos : N -> res Z) (junk : N) (fuel : nat) (veq0 : list Z).

(** 289-292: the fields, and the objects passed by reference. *)
Record rrt_state := { rrt_weight : Z; rrt_delta : Z; rrt_parity : N; rrt_poly : f2x; rrt_rand : S; rrt_base : B }.

(** 141-149: the loop; the object [search] keeps its state.  [mexp] is
    rg.bitSize(), the degree looked for is rand->getMexp(). *)
Fixpoint rrt_find (ffuel : nat) (mexp : Z) (o : rr_state S B) : res (rr_state S B) :=
  match ffuel with
  | O => NoFuel
  | f.+1 =>
      do '(found, o') <- rr_start G M setUpParam one fuel (p_getMexp P (rr_rand o)) (1000 * mexp)%coqZ o;
      if found : bool then Ret o' else rrt_find f mexp o'
  end.
(** 169-170, 180-181, 191-192: AlgorithmEquidistribution<U> sb(rg, bit_size<U>()),
    without the third argument *)
Definition rrt_equidist (s : S) : res Z :=
  do '(_, _, sum) <- get_all_equidist G pos fuel (ae_new G s (N.to_nat (g_width G)) 0) veq0;
  Ret sum.

(** 126-202  search.  [st1] and [st2] are the operator() of the tempering
    algorithms, [lsb2] is isLSBTempering() of the second.  1000 * mexp is an int.
    What verbose prints is left out; the equidistribution it calculates is not. *)
Definition rrt_search (ffuel : nat) (st1 st2 : S -> res (Z * S)) (lsb2 : bool)
  (verbose no_lsb : bool) (rg : S) (b : B) : res (bool * rrt_state) :=
  let mexp := Z.of_nat (g_bitSize G rg) in
  if (2 ^ 31 <=? 1000 * mexp)%coqZ then Undef else
  do o <- rrt_find ffuel mexp {| rr_rand := rg; rr_base := b; rr_poly := 0; rr_irreducible := 0; rr_count := 0%coqZ |};
  let poly := rr_irreducible o in
  do '(parity, g1) <- searchParity G P pos kernel (Some junk) fuel (rr_rand o) poly;
  let w := weight poly in
  do '(lcm, g2) <- calcCharacteristicPolynomial G M g1 1;
  do quotient <- gf2x_div lcm poly;
  let g3 := annihilate G g2 quotient in
  do _ <- (if verbose then rrt_equidist g3 else Ret 0%coqZ);
  do g4 <- (if no_lsb then Ret g3 else
              do '(_, l) <- st2 g3;
              if verbose then
                let l := if lsb2 then t_setRev T l else l in
                do _ <- rrt_equidist l;
                Ret (t_resetRev T l)
              else Ret l);
  do '(_, g5) <- st1 g4;
  do delta <- rrt_equidist g5;
  Ret (true, {| rrt_weight := w; rrt_delta := delta; rrt_parity := parity; rrt_poly := poly; rrt_rand := g5; rrt_base := rr_base o |}).
(** 233-238, search with one tempering algorithm, does not compile when it is
    used: its argument rg is not a G. *)
End RRT.
