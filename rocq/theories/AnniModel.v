(** Model of samples/sfmtdc/Annihilate.cpp and samples/dSFMTdc/Annihilate.cpp.
    The text written to cout is left out. *)
From Coq Require Import NArith ZArith List Bool.
From mathcomp Require Import all_ssreflect all_algebra.
From Verif Require Import Base UtilModel GenModel PolyF2 PeriodModel ParityModel.
Import ListNotations.
Set Implicit Arguments.
Unset Strict Implicit.
Unset Printing Implicit Defensive.
Import GRing.Theory.
Local Open Scope ring_scope.
Delimit Scope Z_scope with coqZ.

Section Anni.
Variable S : Type.
Variable G : gen_ops S.
Variable P : par_ops S.
(** NTL::MinPolySeq *)
Variable M : seq 'F_2 -> nat -> f2x.

(** dSFMTdc/Annihilate.cpp:73-77: the loop of minPolyLung, [cnt] passes left;
    getParityValue() of dSFMT is the lung. *)
Fixpoint lung_bits (cnt : nat) (pos : Z) (s : S) : res (seq 'F_2 * S) :=
  match cnt with
  | O => Ret ([], s)
  | Datatypes.S c =>
      let s' := (g_generate G s).2 in
      do b <- getBitOfPos (g_width G) (p_getParityValue P s') pos;
      do '(v, s'') <- lung_bits c pos s';
      Ret ((b == 1%num)%:R :: v, s'')
  end.
(** dSFMTdc/Annihilate.cpp:68-79  minPolyLung *)
Definition minPolyLung (s : S) (pos : Z) : res (f2x * S) :=
  let size := g_bitSize G s in
  do '(v, s') <- lung_bits (2 * size) pos s;
  Ret (M v size, s').
(** dSFMTdc/Annihilate.cpp:59-66  lungLCM; [i] is the loop variable *)
Fixpoint lungLCM_loop (cnt i : nat) (s : S) (lcm : f2x) : res (f2x * S) :=
  match cnt with
  | O => Ret (lcm, s)
  | Datatypes.S c =>
      do '(poly, s') <- minPolyLung s (Z.of_nat i);
      do l <- LCM lcm poly;
      lungLCM_loop c i.+1 s' l
  end.
Definition lungLCM (s : S) (lcm : f2x) : res (f2x * S) := lungLCM_loop (N.to_nat 128) 0 s lcm.
(** The loops of dSFMTdc/Annihilate.cpp:49-56 (mp is minPolyLung with bit 0) and
    sfmtdc/Annihilate.cpp:48-65 (mp is minpoly). *)
Fixpoint unit_loop (mp : S -> res (f2x * S)) (cnt i bitSize : nat) (gen : S) (lcm : f2x) : res f2x :=
  match cnt with
  | O => Ret lcm
  | Datatypes.S c =>
      do gen1 <- p_setOneBit P i gen;
      do '(poly, gen2) <- mp gen1;
      do l <- LCM lcm poly;
      if (deg l =? Z.of_nat bitSize)%coqZ then Ret l else unit_loop mp c i.+1 bitSize gen2 l
  end.
(** dSFMTdc/Annihilate.cpp:43-57  getLCMPoly; gen is a copy of sf *)
Definition getLCMPoly_d (lcm : f2x) (sf : S) : res f2x :=
  do '(l, gen) <- lungLCM sf lcm;
  let bitSize := g_bitSize G gen in
  unit_loop (fun s => minPolyLung s 0) bitSize 0 bitSize gen l.
(** dSFMTdc/Annihilate.cpp:13-41  anni *)
Definition anni_d (fuel : nat) (sf : S) : res (bool * S) :=
  do '(poly, sf1) <- minpoly G M sf 0 0;
  do '(irreducible, has) <- hasFactorOfDegree fuel poly (p_getMexp P sf);
  if ~~ has then Ret (false, sf1)
  else
    do '(poly, sf2) <- minpoly G M sf1 0 0;
    do poly <- (if ~~ (deg poly =? Z.of_nat (g_bitSize G sf2))%coqZ then getLCMPoly_d poly sf2 else Ret poly);
    do quotient <- gf2x_div poly irreducible;
    let sf3 := annihilate G sf2 quotient in
    do '(_, sf4) <- minpoly G M sf3 0 0;
    Ret (true, sf4).

(** sfmtdc/Annihilate.cpp:43-66  getLCMPoly *)
Definition getLCMPoly_s (lcm : f2x) (sf : S) : res f2x :=
  let bitSize := g_bitSize G sf in
  unit_loop (fun s => minpoly G M s 0 0) bitSize 0 bitSize sf lcm.
(** sfmtdc/Annihilate.cpp:13-41  anni *)
Definition anni_s (fuel : nat) (sf : S) : res (bool * S) :=
  do '(poly, sf1) <- minpoly G M sf 0 0;
  do '(irreducible, has) <- hasFactorOfDegree fuel poly (p_getMexp P sf);
  if ~~ has then Ret (false, sf1)
  else
    do '(poly, sf2) <- calcCharacteristicPolynomial G M sf1 poly;
    do poly <- (if ~~ (deg poly =? Z.of_nat (g_bitSize G sf2))%coqZ then getLCMPoly_s poly sf2 else Ret poly);
    do quotient <- gf2x_div poly irreducible;
    let sf3 := annihilate G sf2 quotient in
    do '(_, sf4) <- minpoly G M sf3 0 0;
    Ret (true, sf4).
End Anni.
