(** Proofs about LCM, print_binary, the primitivity tests, decimal strings and
    hasFactorOfDegree. *)
From Coq Require Import NArith ZArith List Bool Lia.
From mathcomp Require Import all_ssreflect all_algebra.
From mathcomp Require Import zify.
From Verif Require Import Base UtilModel GenModel PolyF2 LinSpec PeriodModel PeriodSpec.
Set Implicit Arguments.
Unset Strict Implicit.
Unset Printing Implicit Defensive.
Import GRing.Theory.
Local Open Scope ring_scope.
Delimit Scope Z_scope with coqZ.

(** * LCM *)
Lemma gcdp_eq0P (x y : f2x) : (gcdp x y == 0) = (x == 0) && (y == 0).
Proof. by rewrite gcdp_eq0. Qed.

Lemma LCM_spec (x y : f2x) : ~~ ((x == 0) && (y == 0)) ->
  exists l, LCM x y = Ret l /\ [/\ x %| l, y %| l & forall c, x %| c -> y %| c -> l %| c].
Proof.
move=> nz; rewrite /LCM /gf2x_div gcdp_eq0P (negPf nz); exists (x * y %/ gcdp x y); split=> //.
set g := gcdp x y; have g0 : g != 0 by rewrite gcdp_eq0P.
have gx : g %| x := dvdp_gcdl x y; have gy : g %| y := dvdp_gcdr x y.
have lE : x * y %/ g = x * (y %/ g) by rewrite [x * y]mulrC -divp_mulAC // mulrC.
have lE' : x * y %/ g = x %/ g * y by rewrite -divp_mulAC.
split; first by rewrite lE dvdp_mulr.
  by rewrite lE' dvdp_mull.
move=> c /dvdpP[u ->] D; rewrite lE [u * x]mulrC; apply: dvdp_mul => //.
have cop : coprimep (y %/ g) (x %/ g).
  by rewrite coprimep_sym; apply: coprimep_div_gcd; rewrite -negb_and.
rewrite -(Gauss_dvdpl _ cop) -(dvdp_mul2r _ _ g0) -mulrA !divpK //.
Qed.

Lemma LCM_zero : LCM 0 0 = Exit.
Proof. by rewrite /LCM /gf2x_div gcdp0 eqxx. Qed.

Lemma LCM_alias_spec out st : exists r, LCM_alias out st =
  (do l <- LCM (st VX) (st VY); Ret (r l)) /\
  forall l, r l out = l /\ forall v, v <> out -> r l v = st v.
Proof.
exists (fun l => set_var out l (set_var out (st VX * st VY) st)); split.
  by rewrite /LCM_alias /LCM; case: out.
by move=> l; split; [case: out | case: out => [] []].
Qed.

(** * print_binary *)
Lemma deg_lt0 (p : f2x) : (deg p <? 0)%coqZ = (p == 0).
Proof. by rewrite /deg -size_poly_eq0; lia. Qed.

Lemma printed_app (p : f2x) b (l : list nat) rest :
  printed_digits (List.flat_map (print_digit p b) l ++ rest)%list =
  (List.map (fun i => if p`_i == 1 then 49%num else 48%num) l ++ printed_digits rest)%list.
Proof.
elim: l => [|i l IH] //=; rewrite -List.app_assoc /print_digit /=.
by case: (p`_i == 1); case: (b && _) => /=; rewrite IH.
Qed.

Lemma mapsE (A B : Type) (f : A -> B) (l : list A) : map f l = List.map f l.
Proof. by elim: l => //= x l ->. Qed.

Lemma print_digits_spec (p : f2x) b : p != 0 -> printed_digits (print_binary p b) = coef_digits p.
Proof.
move=> p0; rewrite /print_binary deg_lt0 (negPf p0) printed_app.
have -> : Z.to_nat (deg p + 1) = size p by rewrite /deg; lia.
rewrite [printed_digits _]/= List.app_nil_r /coef_digits.
have E : polyseq p = map (fun i => p`_i) (iota 0 (size p)) by rewrite -[RHS]/(mkseq _ _) mkseq_nth.
transitivity (map (fun a : 'F_2 => if a == 0 then 48%num else 49%num) (map (fun i => p`_i) (iota 0 (size p)))); last by rewrite -E.
rewrite -map_comp -mapsE -[List.seq 0 _]/(iota 0 _).
apply: eq_map => i /=; have [->|/f2_neq0->] := eqVneq (p`_i) 0; last by rewrite eqxx.
by rewrite eq_sym oner_eq0.
Qed.

Lemma print_zero b : print_binary 0 b = [:: 48; 100; 101; 103; 61; 45; 49; 10]%num.
Proof. by rewrite /print_binary deg_lt0 eqxx. Qed.

Lemma coef_digits_inj (p q : f2x) : coef_digits p = coef_digits q -> p = q.
Proof.
rewrite /coef_digits => E; apply: val_inj => /=; apply: inj_map E => x y.
have [->|/f2_neq0->] := eqVneq x 0; have [->|/f2_neq0->] := eqVneq y 0; rewrite ?oner_eq0 ?eqxx //.
Qed.

Lemma print_inj (p q : f2x) b c : print_binary p b = print_binary q c -> p = q.
Proof.
have key (r : f2x) d : r != 0 -> print_binary r d <> print_binary 0 true.
  move=> r0 E; have := print_digits_spec d r0; rewrite E print_zero /= /coef_digits => H.
  have s1 : size r = 1%N by rewrite -(size_map (fun a : 'F_2 => if a == 0 then 48%num else 49%num)) -H.
  have /eqP r1 : r == 1 by rewrite -f2x_size1 s1.
  by move: H; rewrite r1 polyseq1.
have z e : print_binary 0 e = print_binary 0 true by rewrite !print_zero.
have [->|p0] := eqVneq p 0; have [->|q0] := eqVneq q 0 => // E.
- by case: (key q c q0); rewrite -E z.
- by case: (key p b p0); rewrite E z.
by apply: coef_digits_inj; rewrite -(print_digits_spec b p0) -(print_digits_spec c q0) E.
Qed.
