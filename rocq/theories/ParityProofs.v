(** Linear algebra for the parity vector: the kernel of the large factor, its
    complement, and echelon systems of words. *)
From Coq Require Import NArith ZArith List Bool Lia.
From mathcomp Require Import all_ssreflect all_algebra all_field.
From mathcomp Require Import zify.
From Verif Require Import Base GenModel PolyF2 LinSpec LinLemmas PeriodModel PeriodSpec PolyAct.
From Verif Require Import PeriodProofs PeriodProofs2 PeriodProofs3 PeriodProofs4 PeriodProofs5 PeriodProofs6 PeriodProofs7.
From Verif Require Import ParityModel ParitySpec.
Set Implicit Arguments.
Unset Strict Implicit.
Unset Printing Implicit Defensive.
Import GRing.Theory.
Local Open Scope ring_scope.
Delimit Scope Z_scope with coqZ.

(** An irreducible factor of the characteristic polynomial divides every
    polynomial that kills the matrix. *)
Lemma irred_char_dvd n (A : 'M['F_2]_n) (f c : f2x) : irreducible_poly f -> f %| char_poly A ->
  (forall x, pact A c x = 0) -> f %| c.
Proof.
case: n A => [|n] A I D kill.
  have sf := irred_size I; have := dvdp_leq (char_neq0 A) D; rewrite size_char_poly.
  by rewrite leqNgt sf.
have [L _ [z rz _]] := irredp_FAdjoin I.
pose iota : {rmorphism 'F_2 -> L} := [rmorphism of in_alg L].
have rc : root (map_poly iota (char_poly A)) z.
  have [r ->] := dvdpP _ _ D; rewrite rmorphM /= rootM; apply/orP; right; exact: rz.
rewrite map_char_poly -eigenvalue_root_char eigenvalue_root_min in rc.
have c0 : horner_mx A c = 0.
  by apply/row_matrixP=> i; rewrite rowE -pact_horner kill row0.
have : mxminpoly (map_mx iota A) %| map_poly iota c.
  by apply: mxminpoly_min; rewrite -map_horner_mx c0 map_mx0.
case/dvdpP=> r rE.
have rcz : root (map_poly iota c) z by rewrite rE rootM rc orbT.
apply: contraT => nd; have /Bezout_eq1_coprimepP[[u v] /= uv] := irred_coprime I nd.
have := congr1 (fun p => (map_poly iota p).[z]) uv; rewrite rmorphD !rmorphM /= hornerD !hornerM.
rewrite (eqP rcz) (_ : (map_poly iota f).[z] = 0); last exact/eqP.
by rewrite !mulr0 addr0 rmorph1 hornerC => /esym/eqP; rewrite oner_eq0.
Qed.

Lemma rank_krylov_irred n (A : 'M['F_2]_n) (phi : f2x) (y : 'rV['F_2]_n) : irreducible_poly phi -> y != 0 ->
  pact A phi y = 0 -> ((size phi).-1 <= \rank (krylov A y))%N.
Proof.
move=> I y0 yphi; set e := (size phi).-1.
pose Y : 'M['F_2]_(e, n) := \matrix_(i < e) st A i y.
have fr : row_free Y.
  rewrite -kermx_eq0; apply/eqP/row_matrixP => i; rewrite row0.
  set v := row i _; have vY : v *m Y = 0 by apply/sub_kermxP; apply: row_sub.
  have : pact A (rVpoly v) y = 0.
    rewrite -[RHS]vY (pactE A (K := e)) ?size_poly //; apply/rowP=> j.
    by rewrite mxE summxE; apply: eq_bigr => k _; rewrite coef_rVpoly_ord !mxE.
  move/eqP; rewrite (ann_irred _ I yphi y0) => D.
  apply: (can_inj (@rVpolyK _ _)); rewrite linear0.
  apply/eqP; apply: contraTT D => v0; apply/negP=> /(dvd_size v0).
  rewrite leqNgt => /negP; apply.
  have := irred_size I; have : (size (rVpoly v) <= e)%N by exact: size_poly.
  by rewrite /e; move: (size (rVpoly v)) => q; lia.
have : (Y <= krylov A y)%MS by apply/row_subP => i; rewrite rowK; exact: krylov_st.
by move/mxrankS; rewrite (eqP fr).
Qed.

Section Ker.
Variables (n d : nat) (A : 'M['F_2]_n) (f : f2x).
Hypothesis I : irreducible_poly f.
Hypothesis sf : size f = d.+1.
Hypothesis D1 : f %| char_poly A.
Hypothesis D2 : ~~ (f ^+ 2 %| char_poly A).
Notation q := (char_poly A %/ f).
Notation P := (poly_mx A f).

Lemma char_fq : char_poly A = f * q.
Proof. by rewrite mulrC divpK. Qed.
Lemma f_ndvd_q : ~~ (f %| q).
Proof. by apply: contra D2 => D; rewrite char_fq expr2 dvdp_mul. Qed.
Lemma q_f x : pact A q (pact A f x) = 0.
Proof. by rewrite -pactM mulrC -char_fq cayley. Qed.

(** The image of f is the kernel of q. *)
Lemma image_ker x : (x <= P)%MS <-> pact A q x = 0.
Proof.
split=> [/submxP[y ->]|qx]; first by rewrite -pact_mx q_f.
have /Bezout_eq1_coprimepP[[u v] /= uv] := irred_coprime I f_ndvd_q.
rewrite -[x](pact1 A) -uv pactD [u * f]mulrC !pactM qx pact_v0 addr0.
by rewrite pact_mx submxMl.
Qed.

Lemma rank_image : (\rank P <= n - d)%N.
Proof.
have [y y0 fy] : exists2 y, y != 0 & pact A f y = 0.
  have [E|] := eqVneq (kermx P) 0; last first.
    by case/rowV0Pn => y /sub_kermxP yP y0; exists y; rewrite // pact_mx.
  have inj x : pact A f x = 0 -> x = 0.
    by rewrite pact_mx => /sub_kermxP; rewrite E submx0 => /eqP.
  case/negP: f_ndvd_q; apply: (irred_char_dvd I D1) => x.
  by apply: inj; rewrite pact_comm q_f.
have := rank_krylov_irred I y0 fy; rewrite sf /=.
have Ks : (krylov A y <= kermx P)%MS.
  by apply/row_subP=> i; apply/sub_kermxP; rewrite rowK -pact_mx pact_st fy st0.
move=> le; have := leq_trans le (mxrankS Ks); rewrite mxrank_ker.
by have := rank_leq_row P; move: (\rank P) => a; lia.
Qed.

(** A state outside the kernel of q has a period that is a multiple of the
    order of X modulo f. *)
Lemma out_period x k : primitive f d -> pact A q x != 0 -> st A k x = x -> (2 ^ d - 1 %| k)%N.
Proof.
move=> Pf qx sk; apply: (primitive_dvd Pf).
have fy : pact A f (pact A q x) = 0 by rewrite -pactM -char_fq cayley.
rewrite -(ann_irred _ I fy qx) pactB pactX pact1 -pact_st sk subrr //.
Qed.
Lemma dim_le : (d <= n)%N.
Proof. by have := dvd_size (char_neq0 A) D1; rewrite sf size_char_poly. Qed.
End Ker.

(** * Systems of row vectors in echelon form *)
Section Echelon.
Variables (w : nat) (B : 'M['F_2]_w).
Hypothesis ech : forall i, row i B != 0 -> B i i = 1 /\ forall j : 'I_w, (i < j)%N -> B i j = 0.
Let J := [pred i : 'I_w | row i B != 0].

Lemma echelon_rank : (#|J| <= \rank B)%N.
Proof.
pose B' := \matrix_i (if row i B != 0 then row i B else delta_mx 0 i).
have tri : is_trig_mx B'.
  apply/is_trig_mxP => i j ij; rewrite !mxE; case: ifP => Hi.
    by rewrite mxE; have [_ ->] := ech Hi.
  rewrite mxE [j == i](_ : _ = false) ?andbF //; apply/eqP => E; by move: ij; rewrite E ltnn.
have dt : \det B' = 1.
  rewrite det_trig // big1 // => i _; rewrite !mxE; case: ifP => Hi; first by rewrite mxE; have [->] := ech Hi.
  by rewrite mxE !eqxx.
have Bu : B' \in unitmx by rewrite unitmxE dt unitr1.
pose F (k : 'I_#|J|) : 'I_w := enum_val k.
have Finj : injective F by apply: enum_val_inj.
have E : rowsub F B' = rowsub F B.
  apply/row_matrixP => k; rewrite !row_rowsub rowK.
  by have := enum_valP k; rewrite inE => ->.
have fr : row_free (rowsub F B').
  apply/row_freeP; exists (invmx B' *m colsub F 1%:M).
  rewrite mulmxA -[rowsub F B']mul1mx -[B' in rowsub F B']mul1mx -mul_rowsub_mx mul1mx mulmxK //.
  apply/matrixP => a b; rewrite !mxE (bigD1 (F a)) //= !mxE eqxx mul1r big1 => [|c Hc].
    by rewrite addr0 (inj_eq Finj).
  by rewrite !mxE eq_sym (negbTE Hc) mul0r.
rewrite -(eqP fr) E; apply: mxrankS; exact: rowsub_sub.
Qed.
End Echelon.
