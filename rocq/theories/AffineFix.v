(** Affine maps over GF(2) whose linear part has an irreducible component: the
    fixed point of the component and the period of the states outside it. *)
From mathcomp Require Import all_ssreflect all_algebra.
From mathcomp Require Import zify.
From Verif Require Import Base GenModel PolyF2 LinSpec LinLemmas PeriodSpec PolyAct PeriodProofs2 PeriodProofs3 PeriodProofs4 PeriodProofs5 PeriodProofs7 ArrayOut ParityProofs.
Set Implicit Arguments.
Unset Strict Implicit.
Unset Printing Implicit Defensive.
Import GRing.Theory.
Local Open Scope ring_scope.

Lemma swap5 (R : comRingType) (a f b' b q : R) : a * f * (b' * (b * q)) = (b' * a * b) * (f * q).
Proof. by rewrite mulrA [_ * b']mulrC [b' * (a * f)]mulrA -[b' * a * f * _]mulrA [f * _]mulrCA mulrA. Qed.
Section Affine.
Variables (n : nat) (A : 'M['F_2]_n) (c : 'rV['F_2]_n).
(** Steps of the affine map. *)
Definition aff (k : nat) (x : 'rV['F_2]_n) : 'rV['F_2]_n := iter k (fun y => y *m A + c) x.
Variables (f q a b a' b' : f2x).
Hypothesis ab : a * f + b * q = 1.
Hypothesis ab' : a' * f + b' * ('X + 1) = 1.
Hypothesis fqc : pact A (f * q) c = 0.
(** The projection of the constant and the fixed point. *)
Notation P := (pact A (b * q)).
Definition fixc : 'rV['F_2]_n := pact A b' (P c).
Lemma st1 x : st A 1 x = x *m A.
Proof. by []. Qed.
Lemma kill h : f * q %| h -> pact A h c = 0.
Proof. by case/dvdpP => k ->; rewrite pactM fqc pact_v0. Qed.
Lemma kill_f : pact A f (P c) = 0.
Proof. by rewrite -pactM; apply: kill; rewrite mulrCA dvdp_mulIr. Qed.
Lemma fix_step : fixc *m A + P c = fixc.
Proof.
have E : fixc *m A + fixc = P c.
  rewrite -st1 -pactX expr1 -{2}[fixc](pact1 A) -pactD /fixc -pactM [_ * b']mulrC.
  have -> : b' * ('X + 1) = 1 - a' * f by apply/eqP; rewrite eq_sym subr_eq [X in _ == X]addrC ab'.
  by rewrite pactB pact1 (pactM A a' f) kill_f pact_v0 subr0.
by rewrite -E addrA addF2_self add0r.
Qed.
Lemma fix_proj : P fixc = fixc.
Proof.
have E : b * q = 1 - a * f by apply/eqP; rewrite eq_sym subr_eq [X in _ == X]addrC ab.
have E0 : P fixc = pact A (b * q * (b' * (b * q))) c by rewrite /fixc !pactM.
have E1 : b * q * (b' * (b * q)) = b' * (b * q) - (b' * a * b) * (f * q).
  by rewrite [X in X * (b' * _) = _]E mulrBl mul1r swap5.
by rewrite E0 E1 pactB [pact A (_ * (f * q)) c]kill ?dvdp_mulIr // subr0 pactM.
Qed.
(** The component of the state, shifted by the fixed point, moves linearly. *)
Lemma aff_fix x k : P (aff k x) + fixc = st A k (P x + fixc).
Proof.
elim: k => [//|k IH]. rewrite /st iterS -/(st _ k _) -IH /aff iterS -/(aff k x).
rewrite pact_vD mulmxDl -st1 pact_st st1 -addrA. congr (_ + _). by rewrite -{1}fix_step addrCA addF2_self addr0.
Qed.
End Affine.

(** The period of the states outside the fixed point of the component: q need only
    be prime to f, the constant need not be killed by f q. *)
Section Period.
Variables (n : nat) (A : 'M['F_2]_n) (c : 'rV['F_2]_n) (f q a b a' b' : f2x).
Hypothesis ab : a * f + b * q = 1.
Hypothesis ab' : a' * f + b' * ('X + 1) = 1.
Hypothesis I : irreducible_poly f.
Hypothesis D1 : f %| char_poly A.
Notation R := (pact A (char_poly A %/ f)).
Notation F := (fixc A c q b b').
Lemma R_kill h x : R (pact A (h * f) x) = 0.
Proof. by rewrite -pactM mulrCA divpK // pactM cayley pact_v0. Qed.
Lemma R_one h x : (exists k, h = 1 + k * f) -> R (pact A h x) = R x.
Proof. by case=> k ->; rewrite pactD pact1 pact_vD R_kill addr0. Qed.
Lemma R_fix : R F *m A + R c = R F.
Proof.
have E : R F *m A + R F = R c.
  rewrite -st1 -pactX expr1 -{2}[R F](pact1 A) -pactD pact_comm /fixc -[pact A b' _]pactM -[pact A ('X + 1) _]pactM.
  apply: R_one; exists (a * a' * f - a - a').
  have -> : ('X + 1) * (b' * (b * q)) = (b' * ('X + 1)) * (b * q) by rewrite mulrA [('X + 1) * b']mulrC.
  have -> : b' * ('X + 1) = 1 - a' * f by apply/eqP; rewrite eq_sym subr_eq [X in _ == X]addrC ab'.
  have -> : b * q = 1 - a * f by apply/eqP; rewrite eq_sym subr_eq [X in _ == X]addrC ab.
  rewrite mulrBr mulr1 mulrBl mul1r !mulrBl.
  have -> : a' * f * (a * f) = a * a' * f * f by rewrite mulrACA [a' * a]mulrC mulrA.
  rewrite opprB; move: (a * f) (a' * f) (a * a' * f * f) => u v w.
  by rewrite -addrA [- v + _]addrC.
by rewrite -E addrA addF2_self add0r.
Qed.
End Period.
(** The same with any state F that is fixed in the component of f. *)
Section Any.
Variables (n : nat) (A : 'M['F_2]_n) (c : 'rV['F_2]_n) (f : f2x).
Hypothesis I : irreducible_poly f.
Hypothesis D1 : f %| char_poly A.
Notation R := (pact A (char_poly A %/ f)).
Variable F : 'rV['F_2]_n.
Hypothesis RF : R F *m A + R c = R F.
Lemma R_aff x k : R (aff A c k x) + R F = st A k (R x + R F).
Proof.
elim: k => [//|k IH]. rewrite /st iterS -/(st _ k _) -IH /aff iterS -/(aff A c k x).
rewrite pact_vD mulmxDl -st1 pact_st st1 -addrA. congr (_ + _). by rewrite -{1}RF addrCA addF2_self addr0.
Qed.
Lemma aff_period d x k : primitive f d -> R (x + F) != 0 -> aff A c k x = x -> (2 ^ d - 1 %| k)%N.
Proof.
move=> Pf N0 E; apply: (primitive_dvd Pf).
have fy : pact A f (R (x + F)) = 0 by rewrite -pactM -char_fq // cayley.
rewrite -(ann_irred _ I fy N0) pactB pactX pact1 pact_vD -R_aff E subrr //.
Qed.
End Any.
