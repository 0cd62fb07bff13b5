(** Soundness of the certificate checker. *)
From Coq Require Import NArith ZArith List Bool.
From mathcomp Require Import all_ssreflect all_fingroup cyclic all_algebra zify.
From Verif Require Import PrimeCert PeriodSpec PeriodProofs3.
Set Implicit Arguments.
Unset Strict Implicit.
Unset Printing Implicit Defensive.
Local Open Scope nat_scope.

(** The exponents k with a^k = 1 mod p are the multiples of one of them. *)
Lemma mod_order p a m : 1 < p -> 0 < m -> a ^ m = 1 %[mod p] ->
  exists k, forall j, (a ^ j == 1 %[mod p]) = (k %| j).
Proof.
move=> p1 m0 E.
have ex : exists k, (0 < k) && (a ^ k == 1 %[mod p]) by exists m; rewrite m0 E eqxx.
case: (ex_minnP ex) => k /andP[k0 /eqP Ek] mn; exists k => j.
have red : a ^ j = a ^ (j %% k) %[mod p].
  rewrite {1}(divn_eq j k) expnD mulnC (mulnC (j %/ k)) expnM -modnMmr -modnXm Ek modnXm exp1n.
  by rewrite modnMmr muln1.
rewrite red; apply/idP/idP=> H.
  rewrite /dvdn; case: (posnP (j %% k)) => [//|r0].
  have := mn (j %% k); rewrite r0 H => /(_ isT).
  by rewrite leqNgt ltn_pmod.
by move: H; rewrite /dvdn => /eqP->; rewrite expn0.
Qed.

Lemma part_divides k m q e : prime q -> 0 < m -> k %| m -> q ^ e %| m -> ~~ (k %| m %/ q) ->
  q %| m -> q ^ e %| k.
Proof.
move=> Pq m0 Dk De Nk Dq.
have k0 : 0 < k by case: k Dk {Nk} => [|//]; rewrite dvd0n => /eqP ?; subst m.
rewrite pfactor_dvdn //; move: De; rewrite pfactor_dvdn // => De.
apply: leq_trans De _; rewrite leqNgt; apply/negP => lt; case/negP: Nk.
have mq0 : 0 < m %/ q by rewrite divn_gt0 ?prime_gt0 // dvdn_leq.
apply/(dvdn_partP _ k0) => r; rewrite mem_primes => /and3P[Pr _ Drk].
rewrite p_part pfactor_dvdn //.
have -> : logn r (m %/ q) = logn r m - logn r q by rewrite logn_div.
case: (eqVneq r q) => [->|ne].
  rewrite (logn_prime q Pq) eqxx; lia.
rewrite (logn_prime r Pq) (negPf ne) subn0.
by apply: dvdn_leq_log.
Qed.

Lemma pock_order p a m q e : prime p -> prime q -> 0 < m -> q ^ e %| m ->
  a ^ m = 1 %[mod p] -> q %| m -> a ^ (m %/ q) != 1 %[mod p] -> q ^ e %| p.-1.
Proof.
move=> Pp Pq m0 De E1 Dq E2.
have p1 := prime_gt1 Pp.
case: (mod_order p1 m0 E1) => k K.
have cop : coprime a p.
  by rewrite -(coprime_pexpl _ _ m0) /coprime -gcdn_modl E1 modn_small ?gcd1n.
have Dk : k %| p.-1 by rewrite -K -(totient_prime Pp) Euler_exp_totient.
apply: dvdn_trans Dk; apply: part_divides Pq m0 _ De _ Dq; first by rewrite -K E1.
by rewrite -K.
Qed.

Lemma gcd_not_one p n x : prime p -> p %| n -> 0 < n -> coprime (x + n.-1) n -> x != 1 %[mod p].
Proof.
move=> Pp D n0 C; apply/negP => /eqP E.
have: p %| gcdn (x + n.-1) n.
  rewrite dvdn_gcd D andbT /dvdn -modnDml E modnDml.
  by rewrite add1n prednK.
by rewrite (eqP C) dvdn1 => /eqP e1; rewrite e1 in Pp.
Qed.

Lemma prod_divides (l : list (nat * nat)) m :
  (forall t, t \in l -> prime t.1 /\ t.1 ^ t.2 %| m) -> uniq [seq t.1 | t <- l] ->
  \prod_(t <- l) t.1 ^ t.2 %| m.
Proof.
elim: l => [|[q e] l IH] H /=; first by rewrite big_nil dvd1n.
case/andP=> nq u; rewrite big_cons Gauss_dvd.
  have [_ ->] := H _ (mem_head _ _); apply: IH => // t Ht; apply: H; by rewrite inE Ht orbT.
rewrite coprimeXl //.
have Pq : prime q by have [] := H _ (mem_head _ _).
rewrite prime_coprime //; apply/negP.
elim: l {IH u} nq H => [|[r f] l IH] nq H.
  by rewrite big_nil dvdn1 => /eqP /= E; move: Pq; rewrite E.
rewrite big_cons Euclid_dvdM // => /orP[].
  have Pr : prime r by have [] := H (r, f) (mem_nth _ (isT : 1 < size [:: (q, e), (r, f) & l])).
  rewrite Euclid_dvdX //= => /andP[D _]; move: nq; rewrite /= inE.
  by move: D; rewrite dvdn_prime2 // => /eqP->; rewrite eqxx.
apply: IH; first by move: nq; rewrite /= inE negb_or => /andP[].
move=> t; rewrite inE => /orP[/eqP->|Ht]; apply: H; rewrite !inE ?eqxx // Ht !orbT //.
Qed.

(** Pocklington's criterion. *)
Lemma pocklington n (l : list (nat * nat * nat)) :
  1 < n ->
  let f := \prod_(t <- l) t.1.1 ^ t.1.2 in
  f %| n.-1 -> n < f.+1 * f.+1 -> uniq [seq t.1.1 | t <- l] ->
  (forall t, t \in l -> [/\ prime t.1.1, t.2 ^ n.-1 = 1 %[mod n] &
       coprime (t.2 ^ (n.-1 %/ t.1.1) %% n + n.-1) n]) -> prime n.
Proof.
move=> n1 f Df lt u H.
have n0 : 0 < n by lia.
have m0 : 0 < n.-1 by lia.
have key p : prime p -> p %| n -> f %| p.-1.
  move=> Pp Dp.
  have -> : f = \prod_(t <- [seq t.1 | t <- l]) t.1 ^ t.2 by rewrite big_map.
  apply: prod_divides; last by rewrite -map_comp.
  move=> t /mapP[t' Ht ->]; have [Pq E1 C] := H _ Ht; split=> //.
  case: (posnP t'.1.2) => [->|e0]; first by rewrite dvd1n.
  have De : t'.1.1 ^ t'.1.2 %| n.-1.
    apply: dvdn_trans Df; rewrite /f (big_rem _ Ht) /=; exact: dvdn_mulr.
  have Dq : t'.1.1 %| n.-1 by apply: dvdn_trans De; apply: dvdn_exp.
  apply: (@pock_order p t'.2 n.-1) => //.
    by have := congr1 (fun x => x %% p) E1; rewrite !modn_dvdm.
  have := gcd_not_one Pp Dp n0 C; by rewrite modn_dvdm.
apply/primeP; split=> // d Dd; case: (eqVneq d 1) => //= d1.
have d0 : 0 < d by rewrite (dvdn_gt0 n0 Dd).
have Pd : prime (pdiv d) by rewrite pdiv_prime // ltn_neqAle eq_sym d1.
have Dpn : pdiv d %| n := dvdn_trans (pdiv_dvd d) Dd.
have big x : 1 < x -> x %| n -> f < x.
  move=> x1 Dx; have Px := pdiv_prime x1.
  have Q := key _ Px (dvdn_trans (pdiv_dvd x) Dx).
  have: pdiv x <= x := pdiv_leq (ltnW x1).
  have := dvdn_leq _ Q; have := prime_gt1 Px; lia.
have fd : f < d by apply: big => //; rewrite ltn_neqAle eq_sym d1.
case: (leqP (n %/ d) 1) => [le|gt].
  have E := divnK Dd; apply/eqP; move: le; case: (n %/ d) E => [|[|?]] //; lia.
have := big _ gt (dvdn_div Dd); have E := divnK Dd.
move=> h; have : f.+1 * f.+1 <= n %/ d * d by apply: leq_mul.
by rewrite E; move: lt; rewrite ltnNge => /negP.
Qed.

(** From binary to unary numbers. *)
Lemma N_mod_to_nat (a b : N) : b <> 0%num -> N.to_nat (a mod b)%num = N.to_nat a %% N.to_nat b.
Proof.
move=> b0; have := N.div_mod a b b0; have := N.mod_lt a b b0.
move=> lt E; rewrite {2}E; rewrite N2Nat.inj_add N2Nat.inj_mul multE plusE.
by rewrite mulnC modnMDl modn_small //; lia.
Qed.
Lemma pow_mod_nat (a n : N) e : n <> 0%num ->
  N.to_nat (pow_mod a n e) = N.to_nat a ^ Pos.to_nat e %% N.to_nat n.
Proof.
move=> n0; elim: e => [e IH|e IH|] /=; rewrite ?N_mod_to_nat //.
- rewrite !N2Nat.inj_mul IH !multE Pos2Nat.inj_xI.
  have sq x m : (N.to_nat a * (x %% m * (x %% m))) %% m = (N.to_nat a * (x * x)) %% m.
    by rewrite -[LHS]modnMmr (modnMml x) (modnMmr x) modnMmr.
  by rewrite sq -expnD -expnS; congr (_ ^ _ %% _); lia.
- by rewrite N2Nat.inj_mul IH multE modnMml modnMmr -expnD addnn -mul2n Pos2Nat.inj_xO.
Qed.
Lemma npow_nat q e : N.to_nat (npow q e) = N.to_nat q ^ e.
Proof. by elim: e => [|e IH] //=; rewrite N2Nat.inj_mul IH expnS. Qed.
Lemma N_gcd_to_nat (a b : N) : N.gcd a b = 1%num -> coprime (N.to_nat a) (N.to_nat b).
Proof.
move=> E; rewrite /coprime; apply/eqP.
set g := gcdn _ _.
have D1 : N.divide (N.of_nat g) a.
  have /dvdnP[k K] : g %| N.to_nat a := dvdn_gcdl _ _.
  by exists (N.of_nat k); lia.
have D2 : N.divide (N.of_nat g) b.
  have /dvdnP[k K] : g %| N.to_nat b := dvdn_gcdr _ _.
  by exists (N.of_nat k); lia.
have := N.gcd_greatest _ _ _ D1 D2; rewrite E => /N.divide_1_r; lia.
Qed.
Lemma existsb_In (q : N) l : existsb (N.eqb q) l = true -> List.In q l.
Proof. by move/existsb_exists=> [x [H /N.eqb_eq ->]]. Qed.

Definition all_prime (l : list N) : Prop := forall q, List.In q l -> prime (N.to_nat q).

Lemma nodupb_uniq l : nodupb l = true -> uniq [seq N.to_nat q | q <- l].
Proof.
elim: l => //= q l IH /andP[/negP n /IH ->]; rewrite andbT; apply/negP => /mapP[x Hx E].
apply: n; apply/existsb_exists; exists q; split; last exact: N.eqb_refl.
have -> : q = x by lia.
by elim: l Hx {IH} => //= y l IH; rewrite inE => /orP[/eqP->|/IH]; [left|right].
Qed.

Lemma check_cert_ok known c : all_prime known -> check_cert known c = true -> prime (N.to_nat c.1).
Proof.
case: c => n l K /=; rewrite /check_cert => /andP[/andP[/andP[/andP[n1 Df] lt] nd] H].
move/N.ltb_lt: n1 => n1.
have n0 : n <> 0%num by lia.
pose l' := [seq (N.to_nat t.1.1, t.1.2, N.to_nat t.2) | t <- l].
have Ef : \prod_(t <- l') t.1.1 ^ t.1.2 = N.to_nat (cert_prod l).
  rewrite /l' big_map; elim: l {nd H Df lt l'} => [|t l IH]; first by rewrite big_nil.
  by rewrite big_cons IH /cert_prod /= N2Nat.inj_mul npow_nat.
have EP : N.to_nat (n - 1)%num = (N.to_nat n).-1 by lia.
have f0 : cert_prod l <> 0%num.
  by move=> E; move: lt n1; rewrite E => /N.ltb_lt; lia.
apply: (@pocklington _ l').
- lia.
- by rewrite Ef -EP; apply/eqP; rewrite -N_mod_to_nat //; move/N.eqb_eq: Df => ->.
- by rewrite Ef; move/N.ltb_lt: lt; lia.
- have -> : [seq t.1.1 | t <- l'] = [seq N.to_nat q | q <- List.map (fun t => t.1.1) l].
    by rewrite /l'; elim: (l) => //= t r ->.
  exact: nodupb_uniq.
move=> t /mapP[[[q e] a] Ht ->] /=.
have HI : List.In (q, e, a) l.
  by elim: l Ht {nd H Df lt l' Ef f0} => //= y r IH; rewrite inE => /orP[/eqP->|/IH]; [left|right].
have := proj1 (List.forallb_forall _ _) H _ HI => /= /andP[/andP[Hq /Nat.ltb_lt e0] Hb].
have Pq : prime (N.to_nat q) := K _ (existsb_In Hq).
have Dq : N.to_nat q %| (N.to_nat n).-1.
  apply: (@dvdn_trans (N.to_nat (cert_prod l))).
    rewrite -Ef /l' big_map (big_rem _ Ht) /=; apply: dvdn_mulr; apply: dvdn_exp => //; lia.
  by rewrite -EP /dvdn -N_mod_to_nat //; move/N.eqb_eq: Df => ->.
move: Hb; rewrite /check_base -EP; case: q HI Ht Hq Pq Dq => [|q'] // HI Ht Hq Pq Dq.
rewrite -N_div_to_nat; case Ee: ((n - 1) / N.pos q')%num => [//|e'] /andP[/N.eqb_eq G /N.eqb_eq E].
split=> //; last first.
  by have := N_gcd_to_nat G; rewrite N2Nat.inj_add pow_mod_nat // positive_N_nat.
have := congr1 N.to_nat E; rewrite !pow_mod_nat // modnXm -expnM.
have -> : Pos.to_nat e' * Pos.to_nat q' = N.to_nat (n - 1)%num.
  by rewrite EP -(divnK Dq) -EP -N_div_to_nat Ee.
by move=> ->; rewrite modn_small //; lia.
Qed.
Lemma check_certs_ok cs known : all_prime known -> check_certs cs known = true ->
  all_prime (rev (List.map fst cs) ++ known).
Proof.
elim: cs known => [|c cs IH] known K //= /andP[H1 H2].
have := IH (c.1 :: known); rewrite rev_cons cat_rcons; apply=> // q [<-|/K//].
exact: check_cert_ok K H1.
Qed.

Lemma check_table_ok known n l es : all_prime known -> check_table known (N.of_nat n) l es = true ->
  prime_divisors (2 ^ n - 1) l.
Proof.
move=> K /andP[/andP[/andP[/Nat.eqb_eq len /N.eqb_eq E] pos] H].
have PL : all_prime l.
  move=> q Hq; apply: K; apply: existsb_In.
  exact: (proj1 (List.forallb_forall _ _) H q Hq).
rewrite -N_pow2 -E => q; elim: l es len pos PL {E H} => [|x l IH] [|e es] //= len pos PL.
  split=> // -[Pq]; rewrite dvdn1 => /eqP Eq; by rewrite Eq in Pq.
case/andP: pos => /Nat.ltb_lt e0 pos.
have {}IH := IH es _ pos _; rewrite N2Nat.inj_mul npow_nat.
have Px : prime (N.to_nat x) by apply: PL; left.
split=> [[<-|Hq]|[Pq]].
- split=> //; apply: dvdn_mulr; apply: dvdn_exp => //; lia.
- have [] : prime (N.to_nat q) /\ N.to_nat q %| N.to_nat (prod_pow l es).
    apply/IH => //; [lia|by move=> y Hy; apply: PL; right].
  by move=> ->  D; split=> //; apply: dvdn_mull.
rewrite Euclid_dvdM // => /orP[].
  rewrite Euclid_dvdX // => /andP[]; rewrite dvdn_prime2 // => /eqP Eq _; left; lia.
move=> D; right; apply/IH => //; [lia|by move=> y Hy; apply: PL; right].
Qed.
