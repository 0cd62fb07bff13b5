(** The primitivity tests and the reading of decimal strings. *)
From Coq Require Import NArith ZArith List Bool Lia.
From mathcomp Require Import all_ssreflect all_algebra.
From mathcomp Require Import zify.
From Verif Require Import Base UtilModel GenModel PolyF2 LinSpec PeriodModel PeriodSpec PeriodProofs2.
Set Implicit Arguments.
Unset Strict Implicit.
Unset Printing Implicit Defensive.
Import GRing.Theory.
Local Open Scope ring_scope.
Delimit Scope Z_scope with coqZ.

(** * isPrime with a factor list *)
Lemma modp_one (poly : f2x) k : (1 < size poly)%N -> ('X^k %% poly == 1) = (poly %| 'X^k - 1).
Proof.
move=> s1; have E1 : (1 : f2x) %% poly = 1 by rewrite modp_small // size_poly1.
by rewrite /dvdp modpD modpN E1 subr_eq0.
Qed.

Lemma isPrime_loop_true (poly : f2x) P l : (1 < size poly)%N ->
  isPrime_loop poly P l = Ret true <->
  forall q, List.In q l -> (q <> 0)%num /\ ~~ (poly %| 'X^(N.to_nat (P / q)) - 1).
Proof.
move=> s1; elim: l => [|p r IH] /=; first by split.
case: N.eqb_spec => [-> | p0].
  by split=> // /(_ 0%num (or_introl erefl)) [].
rewrite modp_one //; case: ifP => [D|/negbT D].
  by split=> // /(_ p (or_introl erefl))[_]; rewrite D.
rewrite IH; split=> H q; last by move=> Hq; apply: H; right.
by case=> [<-|Hq]; [split | apply: H].
Qed.

Lemma isPrime_loop_total (poly : f2x) P l : (forall q, List.In q l -> q <> 0%num) ->
  exists b, isPrime_loop poly P l = Ret b.
Proof.
elim: l => [|p r IH] /= H; first by exists true.
case: N.eqb_spec => [E | p0]; first by case: (H p (or_introl erefl)).
by case: ifP => _; [exists false | apply: IH => q Hq; apply: H; right].
Qed.

Lemma isPrime_vec_sound poly degree l : isPrime_vec poly degree l = Ret true ->
  deg poly = degree /\ irreducible_poly poly.
Proof.
rewrite /isPrime_vec; case: Z.eqb_spec => // E; rewrite /isIrreducible.
by case: irredP.
Qed.

Lemma N_div_to_nat (P q : N) : N.to_nat (P / q) = (N.to_nat P %/ N.to_nat q)%N.
Proof.
rewrite N2Nat.inj_div; move: (N.to_nat P) (N.to_nat q) => a [|b]; first by rewrite divn0.
apply/esym/(PeanoNat.Nat.div_unique _ _ _ (a %% b.+1)%N).
  by apply/ltP; rewrite ltn_mod.
by rewrite {1}(divn_eq a b.+1) mulnC.
Qed.

Lemma N_pow2 (d : nat) : N.to_nat (2 ^ N.of_nat d - 1)%num = (2 ^ d - 1)%N.
Proof.
rewrite N2Nat.inj_sub N2Nat.inj_pow Nat2N.id.
have -> : forall k, PeanoNat.Nat.pow (N.to_nat 2) k = (2 ^ k)%N by elim=> //= k ->; rewrite expnS; lia.
by [].
Qed.

Lemma isPrime_vec_total poly d l : (forall q, List.In q l -> q <> 0%num) ->
  exists b, isPrime_vec poly d l = Ret b.
Proof.
move=> H; rewrite /isPrime_vec; case: ifP => _; last by exists false.
by case: ifP => _; [exists false | apply: isPrime_loop_total].
Qed.

Lemma primitive_irred f d : primitive f d -> irreducible_poly f.
Proof. by case. Qed.

Lemma isPrime_vec_iff (poly : f2x) d l : prime_divisors (2 ^ d - 1) l -> (d, poly) <> (1%N, 'X) ->
  isPrime_vec poly (Z.of_nat d) l = Ret true <-> primitive poly d.
Proof.
move=> Hl nX; rewrite /isPrime_vec degZ_eq /isIrreducible.
have [sE|sN] := eqVneq (size poly) d.+1; last first.
  by split=> // -[_ E]; rewrite E eqxx in sN.
case: irredP => [I|nI] /=; last by split=> // -[].
have d0 : (0 < d)%N by have := irred_size I; rewrite sE.
have pX : poly != 'X.
  by apply/eqP=> E; apply: nX; move: sE; rewrite E size_polyX => -[<-].
rewrite isPrime_loop_true ?irred_size //.
rewrite (_ : Z.to_N (Z.of_nat d) = N.of_nat d); last by lia.
set P := (2 ^ _ - 1)%num; have PE : N.to_nat P = (2 ^ d - 1)%N by rewrite N_pow2.
have dE : (size poly).-1 = d by rewrite sE.
split=> [H|[_ _ Hp Hk] q].
  split=> //; first by have := irred_period I pX; rewrite dE.
  have := @irred_order poly I pX; rewrite dE; apply=> q pq qd.
  have [] : (N.of_nat q <> 0)%num /\ ~~ (poly %| 'X^(N.to_nat (P / N.of_nat q)) - 1).
    by apply: H; apply/Hl; rewrite Nat2N.id.
  by rewrite N_div_to_nat PE Nat2N.id.
move/Hl=> [pq qd]; split; first by move=> E; rewrite E in pq.
rewrite N_div_to_nat PE; apply: Hk; have := prime_gt1 pq; set r := N.to_nat q in pq qd *.
move=> r1; have N0 : (0 < 2 ^ d - 1)%N by rewrite subn_gt0 -{1}(expn0 2) ltn_exp2l.
by rewrite divn_gt0 ?prime_gt0 // dvdn_leq //= ltn_Pdiv.
Qed.

Lemma isPrime_X : [/\ prime_divisors (2 ^ 1 - 1) [::], isPrime_vec 'X 1 [::] = Ret true & ~ primitive 'X 1].
Proof.
split.
- by move=> q; split=> // -[pq]; rewrite dvdn1 => /eqP E; rewrite E in pq.
- rewrite /isPrime_vec /isIrreducible.
  have -> : (deg 'X =? 1)%coqZ by rewrite /deg size_polyX.
  by case: irredP => // H; case: H; exact: irred_polyX.
- case=> _ _; rewrite expn1 subn1 /= expr1 dvdp_addr // f2x_opp => H _.
  by have := dvd_size (oner_neq0 _) H; rewrite size_polyX size_poly1.
Qed.

(** * isMexp, isPrime(poly) *)
Lemma isMexp_iff (d : N) : (d < 2 ^ 32)%num ->
  exists b, isMexp d = Ret b /\ (b <-> List.In (Z.of_N d) (List.removelast mersenne_exponent)).
Proof.
move=> dlt; rewrite /isMexp.
have sg e : (0 < e < 2 ^ 31)%coqZ -> (to_signed 32 d =? e)%coqZ = (Z.of_N d =? e)%coqZ.
  rewrite /to_signed => eb; case: ifP => //= H; lia.
have gen : forall l, List.Forall (fun e => (0 < e < 2 ^ 31)%coqZ) l -> exists b,
  isMexp_loop (l ++ [:: (-1)%coqZ])%list d = Ret b /\ (b <-> List.In (Z.of_N d) l).
  elim=> [|e l IH] /= H; first by exists false.
  inversion H as [|e' l' He Hl [E1 E2]]; subst.
  have -> : (0 <? e)%coqZ by lia.
  rewrite sg //; case: Z.eqb_spec => [E|ne]; first by exists true; split=> //; split=> // _; left.
  have [b [-> Hb]] := IH Hl; exists b; split=> //; rewrite Hb; split; first by right.
  by case=> // E; case: ne.
have [|b [E H]] := gen (List.removelast mersenne_exponent).
  by apply/List.Forall_forall => e; rewrite /=; repeat (case=> [<-|]; first by []).
by exists b; split.
Qed.

Lemma mersenne_primitive (f : f2x) d : irreducible_poly f -> size f = d.+1 -> prime (2 ^ d - 1) -> primitive f d.
Proof.
move=> I sf pr.
have dE : (size f).-1 = d by rewrite sf.
have fX : f != 'X.
  by apply/eqP=> E; move: sf pr; rewrite E size_polyX => -[<-].
split=> //; first by have := irred_period I fX; rewrite dE.
have := @irred_order f I fX; rewrite dE; apply=> q pq.
rewrite dvdn_prime2 // => /eqP ->; rewrite divnn prime_gt0 // expr1.
apply/negP=> D; have d2 : (1 < d)%N by case: d sf pr {dE} => [|[]].
have := D; rewrite -['X]expr1 => D1.
have := dvd_size _ D; rewrite sf => H.
have s2 : size ('X - 1 : f2x) = 2%N by have := size_XsubC (1 : 'F_2).
have := H; rewrite s2 -size_poly_gt0 s2 => /(_ isT); rewrite ltnS leqNgt d2 //.
Qed.

Lemma isPrime_sound (f : f2x) : isPrime f = Ret true -> (deg f < 2 ^ 32)%coqZ ->
  (forall e : nat, List.In (Z.of_nat e) (List.removelast mersenne_exponent) -> e = (size f).-1 -> prime (2 ^ e - 1)) ->
  primitive f (size f).-1.
Proof.
rewrite /isPrime /isIrreducible; case: irredP => //= I E sz H.
have s1 := irred_size I.
apply: mersenne_primitive => //; first by rewrite prednK // (ltn_trans _ s1).
apply: H => //.
have dE : of_int 32 (deg f) = N.of_nat (size f).-1.
  by move: sz; rewrite /of_int /deg => sz; rewrite Z.mod_small; lia.
rewrite dE in E.
have [|b [E2 Hb]] := @isMexp_iff (N.of_nat (size f).-1).
  by move: sz; rewrite /deg => sz; lia.
rewrite E in E2; case: E2 => Eb; move: Hb; rewrite -Eb nat_N_Z => -[Hb _]; exact: Hb.
Qed.

(** * Decimal strings *)
Lemma read_digits_spec s w : (forall c, List.In c s -> (c < 128)%num) ->
  read_digits s w = Ret (w * 10 ^ N.of_nat (length (digit_prefix s)) + dec_value (digit_prefix s))%num.
Proof.
elim: s w => [|c r IH] w H; first by rewrite /= ; congr Ret; lia.
rewrite /=; have c128 := H c (or_introl erefl).
have -> : (128 <=? c)%num = false by lia.
rewrite /is_digit; case E: ((48 <=? c) && (c <=? 57))%num; last by rewrite /=; congr Ret; lia.
rewrite IH; last by move=> x Hx; apply: H; right.
congr Ret; rewrite -[dec_value (_ :: _)]/((c - 48) * 10 ^ N.of_nat (length (digit_prefix r)) + dec_value (digit_prefix r))%num.
rewrite -[length (_ :: _)]/(length (digit_prefix r)).+1 Nat2N.inj_succ N.pow_succ_r'.
have -> : (w * 10 + c - 48 = w * 10 + (c - 48))%num by lia.
by move: (10 ^ _)%num (dec_value _) (c - 48)%num => a b k; move: w a b k; clear; nia.
Qed.

Lemma digit_prefix_all s : all_digits s -> digit_prefix s = s.
Proof.
elim: s => //= c r IH H; have := H c (or_introl erefl) => Hc.
have -> : ((48 <=? c) && (c <=? 57))%num by lia.
by rewrite IH // => x Hx; apply: H; right.
Qed.

Lemma read_table_spec l : (forall s, List.In s l -> forall c, List.In c s -> (c < 128)%num) ->
  read_table l = Ret (List.map (fun s => dec_value (digit_prefix s)) l).
Proof.
elim: l => //= s l IH H; rewrite read_digits_spec; last by apply: H; left.
by rewrite [bind _ _]/= IH => [/=|s' Hs]; [congr (Ret (cons _ _)); lia | apply: H; right].
Qed.

Lemma take_digits_spec s w rest : all_digits s ->
  take_digits (s ++ 32%num :: rest)%list w = ((w * 10 ^ N.of_nat (length s) + dec_value s)%num, 32%num :: rest).
Proof.
elim: s w => [|c r IH] w H; first by rewrite /=; congr pair; lia.
rewrite [(_ ++ _)%list]/= [take_digits _ _]/=; have Hc := H c (or_introl erefl).
have -> : is_digit c by rewrite /is_digit; lia.
rewrite IH; last by move=> x Hx; apply: H; right.
congr pair; rewrite -[dec_value (_ :: _)]/((c - 48) * 10 ^ N.of_nat (length r) + dec_value r)%num.
rewrite -[length (_ :: _)]/(length r).+1 Nat2N.inj_succ N.pow_succ_r'.
by move: (10 ^ _)%num (dec_value _) (c - 48)%num => a b k; move: w a b k; clear; nia.
Qed.

Lemma skip_space_app b s : List.Forall (fun c => is_space c) b -> skip_space (b ++ s)%list = skip_space s.
Proof. by elim: b => //= c b IH H; inversion H; subst; rewrite H2 IH. Qed.

Lemma stream_table_spec l : (forall s, List.In s l -> s <> [::] /\ all_digits s) ->
  forall buf, List.Forall (fun c => is_space c) buf ->
  stream_table l buf = Ret (List.map dec_value l).
Proof.
elim: l => //= s l IH H buf Hb; have [s0 Hs] := H s (or_introl erefl).
rewrite /stream_read skip_space_app //.
case: s s0 Hs H => // c r _ Hs H.
have Hc := Hs c (or_introl erefl); have dc : is_digit c by rewrite /is_digit; lia.
have sc : is_space c = false by rewrite /is_space; lia.
have -> : skip_space ((c :: r) ++ [:: 32%num])%list = ((c :: r) ++ [:: 32%num])%list by rewrite /= sc.
have -> : match ((c :: r) ++ [:: 32%num])%list with
  | nil => Exit
  | cons c0 r0 => if is_digit c0 then Ret (take_digits (c0 :: r0) 0%num) else Exit end
  = Ret (take_digits ((c :: r) ++ [:: 32%num])%list 0%num) by rewrite /= dc.
rewrite take_digits_spec // [bind _ _]/=.
rewrite IH //=; last by repeat constructor.
by move=> s' Hs'; apply: H; right.
Qed.
