(** Property C77: AlgorithmReducibleRecursionAndTempering. *)
From Coq Require Import NArith ZArith List.
From mathcomp Require Import all_ssreflect all_algebra.
From Verif Require Import Base GenModel PolyF2 LinSpec EquiModel EquiEx PeriodSpec PeriodModel PolyAct PeriodProofs4 PeriodProofs5 PeriodEx
  ParityModel ParitySpec ParityProofs ParityEx TemperModel RecTemperModel RecTemperSpec RedTemperModel RedTemperSpec RedTemperProofs RedTemperEx.
Set Implicit Arguments.
Unset Strict Implicit.
Unset Printing Implicit Defensive.
Import GRing.Theory.
Local Open Scope ring_scope.
Delimit Scope Z_scope with coqZ.

(** When the search returns, it returns true: k recursions without a large
    factor of degree d = mexp were rejected; the next one, of the class th, has
    the large factor poly; the parity vector is that of searchParity (C31) for
    it; weight is the number of the non-zero coefficients of poly.  The generator
    returned, of the class th', has the recursion of the accepted one; it is what
    the second tempering algorithm (unless no_lsb) and then the first made of a
    generator s3 with the tempering of the accepted one.  If the
    part of poly in the state that searchParity leaves (the parity vector stored
    into it) is not zero, the state returned is a non-zero state of the
    component of poly, and delta is the sum over v of n / v - k(v), k(v) the
    dimensions of the component and n = bitSize(). *)
Theorem C77_search : forall (S : Type) (G : gen_ops S) (T : temper_ops S) (P : par_ops S) (n : nat) (Th : Type) (ok : Th -> S -> Prop)
  (abs : Th -> S -> 'rV['F_2]_n) (A : Th -> 'M['F_2]_n) (C D : Th -> nat -> 'cV['F_2]_n) (legal : S -> Prop)
  (M : seq 'F_2 -> nat -> f2x) (kernel : nat -> nat -> (nat -> nat -> bool) -> list (list bool))
  (B : Type) (setUpParam : S -> B -> res (S * B)) (one : N) (pos : N -> res Z) (junk : N) (fuel : nat) (veq0 : list Z) (d : nat),
  let W := N.to_nat (g_width G) in
  family G ok abs A C D legal setUpParam one -> minpolyseq_spec M -> kernel_spec kernel -> pos_spec (g_width G) pos ->
  ((4 * n + 2) * W.+1 <= fuel)%N -> (W <= length veq0)%N -> (1 < d)%N -> (n < 2 * d)%N ->
  (forall r b, legal r -> exists r', setUpParam r b = Ret r' \/ setUpParam r b = Throw) ->
  (forall s, legal s -> p_getMexp P s = Z.of_nat d) ->
  (forall th s v, ok th s -> (v < 2 ^ g_width G)%num -> exists2 th', ok th' (p_setParityValue P v s) & A th' = A th) ->
  forall ffuel st1 st2 lsb2 verbose no_lsb rg b res r,
  legal rg -> keeps ok abs A st1 -> keeps ok abs A st2 ->
  (forall s, same_state ok abs A s (t_setRev T s)) -> (forall s, same_state ok abs A s (t_resetRev T s)) ->
  rrt_search G T P M kernel setUpParam one pos junk fuel veq0 ffuel st1 st2 lsb2 verbose no_lsb rg b = Ret (res, r) ->
  res = true /\ exists k r0 b0 s th mu th1 th',
    let f := rrt_poly r in
    let accepted := iter (2 * n) (fun t => (g_generate G t).2) (g_seed G one s) in
    let s1 := p_setParityValue P (rrt_parity r) accepted in
    [/\ tried G setUpParam one n ok
          (fun th s => forall q f, is_minpoly (out_seq (A th) (D th) (abs th s) 0) q -> ~ large_factor q f d) k rg b r0 b0,
        setUpParam r0 b0 = Ret (s, rrt_base r), ok th (g_seed G one s),
        is_minpoly (out_seq (A th) (D th) (abs th (g_seed G one s)) 0) mu & large_factor mu f d /\ f %| char_poly (A th)] /\
    [/\ searchParity G P pos kernel (Some junk) fuel accepted f = Ret (rrt_parity r, s1),
        ok th1 s1 /\ A th1 = A th, ok th' (rrt_rand r) /\ A th' = A th &
        rrt_weight r = Z.of_nat #|[set i : 'I_d.+1 | f`_i != 0]|] /\
    (exists s3 s4 d5, [/\ ok th1 s3,
        if no_lsb then s4 = s3 else exists d4 l, st2 s3 = Ret (d4, l) /\
          s4 = (if verbose then t_resetRev T (if lsb2 then t_setRev T l else l) else l),
        st1 s4 = Ret (d5, rrt_rand r) & abs th' (rrt_rand r) = abs th1 s3]) /\
    (out_observable (A th1) (D th1) (g_width G) -> alive (A th) f (abs th1 s1) ->
      [/\ abs th' (rrt_rand r) != 0, abs th' (rrt_rand r) *m poly_mx (A th') f = 0 &
        exists dims, (forall v, (1 <= v <= W)%N -> comp_dim (A th') (C th') f v (dims v)) /\ rrt_delta r = defects n W dims]).
Proof.
intros S G T P n Th ok abs A C D legal M kernel B setUpParam one pos junk fuel veq0 d W F HM HK Hp Hf Hv d1 n2 Hset Hmexp Hsetp
  ffuel st1 st2 lsb2 verbose no_lsb rg b res r Hl K1 K2 KS KR.
exact (rrt_thm F HM HK Hp Hf Hv d1 n2 Hset Hmexp Hsetp (T := T) Hl K1 K2 KS KR).
Qed.

(** When parameters (o1) and a parity vector are found and the tempering
    algorithms return, the search returns. *)
Theorem C77_returns : forall (S : Type) (G : gen_ops S) (T : temper_ops S) (P : par_ops S) (n : nat) (Th : Type) (ok : Th -> S -> Prop)
  (abs : Th -> S -> 'rV['F_2]_n) (A : Th -> 'M['F_2]_n) (C D : Th -> nat -> 'cV['F_2]_n) (legal : S -> Prop)
  (M : seq 'F_2 -> nat -> f2x) (kernel : nat -> nat -> (nat -> nat -> bool) -> list (list bool))
  (B : Type) (setUpParam : S -> B -> res (S * B)) (one : N) (pos : N -> res Z) (junk : N) (fuel : nat) (veq0 : list Z),
  let W := N.to_nat (g_width G) in
  family G ok abs A C D legal setUpParam one -> minpolyseq_spec M -> kernel_spec kernel -> pos_spec (g_width G) pos ->
  ((4 * n + 2) * W.+1 <= fuel)%N -> (W <= length veq0)%N ->
  (forall th s v, ok th s -> (v < 2 ^ g_width G)%num -> exists2 th', ok th' (p_setParityValue P v s) & A th' = A th) ->
  forall ffuel st1 st2 lsb2 verbose no_lsb rg b o1 v s1 th,
  keeps ok abs A st1 -> keeps ok abs A st2 ->
  (forall s, same_state ok abs A s (t_setRev T s)) -> (forall s, same_state ok abs A s (t_resetRev T s)) ->
  (forall s, exists d s', st1 s = Ret (d, s')) -> (forall s, exists d s', st2 s = Ret (d, s')) ->
  (1000 * Z.of_nat (g_bitSize G rg) < 2 ^ 31)%coqZ ->
  rrt_find G P M setUpParam one fuel ffuel (Z.of_nat (g_bitSize G rg)) (Build_rr_state rg b 0 0 0%coqZ) = Ret o1 ->
  ok th (rr_rand o1) -> rr_irreducible o1 != 0 ->
  searchParity G P pos kernel (Some junk) fuel (rr_rand o1) (rr_irreducible o1) = Ret (v, s1) ->
  exists r, [/\ rrt_search G T P M kernel setUpParam one pos junk fuel veq0 ffuel st1 st2 lsb2 verbose no_lsb rg b = Ret (true, r),
    rrt_parity r = v & rrt_poly r = rr_irreducible o1].
Proof.
intros S G T P n Th ok abs A C D legal M kernel B setUpParam one pos junk fuel veq0 W F HM HK Hp Hf Hv Hsetp
  ffuel st1 st2 lsb2 verbose no_lsb rg b o1 v s1 th K1 K2 KS KR T1 T2 Ho Ef okr f0 Ep.
exact (rrt_total F HM HK Hp Hf Hv Hsetp (T := T) lsb2 verbose no_lsb K1 K2 KS KR T1 T2 Ho Ef okr f0 Ep).
Qed.

(** With n = bitSize() in the place of the Mersenne exponent d the sum is too
    great by at least n - d, whatever the dimensions are. *)
Theorem C77_excess : forall n d W dims, (0 < W)%N -> (d <= n)%N ->
  (defects n W dims = defects d W dims + excess n d W)%coqZ /\ (Z.of_nat n - Z.of_nat d <= excess n d W)%coqZ.
Proof. intros n d W dims W0 dn. exact (conj (excess_defects n d W dims) (excess_ge W0 dn)). Qed.

(** It is false that delta is the defect of the component with respect to the
    Mersenne exponent: for the rotation of three bits, a reducible generator
    with exponent two, the search returns 2 and this defect is 0. *)
Theorem C77_delta_refuted : forall verbose no_lsb, exists r,
  [/\ rrt_search toy_ops toy_temper toy_par mps brute toy_setUp 1 toy_pos 5 56 (List.repeat 0%coqZ 3) 1 toy_st toy_st true
        verbose no_lsb (false, 0%num) 0%num = Ret (true, r),
      rrt_delta r = 2%coqZ &
      exists2 dims, (forall v, (1 <= v <= 3)%N -> comp_dim (tA false) (tC false) (rrt_poly r) v (dims v)) & defects 2 3 dims = 0%coqZ].
Proof.
move=> verbose no_lsb; have [r [E Ep Eq]] := toy_returns verbose no_lsb.
by have [D2 H] := toy_delta E Ep Eq; exists r; split=> //; rewrite Eq.
Qed.

(** The rotation meets the hypotheses, and the state that searchParity leaves,
    3, is alive. *)
Example C77_toy : [/\ family toy_ops toy_ok (fun _ => tabs) (fun th => tA th) (fun th => tC th) tD toy_legal toy_setUp 1,
  minpolyseq_spec mps, kernel_spec brute, pos_spec 3 toy_pos &
  [/\ keeps toy_ok (fun _ => tabs) (fun th => tA th) toy_st,
     forall th s v, toy_ok th s -> (v < 2 ^ g_width toy_ops)%num -> exists2 th', toy_ok th' (p_setParityValue toy_par v s) & tA th' = tA th,
     out_observable (tA false) (tD false) 3, alive (tA false) quad_poly (tabs (false, 3%num)) &
     exists r, [/\ rrt_search toy_ops toy_temper toy_par mps brute toy_setUp 1 toy_pos 5 56 (List.repeat 0%coqZ 3) 1 toy_st toy_st true
        true false (false, 0%num) 0%num = Ret (true, r), rrt_parity r = 3%num & rrt_poly r = quad_poly]]].
Proof.
split; [exact: toy_family | exact: mps_spec | exact: brute_spec | exact: toy_pos_spec | split].
- exact: toy_keeps.
- exact: toy_setp.
- exact: toy_out_obs.
- exact: toy_alive.
- exact: toy_returns.
Qed.
(** A generator with 640 bits and the exponent 607 (RMT). *)
Example C77_excess_607 : excess 640 607 64 = 165%coqZ.
Proof. by vm_compute. Qed.

Print Assumptions C77_search.
Print Assumptions C77_returns.
Print Assumptions C77_excess.
Print Assumptions C77_delta_refuted.
