(** Property C41: AlgorithmRecursionAndTempering. *)
From Coq Require Import NArith ZArith List Bool Lia.
From mathcomp Require Import all_ssreflect all_algebra.
From mathcomp Require Import zify.
From Verif Require Import Base GenModel PolyF2 LinSpec PeriodSpec PeriodModel PeriodProofs4 PeriodProofs5 PeriodProofs7 EquiModel TemperModel
  SequentialModel RecTemperModel RecTemperSpec RecTemperProofs TinyModel TinyDcModel TinyLin TinySpec TinyProofs TinyDcProofs TinyPeriod TinyEx.
Set Implicit Arguments.
Unset Strict Implicit.
Unset Printing Implicit Defensive.
Import GRing.Theory.
Local Open Scope ring_scope.
Delimit Scope Z_scope with coqZ.

(** A search that ends normally returns true.  k parameter sets r0 were drawn
    and rejected, the next one passed the maximal-period test; it was tempered
    by st2 (unless no_lsb) and st1.  The generator returned, of the class th', has
    the recursion of the accepted one, of maximal period; poly is its
    characteristic polynomial, primitive of degree n, weight the number of its
    non-zero coefficients, delta the defect of the returned state. *)
Theorem C41_search : forall (S : Type) (G : gen_ops S) (T : temper_ops S) (n : nat) (Th : Type) (ok : Th -> S -> Prop)
  (abs : Th -> S -> 'rV['F_2]_n) (A : Th -> 'M['F_2]_n) (C D : Th -> nat -> 'cV['F_2]_n) (legal : S -> Prop)
  (M : seq 'F_2 -> nat -> f2x) (B : Type) (setUpParam : S -> B -> res (S * B)) (one : N) (pos : N -> res Z) (efuel : nat) (veq0 : list Z),
  let W := N.to_nat (g_width G) in
  family G ok abs A C D legal setUpParam one -> minpolyseq_spec M -> (0 < n)%N -> pos_spec (g_width G) pos ->
  ((4 * n + 2) * W.+1 <= efuel)%N -> (W <= length veq0)%N ->
  forall fuel prim st1 st2 lsb2 verbose no_lsb lg b res r,
  decides prim n -> legal lg -> tempers ok A st1 -> tempers ok A st2 ->
  (forall s, same_recursion ok A s (t_setRev T s)) -> (forall s, same_recursion ok A s (t_resetRev T s)) ->
  (forall s d s', st1 s = Ret (d, s') -> t_clone T s' = s') ->
  rt_search G T M setUpParam one pos efuel veq0 fuel prim st1 st2 lsb2 verbose no_lsb lg b = Ret (res, r) ->
  res = true /\ exists k r0 b0 s th s2 d th',
    [/\ tried G setUpParam one n ok (fun th s => ~ good_seq (out_seq (A th) (D th) (abs th s) 0) n) k lg b r0 b0,
        setUpParam r0 b0 = Ret (s, rt_base r), ok th (g_seed G one s),
        (let accepted := iter (2 * n) (fun t => (g_generate G t).2) (g_seed G one s) in
         if no_lsb then s2 = accepted else
         exists d2 s3, st2 accepted = Ret (d2, s3) /\
           s2 = if verbose then t_resetRev T (if lsb2 then t_setRev T s3 else s3) else s3) &
        st1 s2 = Ret (d, rt_rand r)] /\
    [/\ ok th' (rt_rand r), A th' = A th, forall x, x != 0 -> full_period (A th') x,
        primitive (rt_poly r) n /\ rt_poly r = char_poly (A th') &
        size (rt_poly r) = n.+1 /\ rt_weight r = Z.of_nat #|[set i : 'I_n.+1 | (rt_poly r)`_i != 0]|] /\
    exists dims, (forall v, (1 <= v <= W)%N -> equidist_dim (A th') (C th') (abs th' (rt_rand r)) v (dims v)) /\
      rt_delta r = defects n W dims.
Proof.
intros S G T n Th ok abs A C D legal M B setUpParam one pos efuel veq0 W F HM n0 Hp Hf Hv fuel prim st1 st2 lsb2 verbose no_lsb lg b res r.
exact (search_thm F HM n0 Hp Hf Hv (T := T) (fuel := fuel) (prim := prim) (st1 := st1) (st2 := st2) (lsb2 := lsb2) (verbose := verbose) (no_lsb := no_lsb) (lg := lg) (b := b) (res := res) (r := r)).
Qed.

(** TinyMT32 with its two tempering searches and the test for Mersenne
    exponents meets the hypotheses ... *)
Example C41_tiny_hypotheses : family tiny_ops tiny_ok (fun _ => tiny_vec) tiny_A tiny_C tiny_D tiny_legal tiny_setUp 1 /\
  decides MersennePrimitivity 127 /\ tiny_legal (tiny_new 0) /\
  (forall s, same_recursion tiny_ok tiny_A s (t_setRev tiny_temper_ops s)) /\
  (forall s, same_recursion tiny_ok tiny_A s (t_resetRev tiny_temper_ops s)) /\
  tempers tiny_ok tiny_A (st32 pos32 (N.to_nat 17000) (List.repeat 0%coqZ 32) 24) /\
  tempers tiny_ok tiny_A (stlsb32 pos32 (N.to_nat 17000) (List.repeat 0%coqZ 32) 24).
Proof.
split; first exact: tiny_family. split; first exact: m127_decides. split; first by [].
split; first by move=> s; exact: tiny_rev_same.
split; first by move=> s; exact: tiny_rev_same.
split; [apply: st32_tempers|apply: stlsb32_tempers]; (exact: pos32_ok || exact: n17 || exact: isT).
Qed.
(** ... and the search for the id 0 from the number 7fffff8f ends normally. *)
Example C41_tiny : forall M, minpolyseq_spec M -> forall verbose ffuel, (0x7fffff90 < N.of_nat ffuel)%num ->
  exists r, rt_search tiny_ops tiny_temper_ops M tiny_setUp 1 pos32 (N.to_nat 17000) (List.repeat 0%coqZ 32) ffuel MersennePrimitivity
     (st32 pos32 (N.to_nat 17000) (List.repeat 0%coqZ 32) 24) (stlsb32 pos32 (N.to_nat 17000) (List.repeat 0%coqZ 32) 24) true verbose false
     (tiny_new 0) (sq_make_seed 0 0x7fffff8f) = Ret (true, r) /\
    tp_mat1 (tm_par (rt_rand r)) = 0x8f7011ee%num /\ tp_mat2 (tm_par (rt_rand r)) = 0xfc78ff1f%num.
Proof. by move=> M HM verbose ffuel Hf; exact: (pub_search (sfuel := 24) (veq0 := List.repeat 0%coqZ 32) verbose HM pos32_ok n17 isT isT Hf). Qed.

Print Assumptions C41_search.
