(** Properties C58, C59: the generator mtgp32 of samples/MTGPDC. *)
From Coq Require Import NArith ZArith List Bool Lia.
From mathcomp Require Import all_ssreflect all_algebra.
From mathcomp Require Import zify.
From Verif Require Import Base WordLemmas UtilModel GenModel LinSpec PeriodSpec ArrayModel MtgpModel MtgpLin MtgpProofs.
Set Implicit Arguments.
Unset Strict Implicit.
Unset Printing Implicit Defensive.
Import GRing.Theory.
Local Open Scope ring_scope.
Delimit Scope Z_scope with coqZ.

(** C58: the class with parameters p is a linear generator on the mexp bits that
    count, wherever the index stands.  [gpp_ok p]: a size above 1, the mask of
    the constructor, 2 <= pos < size, and two tables of 16 words that are
    additive in the index.  [gpu_ok p]: an object with the parameters p, an index
    below the size and an array of size 32-bit words. *)
Theorem C58_linear : forall p, gpp_ok p -> linear_gen gpu_ops (gpu_ok p) (gpu_vec p) (gpu_A p) (gpu_C p).
Proof. exact gpu_lin. Qed.
Theorem C58_output : forall p, gpp_ok p -> linear_out gpu_ops (gpu_ok p) (gpu_vec p) (gpu_D p).
Proof. exact gpu_linout. Qed.
(** Two objects have the same vector exactly if their words agree, read from the
    one after the index on; of the first word only the upper bits count. *)
Theorem C58_state : forall p, gpp_ok p -> forall s t, gpu_ok p s -> gpu_ok p t ->
  let word (g : gpu) k := List.nth ((rr_idx g.2 + 1 + k) mod gp_size p)%nat (rr_arr g.2) 0%num in
  let r := (gp_size p * 32 - gp_mexp p)%N in
  gpu_vec p s = gpu_vec p t <->
  ((word s 0 / 2 ^ N.of_nat r = word t 0 / 2 ^ N.of_nat r)%num /\ forall k, (0 < k < gp_size p)%N -> word s k = word t k).
Proof.
move=> p Hp s t Hs Ht word r. rewrite -!N.shiftr_div_pow2. exact: (gpu_state Hp Hs Ht).
Qed.
(** The transition is invertible exactly if no table entry other than the first
    has its own index in the low four bits. *)
Theorem C58_invertible : forall p, gpp_ok p -> (0 < gp_sh1 p)%num ->
  gpu_A p \in unitmx <-> (forall i, (0 < i < 16)%num -> N.land (List.nth (N.to_nat i) (gp_p p) 0%num) 15 <> i).
Proof. exact gpu_unit. Qed.
(** Without tempering the numbers of a full period are equidistributed in
    size - 1 dimensions with 32-bit accuracy, and in no more. *)
Theorem C58_untempered : forall p, gpp_ok p -> forall x0,
  (forall i, List.nth i (gp_tp p) 0%num = 0%num) -> full_period (gpu_A p) x0 -> gpu_A p \in unitmx ->
  equidist_dim (gpu_A p) (gpu_C p) x0 32 (gp_size p - 1) /\ classical_equidist (gpu_A p) (gpu_C p) x0 (gp_size p - 1) 32.
Proof. exact gpu_dim. Qed.
(** The hypotheses hold for a constructed object, for any value of the
    uninitialised members with a position in range. *)
Theorem C58_new : forall mexp id imask pos sh1 sh2,
  (32 <= mexp)%N -> Nat.modulo mexp 32 <> 0%N -> (1 < pos < mexp / 32 + 1)%nat ->
  exists g, [/\ gpu_new mexp id imask pos sh1 sh2 = Ret g, gpp_ok (fst g), gpu_ok (fst g) g &
    [/\ gp_mexp (fst g) = mexp, gp_id (fst g) = id, gp_size (fst g) = (mexp / 32 + 1)%nat & forall i, List.nth i (gp_tp (fst g)) 0%num = 0%num]].
Proof. by move=> mexp id imask pos sh1 sh2 H1 H2 H3; apply: gpu_new_ok => //; rewrite /gpu_size; lia. Qed.
(** With an exponent that is a multiple of 32 the constructor shifts a 32-bit
    word by 32. *)
Theorem C58_new_undefined : forall mexp id imask pos sh1 sh2,
  Nat.modulo mexp 32 = 0%N -> gpu_new mexp id imask pos sh1 sh2 = Undef.
Proof. exact gpu_new_undef. Qed.
(** isZero masks the newest word instead of the oldest, and with a member that is
    never set: it is false for some representation of the zero state, and true
    for some other state unless the member happens to be all ones. *)
Theorem C58_isZero_refuted : forall p, gpp_ok p ->
  (exists s, [/\ gpu_ok p s, gpu_vec p s = 0 & gpu_isZero s = false]) /\
  ((exists i, (i < 32)%num /\ N.testbit (gp_imask p) i = false) ->
   exists s, [/\ gpu_ok p s, gpu_vec p s <> 0 & gpu_isZero s = true]).
Proof. exact (fun p Hp => conj (gisZero_false_neg Hp) (gisZero_false_pos Hp)). Qed.
(** What it decides. *)
Theorem C58_isZero_partial : forall p, gpp_ok p -> forall s, gpu_ok p s ->
  gpu_isZero s = true <->
  (N.land (gpu_win p s (gp_size p - 1)) (gp_imask p) = 0%num /\ forall k, (k < gp_size p - 1)%N -> gpu_win p s k = 0%num).
Proof. exact gpu_isZeroE. Qed.

(** C59: setUpParam.  [gp_last size] is the last position it may choose. *)
Theorem C59_setUpParam : forall u u0 u1 u2 u3 p s,
  gpp_ok p -> gpu_ok p (p, s) -> (Z.of_nat (gp_size p) < 2 ^ 31)%coqZ -> (3 <= gp_last (gp_size p))%coqZ ->
  (gp_id p < 2 ^ 32)%num -> (u0 < 2 ^ 32)%num -> (u1 < 2 ^ 32)%num -> (u2 < 2 ^ 32)%num -> (u3 < 2 ^ 32)%num ->
  exists q, [/\ gpu_setUpParam u u0 u1 u2 u3 (p, s) = Ret (q, s), gpp_ok q, gpu_ok q (q, s),
    [/\ (3 <= Z.of_nat (gp_pos q) <= gp_last (gp_size p))%coqZ, gp_sh1 q = 13%num, gp_sh2 q = 4%num & gp_mexp q = gp_mexp p] &
    [/\ forall k, (k < 4)%N -> List.nth (N.to_nat (2 ^ N.of_nat k)) (gp_p q) 0%num = List.nth k (gp_tbl q) 0%num,
        forall k, (k < 2)%N -> N.land (List.nth k (gp_tbl q) 0%num) 15 <> (2 ^ N.of_nat k)%num &
        N.lor (N.land (N.shiftr (List.nth 2 (gp_tbl q) 0%num) 4) 0xffff) (N.land (List.nth 3 (gp_tbl q) 0%num) 0xffff0000) = gp_id p]].
Proof. exact gpu_setUpParam_ok. Qed.
(** With different ids the tables are different, whatever is drawn. *)
Theorem C59_ids : forall p1 p2 s1 s2 q1 q2 t1 t2 u u0 u1 u2 u3 v v0 v1 v2 v3,
  gpp_ok p1 -> gpu_ok p1 (p1, s1) -> (Z.of_nat (gp_size p1) < 2 ^ 31)%coqZ -> (gp_id p1 < 2 ^ 32)%num ->
  gpp_ok p2 -> gpu_ok p2 (p2, s2) -> (Z.of_nat (gp_size p2) < 2 ^ 31)%coqZ -> (gp_id p2 < 2 ^ 32)%num ->
  (u0 < 2 ^ 32)%num -> (u1 < 2 ^ 32)%num -> (u2 < 2 ^ 32)%num -> (u3 < 2 ^ 32)%num ->
  (v0 < 2 ^ 32)%num -> (v1 < 2 ^ 32)%num -> (v2 < 2 ^ 32)%num -> (v3 < 2 ^ 32)%num ->
  gpu_setUpParam u u0 u1 u2 u3 (p1, s1) = Ret (q1, t1) -> gpu_setUpParam v v0 v1 v2 v3 (p2, s2) = Ret (q2, t2) ->
  gp_p q1 = gp_p q2 -> gp_id p1 = gp_id p2.
Proof. exact gpu_ids. Qed.
(** There is no position to choose for sizes below 8 and for sizes just above a
    power of two beyond 100; the program then exits. *)
Theorem C59_exit : forall u u0 u1 u2 u3 p s,
  (0 < gp_size p)%N -> (Z.of_nat (gp_size p) < 2 ^ 31)%coqZ -> (gp_last (gp_size p) < 3)%coqZ ->
  gpu_setUpParam u u0 u1 u2 u3 (p, s) = Exit.
Proof. exact gpu_setUpParam_exit. Qed.
Theorem C59_small_sizes : forall size, (size <= 100)%N -> (gp_last size < 3)%coqZ <-> (size < 8)%N.
Proof.
move=> size H. rewrite /gp_last. have -> : (100 < size)%N = false by lia.
have := Nat.div_mod size 2. have := Nat.mod_upper_bound size 2. lia.
Qed.
(** The draws may still lead to a recursion that is not invertible. *)
Theorem C59_singular : exists u0 u1 u2 u3 g q s,
  [/\ gpu_new (N.to_nat 521) 7 0 3 13 4 = Ret g, gpu_setUpParam 5 u0 u1 u2 u3 g = Ret (q, s), gpp_ok q & gpu_A q \notin unitmx].
Proof.
have [g [Eg Pg Sg [_ Ig Zg _]]] := @gpu_new_ok (N.to_nat 521) 7 0 3 13 4 ltac:(lia) ltac:(by vm_compute) ltac:(by vm_compute).
case: g Eg Pg Sg Ig Zg => p s Eg Pg Sg Ig Zg. cbn [fst] in *.
have L : gp_last (gp_size p) = 7%coqZ by rewrite Zg.
have B : (Z.of_nat (gp_size p) < 2 ^ 31)%coqZ by rewrite Zg.
have L3 : (3 <= gp_last (gp_size p))%coqZ by rewrite L.
have H7 : (gp_id p < 2 ^ 32)%num by rewrite Ig.
have [q [Eq Pq Sq [_ S1 _ _] _]] := @gpu_setUpParam_ok 5 2 1 0 0 p s Pg Sg B L3 H7 erefl erefl erefl erefl.
exists 2%num, 1%num, 0%num, 0%num, (p, s), q, s; split=> //.
have S0 : (0 < gp_sh1 q)%num by rewrite S1.
apply/negP => /(gpu_unit Pq S0) /(_ 3%num) H. apply: H => //.
have E : gpu_new (N.to_nat 521) 7 0 3 13 4 = Ret (p, s) := Eg.
have F : bind (gpu_new (N.to_nat 521) 7 0 3 13 4) (gpu_setUpParam 5 2 1 0 0) = Ret (q, s) by rewrite E.
have : (if bind (gpu_new (N.to_nat 521) 7 0 3 13 4) (gpu_setUpParam 5 2 1 0 0) is Ret g then
          N.land (List.nth 3 (gp_p g.1) 0%num) 15 else 0%num) = 3%num by vm_compute.
by rewrite F.
Qed.
(** setTemperingPattern changes the bits of one of the four words that the mask
    selects, setUpTempering makes the table from the four words; both keep the
    recursion. *)
Theorem C59_setPattern : forall p s mask pattern k,
  gpp_ok p -> gpu_ok p (p, s) -> tmp_ok p -> (k < 4)%N -> (mask < 2 ^ 32)%num ->
  exists q, [/\ gpu_setPattern mask pattern k (p, s) = Ret (q, s), gpp_ok q, gpu_ok q (q, s), tmp_ok q &
    [/\ gp_p q = gp_p p, gp_tp q = gp_tp p & forall i, (i < 32)%num -> forall j, N.testbit (List.nth j (gp_tmp q) 0%num) i =
        if (j == k)%N && N.testbit mask i then N.testbit pattern i else N.testbit (List.nth j (gp_tmp p) 0%num) i]].
Proof. exact gpu_setPattern_ok. Qed.
Theorem C59_setPattern_undefined : forall p s mask pattern k, tmp_ok p -> (4 <= k)%N -> gpu_setPattern mask pattern k (p, s) = Undef.
Proof. exact gpu_setPattern_undef. Qed.
Theorem C59_setUpTempering : forall p s, gpp_ok p -> gpu_ok p (p, s) -> tmp_ok p ->
  exists q, [/\ gpu_setUpTempering (p, s) = Ret (q, s), gpp_ok q, gpu_ok q (q, s),
    [/\ gp_p q = gp_p p, gp_tmp q = gp_tmp p, gp_pos q = gp_pos p & gp_mexp q = gp_mexp p] &
    forall k, (k < 4)%N -> List.nth (N.to_nat (2 ^ N.of_nat k)) (gp_tp q) 0%num = List.nth k (gp_tmp p) 0%num].
Proof. exact gpu_setUpTempering_ok. Qed.

(** An object with 521 bits: parameters, tempering and two numbers. *)
Definition ex_gpu : res gpu :=
  bind (gpu_new (N.to_nat 521) 0x12345678 0 3 13 4) (fun g => bind (gpu_setUpParam 9 0x51 0xabcd0017 0x789 0xdeadbee8 g)
    (fun g => bind (gpu_setPattern 0xffff0000 0x12345678 2 g) gpu_setUpTempering)).
Example C58_case : exists g, ex_gpu = Ret g /\ gpp_ok g.1 /\ gpu_ok g.1 g.
Proof.
have [g [Eg Pg Sg [_ Ig Zg _]]] := @gpu_new_ok (N.to_nat 521) 0x12345678 0 3 13 4 ltac:(lia) ltac:(by vm_compute) ltac:(by vm_compute).
case: g Eg Pg Sg Ig Zg => p s Eg Pg Sg Ig Zg. cbn [fst] in *.
have B : (Z.of_nat (gp_size p) < 2 ^ 31)%coqZ by rewrite Zg.
have L3 : (3 <= gp_last (gp_size p))%coqZ by rewrite Zg.
have H7 : (gp_id p < 2 ^ 32)%num by rewrite Ig.
have [q [Eq Pq Sq _ _]] := @gpu_setUpParam_ok 9 0x51 0xabcd0017 0x789 0xdeadbee8 p s Pg Sg B L3 H7 erefl erefl erefl erefl.
have T : tmp_ok q.
  have : (if bind (gpu_new (N.to_nat 521) 0x12345678 0 3 13 4) (gpu_setUpParam 9 0x51 0xabcd0017 0x789 0xdeadbee8) is Ret g then gp_tmp g.1 else [::])
         = [:: 0; 0; 0; 0]%num by vm_compute.
  by rewrite Eg; cbn [bind]; rewrite Eq /tmp_ok => ->; split=> // [[|[|[|[|k]]]]] //; case: k.
have [q2 [E2 P2 S2 T2 _]] := @gpu_setPattern_ok q s 0xffff0000 0x12345678 2 Pq Sq T erefl erefl.
have [q3 [E3 P3 S3 _ _]] := gpu_setUpTempering_ok P2 S2 T2.
exists (q3, s). by rewrite /ex_gpu Eg; cbn [bind]; rewrite Eq; cbn [bind]; rewrite E2; cbn [bind].
Qed.
Example C59_case : bind ex_gpu (fun g => Ret (gp_pos g.1, gp_tbl g.1, List.nth 4 (gp_tp g.1) 0%num, List.nth 12 (gp_p g.1) 0%num)) =
  Ret (7%N, [:: 0x50; 0xabcd0017; 0x56789; 0x1234bee0]%num, 0x12340000%num, 0x1231d969%num).
Proof. by vm_compute. Qed.
Example C59_sizes : (gp_last 8 = 3 /\ gp_last 7 = 2 /\ gp_last (N.to_nat 351) = 94 /\ gp_last (N.to_nat 130) = 1)%coqZ.
Proof. by vm_compute. Qed.

Print Assumptions C58_linear.
Print Assumptions C58_output.
Print Assumptions C58_state.
Print Assumptions C58_invertible.
Print Assumptions C58_untempered.
Print Assumptions C58_new.
Print Assumptions C58_new_undefined.
Print Assumptions C58_isZero_refuted.
Print Assumptions C58_isZero_partial.
Print Assumptions C59_setUpParam.
Print Assumptions C59_ids.
Print Assumptions C59_exit.
Print Assumptions C59_small_sizes.
Print Assumptions C59_singular.
Print Assumptions C59_setPattern.
Print Assumptions C59_setPattern_undefined.
Print Assumptions C59_setUpTempering.
