(** Properties C43, C53, C54: TinyMT32 and its search program. *)
From Coq Require Import NArith ZArith List Bool Lia.
From mathcomp Require Import all_ssreflect all_algebra.
From mathcomp Require Import zify.
From Verif Require Import Base UtilModel GenModel PolyF2 LinSpec PeriodSpec PeriodModel EquiModel TemperModel TemperSpec SequentialModel SampleSpec
  RecTemperModel TinyModel TinyDcModel TinyLin TinySpec TinyProofs TinyDcProofs TinyPeriod TinyEx.
Set Implicit Arguments.
Unset Strict Implicit.
Unset Printing Implicit Defensive.
Import GRing.Theory.
Local Open Scope ring_scope.
Delimit Scope Z_scope with coqZ.

(** C43: with any parameters p and either setting of the reverse flag the class
    is a linear generator of 127 bits: the 31 lower bits of the first word and
    the other three words.  The transition is invertible. *)
Theorem C43_linear : forall p rev, linear_gen tiny_ops (tiny_ok (p, rev)) tiny_vec (tiny_A (p, rev)) (tiny_C (p, rev)).
Proof. exact (fun p rev => tiny_lin_all (p, rev)). Qed.
Theorem C43_output : forall p rev, linear_out tiny_ops (tiny_ok (p, rev)) tiny_vec (tiny_D (p, rev)).
Proof. exact (fun p rev => @tiny_linout (p, rev)). Qed.
Theorem C43_state : forall g h, q_ok (tm_st g) -> q_ok (tm_st h) ->
  tiny_vec g = tiny_vec h <->
  let '(a0, a1, a2, a3) := tm_st g in let '(b0, b1, b2, b3) := tm_st h in
  (a0 mod 2 ^ 31 = b0 mod 2 ^ 31 /\ a1 = b1 /\ a2 = b2 /\ a3 = b3)%num.
Proof. exact tiny_state_eq. Qed.
Theorem C43_isZero : forall p rev g, tiny_ok (p, rev) g -> tiny_isZero g <-> tiny_vec g = 0.
Proof. exact (fun p rev => @tiny_isZero_vec (p, rev)). Qed.
Theorem C43_invertible : forall p rev, p_ok p -> tiny_A (p, rev) \in unitmx.
Proof. exact (fun p rev => @tiny_unit (p, rev)). Qed.
(** The two tempering searches find, window by window, a best pattern, and
    change nothing else. *)
Theorem C43_st32 : forall pos fuel veq0, pos_spec 32 pos -> (17000 <= N.of_nat fuel)%num -> (32 <= length veq0)%N ->
  exists cost, (forall g, tiny_legal g -> tiny_defect_is g (cost g)) /\
  forall f g, (23 < f)%N -> tiny_legal g -> exists g1, st32 pos fuel veq0 f g = Ret (0%coqZ, g1) /\ tiny_legal g1 /\ tm_rev g1 = false /\
    tempered tiny_set cost 32 false (step_list 23 6 1) (TM (tm_st g) (tm_par g) false) g1.
Proof. exact st32_thm. Qed.
Theorem C43_stlsb32 : forall pos fuel veq0, pos_spec 32 pos -> (17000 <= N.of_nat fuel)%num -> (32 <= length veq0)%N ->
  exists cost, (forall g, tiny_legal g -> tiny_defect_is g (cost g)) /\
  forall f g, (9 < f)%N -> tiny_legal g -> exists g1, stlsb32 pos fuel veq0 f g = Ret (0%coqZ, g1) /\ tiny_legal g1 /\ tm_rev g1 = false /\
    tempered tiny_set cost 32 true (step_list 9 5 1) (TM (tm_st g) (tm_par g) false) g1.
Proof. exact stlsb32_thm. Qed.
(** clone() gives the same generator only while the output is not reversed;
    a clone of a generator with reversed output yields other numbers. *)
Theorem C43_clone_partial : forall g, tm_rev g = false -> tiny_clone g = g.
Proof. exact clone_keeps. Qed.
Theorem C43_clone_refuted : exists g, tiny_legal g /\ (tiny_generate_len 32 (tiny_clone g)).1 <> (tiny_generate_len 32 g).1.
Proof. exact clone_loses. Qed.
(** Therefore the search from the least significant bits measures the defect
    of the output that is not reversed; the difference is real: 6 and 207. *)
Theorem C43_lsb_defect_refuted : exists g d d', tiny_legal g /\ tm_rev g = true /\
  tiny_defect pos32 (N.to_nat 17000) (List.repeat 0%coqZ 32) g = Ret d /\
  total_defect (tiny_A (tm_par g, true)) (tiny_C (tm_par g, true)) 32 d' /\ (d < d')%coqZ.
Proof. exact lsb_defect. Qed.
(** And the parameter it leads to is no better from the least significant bits:
    214 after the search, 207 before. *)
Theorem C43_lsb_tempering_refuted :
  total_defect (tiny_A (TP 0 0x8f7011ee 0xfc78ff1f 0, true)) (tiny_C (TP 0 0x8f7011ee 0xfc78ff1f 0, true)) 32 207 /\
  total_defect (tiny_A (TP 0 0x8f7011ee 0xfc78ff1f 0x3793fdff, true)) (tiny_C (TP 0 0x8f7011ee 0xfc78ff1f 0x3793fdff, true)) 32 214.
Proof. exact rev_total. Qed.
(** The published parameters: defect 0 and period 2^127-1 from every state that
    is not zero in the 127 bits. *)
Theorem C43_published : total_defect (tiny_A (TP 0 0x8f7011ee 0xfc78ff1f 0x3793fdff, false)) (tiny_C (TP 0 0x8f7011ee 0xfc78ff1f 0x3793fdff, false)) 32 0 /\
  forall q, q_ok q -> q_norm q <> (0, 0, 0, 0)%num ->
    q_norm (iter (2 ^ 127 - 1) (tiny_next (TP 0 0x8f7011ee 0xfc78ff1f 0x3793fdff)) q) = q_norm q /\
    forall i, (0 < i < 2 ^ 127 - 1)%N -> q_norm (iter i (tiny_next (TP 0 0x8f7011ee 0xfc78ff1f 0x3793fdff)) q) <> q_norm q.
Proof. exact published. Qed.
Example C43_case : tiny_ok (tiny_pub, true) (TM (0x80000000, 5, 6, 7)%num tiny_pub true) /\ tiny_legal (TM (0, 0, 0, 1)%num tiny_pub false) /\
  q_norm (0x80000001, 0, 0, 0)%num = (1, 0, 0, 0)%num.
Proof. by []. Qed.

(** C53: the parameters made from the numbers below 2^31 for the 32-bit ids are
    all different, already without the id they carry; mat2 is odd. *)
Theorem C53_distinct : forall id id' r r', (id < 2 ^ 32)%num -> (id' < 2 ^ 32)%num -> (r < 2 ^ 31)%num -> (r' < 2 ^ 31)%num ->
  tp_mat1 (tiny_params id r) = tp_mat1 (tiny_params id' r') -> tp_mat2 (tiny_params id r) = tp_mat2 (tiny_params id' r') ->
  id = id' /\ r = r'.
Proof. exact params_distinct. Qed.
Theorem C53_odd : forall id r, N.odd (tp_mat2 (tiny_params id r)) = true.
Proof. exact params_odd. Qed.
Example C53_case : tiny_params 0 0x7fffff8f = TP 0 0x8f7011ee 0xfc78ff1f 0 /\ tiny_params 1 0x7fffff8f <> TP 1 0x8f7011ee 0xfc78ff1f 0.
Proof. by vm_compute. Qed.
(** Above 2^31 numbers are wasted: the top bit is shifted out. *)
Theorem C53_top_bit_refuted : exists id r r', (r < 2 ^ 32)%num /\ (r' < 2 ^ 32)%num /\ r <> r' /\ tiny_params id r = tiny_params id r'.
Proof. exact params_top_bit. Qed.

(** C54: the program ends normally and prints in decreasing order of the
    number, from start on, the parameter sets of maximal period whose tempered
    generator has a defect of at most max_delta: all of them or the first
    [count].  The counter overflows only if 2^31 lines are printed, which needs
    all 2^31 parameter sets to be of maximal period. *)
Theorem C54_program : forall M pos, minpolyseq_spec M -> pos_spec 32 pos ->
  forall efuel sfuel ffuel loops veq0 start id max_delta (every : bool) verbose count,
  (17000 <= N.of_nat efuel)%num -> (23 < sfuel)%N -> (32 <= length veq0)%N ->
  (start < 2 ^ 31)%num -> (start + 1 < N.of_nat ffuel)%num -> (start + 1 < N.of_nat loops)%num -> (count < 2 ^ 31)%coqZ ->
  (every -> (start + 1 < 2 ^ 31)%num \/ exists2 r, (r <= start)%num & ~ tiny_maximal (tiny_params id r)) ->
  exists out, td_main M pos efuel sfuel ffuel veq0 loops start id max_delta every verbose count = Ret out /\
    tiny_listing id start max_delta every (Z.to_nat count) out.
Proof. exact td_main_spec. Qed.
(** The number 7fffff8f with the id 0 is one of those in the list. *)
Example C54_case : (0x7fffff8f <= 0x7fffffff)%num /\ tiny_maximal (tiny_params 0 0x7fffff8f).
Proof. by split; [|exact: tiny_pub_params]. Qed.

Print Assumptions C43_linear.
Print Assumptions C43_output.
Print Assumptions C43_state.
Print Assumptions C43_isZero.
Print Assumptions C43_invertible.
Print Assumptions C43_st32.
Print Assumptions C43_stlsb32.
Print Assumptions C43_clone_partial.
Print Assumptions C43_clone_refuted.
Print Assumptions C43_lsb_defect_refuted.
Print Assumptions C43_lsb_tempering_refuted.
Print Assumptions C43_published.
Print Assumptions C53_distinct.
Print Assumptions C53_odd.
Print Assumptions C53_top_bit_refuted.
Print Assumptions C54_program.
