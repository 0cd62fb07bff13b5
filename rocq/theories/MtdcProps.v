(** Properties C44, C55, C56: the Mersenne Twisters of samples/MTDC. *)
From Coq Require Import NArith ZArith List Bool Lia.
From mathcomp Require Import all_ssreflect all_algebra.
From mathcomp Require Import zify.
From Verif Require Import Base WordLemmas UtilModel GenModel LinSpec PeriodSpec SampleSpec MTModel MTSpec MTClient ArrayModel MtdcModel MtdcLin MtdcProofs MtdcEx.
Set Implicit Arguments.
Unset Strict Implicit.
Unset Printing Implicit Defensive.
Import GRing.Theory.
Local Open Scope ring_scope.
Delimit Scope Z_scope with coqZ.

(** C44: the class with parameters p is a linear generator on the mexp bits that
    count, wherever the index stands.  [mtg_ok p]: an object with the parameters
    p, an index below the size and an array of size 32-bit words. *)
Theorem C44_linear : forall p, mtp_ok p -> linear_gen mtg_ops (mtg_ok p) (mtg_vec p) (mtg_A p) (mtg_C p).
Proof. exact mtg_lin. Qed.
Theorem C44_output : forall p, mtp_ok p -> linear_out mtg_ops (mtg_ok p) (mtg_vec p) (mtg_D p).
Proof. exact mtg_linout. Qed.
(** Two objects have the same vector exactly if their words agree, read from the
    one after the index on; of the first word only the upper bits count. *)
Theorem C44_state : forall p, mtp_ok p -> forall s t, mtg_ok p s -> mtg_ok p t ->
  let word (g : mtg) k := List.nth ((rr_idx g.2 + 1 + k) mod m_size p)%nat (rr_arr g.2) 0%num in
  let r := (m_size p * 32 - m_mexp p)%N in
  mtg_vec p s = mtg_vec p t <->
  ((word s 0 / 2 ^ N.of_nat r = word t 0 / 2 ^ N.of_nat r)%num /\ forall k, (0 < k < m_size p)%N -> word s k = word t k).
Proof.
move=> p Hp s t Hs Ht word r. rewrite -!N.shiftr_div_pow2. exact: (mtg_state Hp Hs Ht).
Qed.
(** The transition is invertible exactly if the top bit of mata is set. *)
Theorem C44_invertible : forall p, mtp_ok p -> (1 < m_pos p)%N -> mtg_A p \in unitmx <-> N.testbit (m_mata p) 31.
Proof. exact mtg_unit. Qed.
(** The hypotheses hold for the objects of the programs. *)
Theorem C44_mt19937 : mtp_ok mt19937_par /\ forall v, (v < 2 ^ 32)%num -> mtg_ok mt19937_par (mt19937_new v).
Proof. exact (conj mt19937_par_ok mt19937_new_ok). Qed.
Theorem C44_mt32_new : forall mexp id pos mata maskb maskc v,
  (32 <= mexp)%N -> Nat.modulo mexp 32 <> 0%N -> (0 < pos < mt32_size mexp)%N ->
  (mata < 2 ^ 32)%num -> (maskb < 2 ^ 32)%num -> (maskc < 2 ^ 32)%num -> (v < 2 ^ 32)%num ->
  exists g, [/\ mt32_new mexp id pos mata maskb maskc v = Ret g, fst g = mt32_par mexp id pos mata maskb maskc,
                mtp_ok (fst g) & mtg_ok (fst g) g].
Proof. exact mt32_new_ok. Qed.
Theorem C44_mt32_setUpParam : forall p s u1 u2, mtp_ok p -> mtg_ok p (p, s) -> (2 < m_size p)%N -> (N.of_nat (m_size p) < 2 ^ 31)%num ->
  (u1 < 2 ^ 32)%num -> (u2 < 2 ^ 32)%num ->
  exists q, [/\ mt32_setUpParam u1 u2 (p, s) = Ret (q, s), mtp_ok q, mtg_ok q (q, s) & (1 < m_pos q)%N] /\
    ((0 <= m_id p)%coqZ -> N.land (m_mata q) 0xffff = Z.to_N (m_id p mod 2 ^ 16)%coqZ).
Proof. exact mt32_setUpParam_ok. Qed.
(** setTemperingPattern changes only the bits under the mask, of mask b for source
    bit 0 and of mask c otherwise. *)
Theorem C44_mt32_setTemperingPattern : forall mask pattern i p s,
  let g := mt32_set mask pattern i (p, s) in let q := g.1 in
  [/\ g.2 = s, (m_mexp q, m_size q, m_rev q, m_upper q, m_lower q, m_pos q, m_id q, m_mata q, m_sh q) =
        (m_mexp p, m_size p, m_rev p, m_upper p, m_lower p, m_pos p, m_id p, m_mata p, m_sh p),
      forall b, (b < 32)%num -> N.testbit (m_maskb q) b = N.testbit (if (i == 0%N) && N.testbit mask b then pattern else m_maskb p) b &
      forall b, (b < 32)%num -> N.testbit (m_maskc q) b = N.testbit (if (i != 0%N) && N.testbit mask b then pattern else m_maskc p) b].
Proof.
have W mask pattern m b : (b < 32)%num ->
    N.testbit (N.lor (N.land m (wnot 32 mask)) (N.land pattern mask)) b = N.testbit (if N.testbit mask b then pattern else m) b.
  move=> Hb. rewrite N.lor_spec !N.land_spec wnot_spec //.
  by case: (N.testbit mask b); rewrite ?andbT ?andbF ?orbF.
by move=> mask pattern [|i] p s; split=> // b Hb; cbn [mt32_set fst m_maskb m_maskc]; rewrite W.
Qed.
(** With an exponent that is a multiple of 32 the constructor shifts a 32-bit
    word by 32. *)
Theorem C44_mt32_new_undefined : forall mexp id pos mata maskb maskc v,
  Nat.modulo mexp 32 = 0%N -> mt32_new mexp id pos mata maskb maskc v = Undef.
Proof. exact mt32_new_undef. Qed.
(** isZero masks the newest word instead of the oldest, so it is wrong both ways
    whatever the parameters are. *)
Theorem C44_isZero_refuted : forall p, mtp_ok p ->
  (exists s, [/\ mtg_ok p s, mtg_vec p s = 0 & mtg_isZero s = false]) /\
  (exists s, [/\ mtg_ok p s, mtg_vec p s <> 0 & mtg_isZero s = true]).
Proof. exact (fun p Hp => conj (isZero_false_neg Hp) (isZero_false_pos Hp)). Qed.
(** What it decides: the upper bits of the newest word and all bits of the other
    words are zero. *)
Theorem C44_isZero_partial : forall p, mtp_ok p -> forall s, mtg_ok p s ->
  mtg_isZero s = true <->
  (N.land (m_upper p) (mtg_win p s (m_size p - 1)) = 0%num /\ forall k, (k < m_size p - 1)%N -> mtg_win p s k = 0%num).
Proof. exact mtg_isZeroE. Qed.
Example C44_case : mtp_ok mt127_par /\ mtg_ok mt127_par mt127_s /\ m_size mt127_par = 4%N /\ rr_idx mt127_s.2 = 3%N /\
  rr_idx (mtg_generate mt127_s).2.2 = 0%N /\ N.testbit (m_mata mt127_par) 31 = true.
Proof. split; first exact: mt127_ok. split; first exact: mt127_s_ok. by vm_compute. Qed.

(** C55: MT19937 of mt1.cpp yields the numbers of the library's MersenneTwister
    with the same seed. *)
Theorem C55_same_sequence : forall v m (s : mt32), (v < 2 ^ 32)%num -> length (mt_mem s) = N.to_nat 1024 ->
  mt_run s (MSeed v :: List.repeat MGen32 m) = Ret (None :: List.map Some (outputs mtg_ops m (mt19937_new v))).
Proof. exact mt1_library. Qed.
Example C55_case : outputs mtg_ops 2 (mt19937_new 5489) = [:: 3499211612; 581869302]%num.
Proof. by vm_compute. Qed.

(** C56: with the top bit of mata set, any size-1 numbers are the outputs of
    some state; over a full period the outputs are equidistributed in size-1
    dimensions with 32-bit accuracy, and in no more. *)
Theorem C56_any_outputs : forall p, mtp_ok p -> forall ys : seq N,
  (0 < m_sh p)%num -> (1 < m_pos p)%N -> N.testbit (m_mata p) 31 ->
  length ys = (m_size p - 1)%N -> List.Forall (fun y => (y < 2 ^ 32)%num) ys ->
  exists s, mtg_ok p s /\ outputs mtg_ops (m_size p - 1) s = ys.
Proof. exact mtg_any_outputs. Qed.
Theorem C56_dimension : forall p, mtp_ok p -> forall x0,
  (0 < m_sh p)%num -> (1 < m_pos p)%N -> N.testbit (m_mata p) 31 -> full_period (mtg_A p) x0 ->
  equidist_dim (mtg_A p) (mtg_C p) x0 32 (m_size p - 1) /\ classical_equidist (mtg_A p) (mtg_C p) x0 (m_size p - 1) 32.
Proof. exact mtg_dim. Qed.
(** A generator of 127 bits to which this applies. *)
Theorem C56_mt127 : maximal_period (mtg_A (mt32_par (N.to_nat 127) (-1) 2 0x83a9895d 0x9d2c5680 0xefc60000)).
Proof. exact mt127_max. Qed.
Example C56_case : (0 < m_sh mt127_par)%num /\ (1 < m_pos mt127_par)%N /\ N.testbit (m_mata mt127_par) 31 /\
  mt127_par = mt32_par (N.to_nat 127) (-1) 2 0x83a9895d 0x9d2c5680 0xefc60000.
Proof. by vm_compute. Qed.
Example C56_mt19937_case : (0 < m_sh mt19937_par)%num /\ (1 < m_pos mt19937_par)%N /\ N.testbit (m_mata mt19937_par) 31.
Proof. by vm_compute. Qed.

Print Assumptions C44_linear.
Print Assumptions C44_output.
Print Assumptions C44_state.
Print Assumptions C44_invertible.
Print Assumptions C44_mt19937.
Print Assumptions C44_mt32_new.
Print Assumptions C44_mt32_setUpParam.
Print Assumptions C44_mt32_setTemperingPattern.
Print Assumptions C44_mt32_new_undefined.
Print Assumptions C44_isZero_refuted.
Print Assumptions C44_isZero_partial.
Print Assumptions C55_same_sequence.
Print Assumptions C56_any_outputs.
Print Assumptions C56_dimension.
Print Assumptions C56_mt127.
