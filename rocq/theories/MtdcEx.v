(** A Mersenne Twister of 127 bits, as the program mt2.cpp finds them. *)
From Coq Require Import NArith ZArith List Lia Bool.
From mathcomp Require Import all_ssreflect all_algebra.
From mathcomp Require Import zify.
From Verif Require Import Base WordLemmas WordVec GenModel LinSpec LinLemmas LinInst PeriodSpec MersenneProofs SampleSpec PeriodCert
  LimbMersenne ArrayModel ArrayWin ArrayLin ArrayOut ArrayEqui ArrayPeriod MtdcModel MtdcLin MtdcProofs.
Set Implicit Arguments.
Unset Strict Implicit.
Unset Printing Implicit Defensive.
Local Open Scope N_scope.
Delimit Scope Z_scope with coqZ.

Definition mt127_par : mtp := Eval vm_compute in mt32_par (N.to_nat 127) (-1) 2 0x83a9895d 0x9d2c5680 0xefc60000.
Definition mt127_f : N := 0x9540551440401415c054144454555001.
Definition mt127_s : mtg := mtg_seed 1 (mt127_par, RR 0 nil).
Definition m127 : positive := Eval vm_compute in (N.succ_pos (2 ^ 127 - 2)).
Lemma m127E : N.pos m127 = 2 ^ N.of_nat (m_mexp mt127_par) - 1.
Proof. by vm_compute. Qed.
Lemma m127_prime : prime (2 ^ N.to_nat 127 - 1).
Proof. apply: (@ll_small_prime 127%positive). by vm_compute. Qed.
Lemma mt127_cert : ar_cert (m_size mt127_par) (m_r mt127_par) (m_mexp mt127_par) mtg_ops mt127_f m127 mt127_s = true.
Proof. by vm_compute. Qed.

Lemma mt127_ok : mtp_ok mt127_par.
Proof. by vm_compute. Qed.
Lemma mt127_s_ok : mtg_ok mt127_par mt127_s.
Proof. exact: (mtg_seed_ok _ mt127_ok). Qed.
Lemma mt127_mexp : m_mexp mt127_par = N.to_nat 127. Proof. by []. Qed.
Lemma mt127_max : maximal_period (mtg_A mt127_par).
Proof.
apply: (ar_cert_ok (mtg_ag mt127_ok) _ _ m127E mt127_s_ok mt127_cert).
- by [].
- rewrite mt127_mexp. exact: m127_prime.
Qed.
