(** The programs calc_equidist of sfmtdc and of dSFMTdc. *)
From Coq Require Import NArith ZArith List Bool Lia.
From mathcomp Require Import all_ssreflect all_algebra.
From mathcomp Require Import zify.
From Verif Require Import Base WordLemmas UtilModel GenModel PolyF2 LinSpec LinLemmas LinInst ArrayModel ArrayLin DelayLin PeriodModel PeriodSpec
  PolyAct PeriodProofs2 PeriodProofs4 ParityModel ParitySpec W128Model W128Spec SfmtModel SfmtLin SfmtProofs SfmtParity
  EquiModel SimdModel SimdPack SimdSpec SimdSeq SimdBits SimdProofs SimdThm DsfmtModel ViewLin DsfmtLin DsfmtProofs DsfmtPar DsfmtEquiModel DsfmtEquiSpec
  DsfmtEquiProofs DsfmtEquiThm AnniModel AnniThm SearchModel SearchSpec SearchLin SearchSfmt PerTestModel PerTestRead EqMainModel EqMainSpec EqMainSeq.
Import ListNotations.
Set Implicit Arguments.
Unset Strict Implicit.
Unset Printing Implicit Defensive.
Import GRing.Theory.
Local Open Scope ring_scope.
Delimit Scope Z_scope with coqZ.

Lemma eq_seed_lt seed junk : (eq_seed seed junk < 2 ^ 128)%num.
Proof. by apply: join_lt; apply: N.mod_lt. Qed.
Lemma eq_tableE mexp d n veq : mexp = Z.of_nat d -> table_of d n veq (eq_table mexp n veq).
Proof.
move=> ->. split=> [|v Hv k Ek]; first by rewrite /eq_table List.map_length List.seq_length.
pose g j := (let k := List.nth j veq 0 in (k, Z.quot (Z.of_nat d) (Z.of_nat j + 1) - k))%coqZ.
have Hv' : (v - 1 < n)%N by move: Hv; clear; lia.
rewrite /eq_table (List.nth_indep _ _ (g n)); last by rewrite List.map_length List.seq_length; apply/ltP.
rewrite (List.map_nth g) List.seq_nth; last by apply/ltP. cbn [Nat.add]. rewrite /g Ek. congr (_, _).
have -> : (Z.of_nat (v - 1) + 1 = Z.of_nat v)%coqZ by move: Hv; clear; lia.
rewrite Z.quot_div_nonneg; [|by move: Hv; clear; lia|by move: Hv; clear; lia].
congr (_ - _)%coqZ. apply/esym/(Z.div_unique _ _ _ (Z.of_nat (d %% v))); last by rewrite {1}(divn_eq d v); clear; lia.
have : (d %% v < v)%N by rewrite ltn_mod; move: Hv; clear; lia.
by move: (d %% v)%N => r; clear; lia.
Qed.

(** * The words of the states of a component *)
Section SfWords.
Variable c : sfc.
Hypothesis Hc : sfc_ok c.
Hypothesis s3 : (3 <= c_size c)%N.
Notation nn := (c_size c * 128 + wm_bits (c_weight c))%N.
Notation A := (sfmt_A c).
Lemma sf_word_col i : exists y : 'cV['F_2]_nn, forall s W, sfmt_ok c s -> sfmt_words s W ->
  forall k, f2 (N.testbit (W k) i) = (st A k (sfmt_vec c s) *m y) 0 0.
Proof.
have XE s k : sfmt_ok c s -> sfmt_vec c (iter k (dl_next (c_size c) (sF c) (sR c)) s) = st A k (sfmt_vec c s).
  move=> Hs. elim: k => [//|k IH]. rewrite iterS stS -IH. have [Hk _] := iter_next Hc k Hs. exact: (dl_gen_vec (sfmt_dg Hc) Hk).
case: (N.ltb_spec i 128) => Hi; last first.
  exists 0 => s W Hs HW k. rewrite mulmx0 mxE (words_unique Hc Hs HW) (bits_above 128) //. exact: (sf_W_lt Hc).
have Hi2 : (N.to_nat i < nn)%N by clear -Hi s3; lia.
exists (delta_mx (Ordinal Hi2) 0) => s W Hs HW k. rewrite -XE // -colE mxE (words_unique Hc Hs HW) mxE /= /dl_bits.
have -> : (N.to_nat i < c_size c * 128)%N by clear -Hi s3; lia.
have [_ E] := iter_next Hc k Hs. rewrite E /ar_bits addn0 /sf_W.
have -> : Nat.div (N.to_nat i) 128 = 0%N by rewrite Nat.div_small //; clear -Hi; lia.
have -> : Nat.modulo (N.to_nat i) 128 = N.to_nat i by rewrite Nat.mod_small //; clear -Hi; lia. by rewrite N2Nat.id.
Qed.
Lemma sf_shifts s s' W W' : sfmt_ok c s -> sfmt_ok c s' -> sfmt_words s W -> sfmt_words s' W' ->
  in_orbit_span A (sfmt_vec c s) (sfmt_vec c s') -> shifts W W'.
Proof.
move=> Hs Hs' HW HW' [K [a E]]. exists K, (fun j => a j != 0) => k i. have [y Y] := sf_word_col i.
apply: f2_inj. rewrite f2_xsum (Y _ _ Hs' HW') E LinLemmas.st_sum mulmx_suml summxE. apply: eq_bigr => j _.
rewrite stZ -scalemxAl mxE -st_add -(Y _ _ Hs HW).
by rewrite /f2; case: (F2_cases (a j)) => ->; case: N.testbit; rewrite ?mulr1 ?mulr0 ?mul0r.
Qed.
Lemma sf_comp_shifts f d W W' : irreducible_poly f -> size f = d.+1 -> (nn < 2 * d)%N -> sf_comp_words c f W -> sf_comp_words c f W' -> shifts W W'.
Proof.
move=> If sf Hn [s [Hs s0 sk HW]] [s' [Hs' s0' sk' HW']]. apply: (sf_shifts Hs Hs' HW HW').
by apply/(comp_all If sf Hn s0) => //; rewrite pact_mx.
Qed.
Lemma sf_dims_all f d lsb ew L W W' veq : irreducible_poly f -> size f = d.+1 -> (nn < 2 * d)%N -> (0 < L)%N -> sf_comp_words c f W ->
  sf_comp_words c f W' -> word_dims_from lsb ew L W veq -> word_dims_from lsb ew L W' veq.
Proof.
move=> If sf Hn L0 CW CW' H v Hv. have [r [E1 [E2 E3]]] := H v Hv.
have S1 := sf_comp_shifts If sf Hn CW CW'. have S2 := sf_comp_shifts If sf Hn CW' CW.
exists r; split=> //; split=> [phi|k Hk]; first exact: (equid_shift S2 L0).
by apply: E3 => phi; apply: (equid_shift S1 L0).
Qed.
End SfWords.

Section DsWords.
Variable c : dsc.
Hypothesis Hc : dsc_ok c.
Notation A := (dsfmt_A c).
Lemma ds_word_col i : exists y : 'cV['F_2]_(dn c), forall s W, dsfmt_ok c s -> dsfmt_words s W ->
  forall k, f2 (N.testbit (W k) i) = (st A k (dsfmt_vec c s) *m y) 0 0.
Proof.
pose g (a : nat -> N) := a 0%N.
have Vf : vfun (e_size c).+2 ds_small g by split=> [a b _ _|a b E] //; rewrite /g; apply: E; lia.
exists (vl_col (dn c) (ds_view c) (ds_mk c) g (N.to_nat i)) => s W Hs HW k.
rewrite -[st A k _]ds_it_vec //.
have := vl_colE (ds_vg Hc) (N.to_nat i) Vf (ds_it_ok Hc k Hs). rewrite /obit => ->.
rewrite (ds_words_unique Hc Hs HW) /g view_arr; last by have := dc_size Hc; clear; lia. by rewrite N2Nat.id.
Qed.
Lemma ds_shifts s s' W W' : dsfmt_ok c s -> dsfmt_ok c s' -> dsfmt_words s W -> dsfmt_words s' W' ->
  in_orbit_span A (dsfmt_vec c s) (dsfmt_vec c s') -> shifts W W'.
Proof.
move=> Hs Hs' HW HW' [K [a E]]. exists K, (fun j => a j != 0) => k i. have [y Y] := ds_word_col i.
apply: f2_inj. rewrite f2_xsum (Y _ _ Hs' HW') E LinLemmas.st_sum mulmx_suml summxE. apply: eq_bigr => j _.
rewrite stZ -scalemxAl mxE -st_add -(Y _ _ Hs HW).
by rewrite /f2; case: (F2_cases (a j)) => ->; case: N.testbit; rewrite ?mulr1 ?mulr0 ?mul0r.
Qed.
Lemma ds_dims_all f d W W' veq : irreducible_poly f -> size f = d.+1 -> (dn c < 2 * d)%N -> ds_comp_words c f W ->
  ds_comp_words c f W' -> word_dims52 W veq -> word_dims52 W' veq.
Proof.
move=> If sf Hn CW CW' H v Hv. have [r [E1 [E2 E3]]] := H v Hv.
have S W1 W2 : ds_comp_words c f W1 -> ds_comp_words c f W2 -> shifts W1 W2.
  move=> [s [Hs s0 sk HW]] [s' [Hs' s0' sk' HW']]. apply: (ds_shifts Hs Hs' HW HW').
  by apply/(comp_all If sf Hn s0) => //; rewrite pact_mx.
exists r; split=> //; split=> [phi|k Hk]; first exact: (equid52_shift (S _ _ CW' CW)).
by apply: E3 => phi; apply: (equid52_shift (S _ _ CW CW')).
Qed.
End DsWords.
