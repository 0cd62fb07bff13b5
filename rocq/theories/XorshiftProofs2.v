(** Initialisation of xorshift128 and the orbit of a non-zero state. *)
From Coq Require Import Arith NArith ZArith List Bool Lia.
From Verif Require Import Base WordLemmas GenModel XorshiftModel XorshiftSpec MTSpec MTProofs2 XorshiftProofs.
Import ListNotations.
Local Open Scope N_scope.

Definition nextv (i p : N) : N := wadd 32 (wmul 32 1812433253 (N.lxor p (wshr p 30))) i.
Lemma nextv_lt i p : nextv i p < 2 ^ 32.
Proof. apply wadd_lt. Qed.
Lemma mul_inj a b : a < 2 ^ 32 -> b < 2 ^ 32 -> wmul 32 1812433253 a = wmul 32 1812433253 b -> a = b.
Proof.
  intros Ha Hb E. unfold wmul, trunc in E.
  apply (f_equal (fun x => (2520285293 * x) mod 2 ^ 32)) in E.
  rewrite !N.mul_mod_idemp_r in E by discriminate.
  rewrite !N.mul_assoc in E. rewrite <- (N.mul_mod_idemp_l (2520285293 * 1812433253)) in E by discriminate.
  rewrite <- (N.mul_mod_idemp_l (2520285293 * 1812433253) b) in E by discriminate.
  change ((2520285293 * 1812433253) mod 2 ^ 32) with 1 in E. rewrite !N.mul_1_l in E.
  now rewrite !N.mod_small in E.
Qed.
Lemma add_inj i a b : a < 2 ^ 32 -> b < 2 ^ 32 -> wadd 32 a i = wadd 32 b i -> a = b.
Proof.
  intros Ha Hb E. unfold wadd, trunc in E. pose proof (N.div_mod (a + i) (2 ^ 32) ltac:(discriminate)).
  pose proof (N.div_mod (b + i) (2 ^ 32) ltac:(discriminate)). rewrite E in H.
  assert ((a + i) / 2 ^ 32 = (b + i) / 2 ^ 32 \/ (a + i) / 2 ^ 32 <> (b + i) / 2 ^ 32) as [|] by lia; nia.
Qed.
Lemma nextv_inj i a b : a < 2 ^ 32 -> b < 2 ^ 32 -> nextv i a = nextv i b -> a = b.
Proof.
  intros Ha Hb E. unfold nextv in E. apply add_inj in E; try apply trunc_lt.
  destruct (bij_xshr 30 ltac:(lia)) as (B1 & B2 & _).
  apply mul_inj in E; [|now apply B1|now apply B1]. now apply B2.
Qed.
Lemma init_value seed : xorshift128_init seed =
  let v1 := nextv 1 seed in let v2 := nextv 2 v1 in let v3 := nextv 3 v2 in let v4 := nextv 4 v3 in
  let v5 := nextv 5 v4 in let v6 := nextv 6 v5 in let v7 := nextv 7 v6 in XS v4 v5 v6 v7.
Proof. cbv -[wadd wmul N.lxor wshr]. reflexivity. Qed.
Lemma init_okw seed : xs_okw (xorshift128_init seed).
Proof. rewrite init_value. cbv zeta. repeat split; apply nextv_lt. Qed.
Lemma init_nonzero seed : xs_isZero (xorshift128_init seed) = false.
Proof.
  rewrite init_value. cbv zeta. generalize (nextv 4 (nextv 3 (nextv 2 (nextv 1 seed)))). intros v4.
  unfold xs_isZero. cbn [xs_x xs_y xs_z xs_w].
  destruct (N.eqb_spec v4 0) as [->|]; [|reflexivity].
  assert (E : nextv 5 0 =? 0 = false) by (vm_compute; reflexivity). now rewrite E.
Qed.
Lemma init_inj a b : a < 2 ^ 32 -> b < 2 ^ 32 -> xorshift128_init a = xorshift128_init b -> a = b.
Proof.
  intros Ha Hb. rewrite !init_value. cbv zeta. intros E. injection E as E _ _ _.
  repeat (apply nextv_inj in E; [|solve [assumption|apply nextv_lt]|solve [assumption|apply nextv_lt]]). exact E.
Qed.

(** Iterated generation. *)
Lemma never_zero (gen : xs -> N * xs) s : bijective_on xs_okw (fun s => snd (gen s)) -> snd (gen (XS 0 0 0 0)) = XS 0 0 0 0 ->
  xs_okw s -> s <> XS 0 0 0 0 -> forall k, xs_okw (Nat.iter k (fun s => snd (gen s)) s) /\
    Nat.iter k (fun s => snd (gen s)) s <> XS 0 0 0 0.
Proof.
  intros (B1 & B2 & _) Z Hs Hn k. induction k as [|k [IH1 IH2]]; [auto|].
  cbn [Nat.iter nat_rect]. change (nat_rect _ _ _ _) with (Nat.iter k (fun s => snd (gen s)) s).
  split; [now apply B1|]. intros E. apply IH2. apply B2; auto; [|now rewrite E, Z].
  repeat split; reflexivity.
Qed.
Lemma xs128_never_zero seed k :
  xs_isZero (Nat.iter k (fun s => snd (xs5_generate 20 11 7 s)) (xorshift128_init seed)) = false.
Proof.
  assert (B : bijective_on xs_okw (fun s => snd (xs5_generate 20 11 7 s))) by (apply xs5_bij; split; discriminate).
  assert (N0 : xorshift128_init seed <> XS 0 0 0 0) by (intros E; pose proof (init_nonzero seed) as H; rewrite E in H; discriminate).
  destruct (never_zero _ _ B eq_refl (init_okw seed) N0 k) as [_ H].
  destruct (Nat.iter k _ _) as [x y z w]. unfold xs_isZero. cbn [xs_x xs_y xs_z xs_w].
  destruct (N.eqb_spec x 0), (N.eqb_spec y 0), (N.eqb_spec z 0), (N.eqb_spec w 0); try reflexivity.
  subst. now contradiction H.
Qed.
(** Seeding (xs_seed) never gives the zero state. *)
Lemma seed_nonzero v s : v < 2 ^ 32 -> xs_okw (xs_seed v s) /\ xs_isZero (xs_seed v s) = false.
Proof.
  intros Hv. split.
  - repeat split; cbn [xs_seed xs_x xs_y xs_z xs_w]; try exact Hv. now apply wnot_lt.
  - unfold xs_isZero, xs_seed. cbn [xs_x xs_y xs_z xs_w].
    destruct (N.eqb_spec v 0) as [->|]; reflexivity.
Qed.

(** init_by_array does not look at the key. *)
Lemma iba_ignores s k1 k2 : xorshift128_init_by_array s k1 = xorshift128_init_by_array s k2.
Proof. reflexivity. Qed.
Lemma iba_unchanged s k : xs_isZero s = false -> xorshift128_init_by_array s k = s.
Proof. intros H. unfold xorshift128_init_by_array, xs_period_certification. now rewrite H. Qed.
