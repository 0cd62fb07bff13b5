(** Model of samples/dSFMTdc/dSFMTsearch.hpp: the class dSFMT.  A w128_t is the
    128-bit number with the halves u64[0] (low) and u64[1], as in SfmtModel. *)
From Coq Require Import Arith NArith ZArith List Bool.
From Verif Require Import Base UtilModel GenModel ArrayModel W128Model W128Spec ParityModel SfmtModel.
Import ListNotations.
Local Open Scope N_scope.

(** dSFMTsearch.hpp:47-79  dSFMT_param; fix1, fix2 and parity1, parity2 are one
    128-bit number each *)
Record dsp := DSP {
  d_mexp : Z; d_pos1 : Z; d_sl1 : Z; d_msk1 : N; d_msk2 : N; d_fix : N; d_parity : N }.
(** 630-641  the members except index, state, lung and previous *)
Record dsc := DSC {
  e_par : dsp; e_size : nat; e_start : Z; e_weight : Z; e_prefix : N; e_fixed : bool; e_fixedSL1 : Z }.
(** ((the other members, index and state), (lung, previous)) *)
Definition dsfmt : Type := (dsc * rr) * (N * N).
Definition ds_lung (g : dsfmt) : N := fst (snd g).
Definition ds_prev (g : dsfmt) : N := snd (snd g).

(** The number with the halves l and h. *)
Definition join (l h : N) : N := wval (W128 l h).
Definition lo64 (x : N) : N := u0 (w_of x).
Definition hi64 (x : N) : N := u1 (w_of x).

(** 264-267  lung->u64[k] = (t << sl1) ^ (L >> 32) ^ (L << 32) ^ b->u64[k] *)
Definition ds_lung_word (sl1 : Z) (t L b : N) : res N :=
  do x <- shl64 t sl1;
  Ret (N.lxor (N.lxor (N.lxor x (wshr L 32)) (wshl 64 L 32)) b).
(** 268-271  r->u64[k] = (lung >> sr1) ^ (lung & msk) ^ t, sr1 = 12 (line 629) *)
Definition ds_new_word (msk t l : N) : N := N.lxor (N.lxor (wshr l 12) (N.land l msk)) t.
(** 254-272  do_recursion: the new word and the new lung.  r is the same word as
    a, whose halves are read before it is written; b may be the same word, it is
    read before as well. *)
Definition ds_recursion (p : dsp) (a b lung : N) : res (N * N) :=
  do l0 <- ds_lung_word (d_sl1 p) (lo64 a) (hi64 lung) (lo64 b);
  do l1 <- ds_lung_word (d_sl1 p) (hi64 a) (lo64 lung) (hi64 b);
  Ret (join (ds_new_word (d_msk1 p) (lo64 a) l0) (ds_new_word (d_msk2 p) (hi64 a) l1), join l0 l1).
(** 277-283  next_state: state and lung *)
Definition ds_next_state (c : dsc) (s : rr) (lung : N) : res (rr * N) :=
  let size := e_size c in
  let index := Nat.modulo (rr_idx s + 1) size in
  let ix := Z.of_nat index in
  do a <- sf_at size (rr_arr s) ix;
  do b <- sf_at size (rr_arr s) (ix + d_pos1 (e_par c));
  do '(r, l) <- ds_recursion (e_par c) a b lung;
  Ret (RR index (put (rr_arr s) index r), l).
(** 294-304  the word r for the start mode *)
Definition ds_start (mode : Z) (p i : N) : N :=
  match mode with
  | 0%Z => i
  | _ => join (hi64 p) (lo64 i)
  end.
(** 313-322  the word r2 for the weight mode *)
Definition ds_weight (mode : Z) (r prev : N) : N :=
  match mode with
  | 2%Z => r
  | _ => join (lo64 r) (hi64 prev)
  end.
(** 289-332  generate(); index = index % size changes nothing *)
Definition ds_generate (g : dsfmt) : res (N * dsfmt) :=
  let '((c, s), (lung, prev)) := g in
  let size := e_size c in
  do '(s', lung') <- ds_next_state c s lung;
  do p <- sf_at size (rr_arr s') (Z.of_nat (rr_idx s') + Z.of_nat size - 1);
  do i <- sf_at size (rr_arr s') (Z.of_nat (rr_idx s'));
  let r := ds_start (e_start c) p i in
  Ret (ds_weight (e_weight c) r prev, ((c, s'), (lung', r))).
(** 359-372  generate(int) *)
Definition ds_generate_len (v : Z) (g : dsfmt) : res (N * dsfmt) :=
  do '(x, g') <- ds_generate g;
  do m <- w_mask v;
  Ret (wval (w_and (w_of x) m), g').
(** 334-336  setStartMode, 342-346  setWeightMode, 515-517  setPrefix *)
Definition ds_setStart (mode : Z) (g : dsfmt) : dsfmt :=
  let '((c, s), l) := g in
  ((DSC (e_par c) (e_size c) mode (e_weight c) (e_prefix c) (e_fixed c) (e_fixedSL1 c), s), l).
Definition ds_setWeight (mode : Z) (g : dsfmt) : dsfmt :=
  let '((c, s), l) := g in
  ((DSC (e_par c) (e_size c) (e_start c) mode (e_prefix c) (e_fixed c) (e_fixedSL1 c), s), (fst l, 0)).
Definition ds_setPrefix (x : N) (g : dsfmt) : dsfmt :=
  let '((c, s), l) := g in
  ((DSC (e_par c) (e_size c) (e_start c) (e_weight c) x (e_fixed c) (e_fixedSL1 c), s), l).
(** 393-404  setZero *)
Definition ds_setZero (g : dsfmt) : dsfmt :=
  let '((c, _), _) := g in ((c, RR 0 (repeat 0 (e_size c))), (0, 0)).
(** 411-429  isZero: the last test is of previous.u[1] *)
Definition ds_isZero (g : dsfmt) : bool :=
  let '((c, s), (lung, prev)) := g in
  if rr_zero_loop (e_size c) (e_size c) 0 0 (rr_arr s) then
    if negb (lo64 lung =? 0) || negb (hi64 lung =? 0) then false
    else match e_weight c with
         | 2%Z => true
         | _ => w32 (w_of prev) 1 =? 0
         end
  else false.
(** 463-481  add; the dynamic_cast, which throws for an object of another class,
    is left out. *)
Definition ds_add (g h : dsfmt) : dsfmt :=
  let '((c, s), (l, q)) := g in
  let '((_, t), (l', q')) := h in
  ((c, rr_xor (e_size c) s t), (wval (w_xor (w_of l) (w_of l')), wval (w_xor (w_of q) (w_of q')))).
(** 616-628  setup_prefix *)
Definition ds_pref_word (prefix x : N) : N :=
  let a := N.land (lo64 x) 0xfffffffffffff in
  let b := N.land (hi64 x) 0xfffffffffffff in
  if prefix =? 0 then join a b else join (N.lor a prefix) (N.lor b prefix).
Definition ds_setup_prefix (g : dsfmt) : dsfmt :=
  let '((c, s), l) := g in ((c, RR (rr_idx s) (map (ds_pref_word (e_prefix c)) (rr_arr s))), l).
(** 228-252  seed: pstate is one array of 64-bit words *)
Definition ds_seed_word (v : N) (i : nat) (prev : N) : N :=
  N.lxor (if (i =? 1)%nat then hi64 v else 0)
    (wadd 64 (trunc 64 (N.of_nat i)) (wmul 64 6364136223846793005 (N.lxor prev (wshr prev 62)))).
Fixpoint ds_group (cnt : nat) (l : list N) : list N :=
  match cnt with
  | O => []
  | S c => join (nth 0 l 0) (nth 1 l 0) :: ds_group c (skipn 2 l)
  end.
Definition ds_seed (v : N) (g : dsfmt) : dsfmt :=
  let '((c, _), _) := g in
  let size := e_size c in
  let l := ds_group (size + 1) (lo64 v :: rr_fill ((size + 1) * 2 - 1) 1 (lo64 v) (ds_seed_word v)) in
  ds_setup_prefix ((c, RR 0 (firstn size l)), (nth size l 0, 0)).

(** The class as the toolbox sees it; where a call has undefined behaviour the
    interface has some arbitrary value (the theorems say when that is not so). *)
Definition ds_run (g : dsfmt) (m : res (N * dsfmt)) : N * dsfmt := match m with Ret x => x | _ => (0, g) end.
Definition ds_ops : gen_ops dsfmt :=
  {| g_width := 128; g_generate := fun g => ds_run g (ds_generate g);
     g_generate_len := fun v g => ds_run g (ds_generate_len v g);
     g_add := ds_add; g_setZero := ds_setZero; g_isZero := ds_isZero; g_seed := ds_seed;
     (* 487-489 *)
     g_bitSize := fun g => (e_size (fst (fst g)) * 104 + 128)%nat |}.

(** 441-454  setOneBit; (bitPos / 64) % 2 is always a legal index *)
Definition ds_setOneBit (bitPos : nat) (g : dsfmt) : res dsfmt :=
  let '((c, s), (l, q)) := ds_setZero g in
  let size := e_size c in
  if (bitPos <? size * 104)%nat then
    let idx := Nat.div bitPos 104 in
    let p := Nat.modulo (Nat.div bitPos 52) 2 in
    let r := Nat.modulo bitPos 52 in
    let w := nth idx (rr_arr s) 0 in
    let x := wshl 64 1 (N.of_nat r) in
    Ret ((c, RR (rr_idx s) (put (rr_arr s) idx (if (p =? 0)%nat then join x (hi64 w) else join (lo64 w) x))), (l, q))
  else
    let bitPos := (bitPos - size * 104)%nat in
    let p := Nat.modulo (Nat.div bitPos 64) 2 in
    let r := Nat.modulo bitPos 64 in
    let x := wshl 64 1 (N.of_nat r) in
    Ret ((c, s), ((if (p =? 0)%nat then join x (hi64 l) else join (lo64 l) x), q)).
(** 431-435  setParityValue, 437-439  getParityValue, 549-552  setFixPoint,
    483-485  getMexp *)
Definition ds_setPar (f : dsp -> dsp) (g : dsfmt) : dsfmt :=
  let '((c, s), l) := g in
  ((DSC (f (e_par c)) (e_size c) (e_start c) (e_weight c) (e_prefix c) (e_fixed c) (e_fixedSL1 c), s), l).
Definition ds_setParity (x : N) (g : dsfmt) : dsfmt :=
  let '(h, (_, q)) := g in
  ds_setPar (fun p => DSP (d_mexp p) (d_pos1 p) (d_sl1 p) (d_msk1 p) (d_msk2 p) (d_fix p) x) (h, (x, q)).
Definition ds_getParity (g : dsfmt) : N := ds_lung g.
Definition ds_setFixPoint (x : N) (g : dsfmt) : dsfmt :=
  ds_setPar (fun p => DSP (d_mexp p) (d_pos1 p) (d_sl1 p) (d_msk1 p) (d_msk2 p) x (d_parity p)) g.
Definition ds_par_ops : par_ops dsfmt :=
  {| p_getMexp := fun g => d_mexp (e_par (fst (fst g))); p_setOneBit := ds_setOneBit;
     p_getParityValue := ds_getParity; p_setParityValue := ds_setParity |}.

(** 519-531  setConst; [tmp] shares the members of the object *)
Definition ds_high : N := 0x3ff0000000000000.
Definition ds_setConst (g : dsfmt) : res dsfmt :=
  let tmp := ds_setup_prefix (ds_setPrefix ds_high (ds_setZero g)) in
  do '(s, l) <- ds_next_state (fst (fst tmp)) (snd (fst tmp)) (ds_lung tmp);
  let tmp := ((fst (fst tmp), s), (l, ds_prev tmp)) in
  let this := ds_setup_prefix (ds_setPrefix ds_high (ds_setZero g)) in
  Ret (ds_setPrefix 0 (ds_add this tmp)).
(** 533-547  equals: state and lung, from the index on *)
Fixpoint ds_eq_loop (size cnt i idx : nat) (a : list N) (idx' : nat) (b : list N) : bool :=
  match cnt with
  | O => true
  | S c => if N.eqb (rr_at size a (idx + i)) (rr_at size b (idx' + i)) then ds_eq_loop size c (S i) idx a idx' b else false
  end.
Definition ds_equals (g h : dsfmt) : bool :=
  let '((c, s), (l, _)) := g in
  let '((_, t), (l', _)) := h in
  if negb (lo64 l =? lo64 l') || negb (hi64 l =? hi64 l') then false
  else ds_eq_loop (e_size c) (e_size c) 0 (rr_idx s) (rr_arr s) (rr_idx t) (rr_arr t).
(** 570-605  periodCertification, on the object *)
Definition ds_periodCertification (noFix : bool) (g : dsfmt) : Z * dsfmt :=
  let '((c, s), (l, q)) := g in
  let '(r, l') := dsfmt_certification (w_of l) (w_of (d_parity (e_par c))) (w_of (d_fix (e_par c))) noFix in
  (r, ((c, s), (wval l', q))).

(** 149-169, 199-218  the constructors; the first does not initialise the array,
    here its contents are the argument [junk].  A negative number of words is
    outside the model. *)
Definition ds_words (mexp : Z) : nat := Z.to_nat (Z.quot (mexp - 128) 104 + 1).
Definition ds_new_mexp (mexp : Z) (junk : list N) : dsfmt :=
  ((DSC (DSP mexp 0 0 0 0 0 0) (ds_words mexp) 0 2 0 false 0, RR 0 junk), (0, 0)).
Definition ds_new (p : dsp) : dsfmt :=
  ((DSC p (ds_words (d_mexp p)) 0 2 0 false 0, RR 0 (repeat 0 (ds_words (d_mexp p)))), (0, 0)).
(** 378-391  setUpParam: u are the values of getUint64().  size - 2 is an
    unsigned subtraction; the remainder by zero is undefined. *)
Definition ds_setUpParam (u : nat -> N) (g : dsfmt) : res dsfmt :=
  let '((c, s), l) := g in
  let m := wsub 64 (N.of_nat (e_size c)) 2 in
  if m =? 0 then Undef
  else
    let p := e_par c in
    let k := if e_fixed c then 1%nat else 2%nat in
    let sl1 := if e_fixed c then e_fixedSL1 c else Z.of_N (u 1%nat mod 51 + 1) in
    Ret ((DSC (DSP (d_mexp p) (to_signed 32 (trunc 32 (wadd 64 (u 0%nat mod m) 1))) sl1
                   (N.land (N.lor (u k) (u (k + 1)%nat)) 0xfffffffffffff)
                   (N.land (N.lor (u (k + 2)%nat) (u (k + 3)%nat)) 0xfffffffffffff) (d_fix p) (d_parity p))
              (e_size c) (e_start c) (e_weight c) (e_prefix c) (e_fixed c) (e_fixedSL1 c), s), l).
