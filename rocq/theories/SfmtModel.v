(** Model of samples/sfmtdc/sfmtsearch.hpp: the class sfmt.  A w128_t is stored as
    the 128-bit number whose 64-bit halves are u64[0] (low) and u64[1]; the
    32-bit words u[0] .. u[3] are taken from it as on a little endian machine. *)
From Coq Require Import Arith NArith ZArith List Bool.
From Verif Require Import Base UtilModel GenModel ArrayModel W128Model W128Spec ParityModel.
Import ListNotations.
Local Open Scope N_scope.

(** The union with a given value. *)
Definition w_of (x : N) : w128 := W128 (trunc 64 x) (wshr x 64).

(** sfmtsearch.hpp:41-153  sfmt_param; parity1 .. parity4 are one 128-bit number *)
Record sfp := SFP {
  f_mexp : Z; f_pos1 : Z; f_sl1 : Z; f_sl2 : Z; f_sr1 : Z; f_sr2 : Z;
  f_msk1 : N; f_msk2 : N; f_msk3 : N; f_msk4 : N; f_parity : N }.
(** 641-648  the members except index, state and previous *)
Record sfc := SFC { c_par : sfp; c_size : nat; c_start : Z; c_weight : Z; c_rev : bool }.
(** ((the other members, index and state), previous) *)
Definition sfmt : Type := (sfc * rr) * N.

(** Shifts of a uint32_t by an int. *)
Definition shl32 (x : N) (s : Z) : res N :=
  if ((0 <=? s) && (s <? 32))%Z then Ret (wshl 32 x (Z.to_N s)) else Undef.
Definition shr32 (x : N) (s : Z) : res N :=
  if ((0 <=? s) && (s <? 32))%Z then Ret (wshr x (Z.to_N s)) else Undef.

(** 296-303  one of the four statements r->u[k] = ... of do_recursion *)
Definition sf_word (p : sfp) (k : nat) (msk : N) (a x b y d : w128) : res N :=
  do t <- shr32 (w32 b k) (f_sr1 p);
  do u <- shl32 (w32 d k) (f_sl1 p);
  Ret (N.lxor (N.lxor (N.lxor (N.lxor (w32 a k) (w32 x k)) (N.land t msk)) (w32 y k)) u).
(** 289-304  do_recursion.  r may be the same word as a, b, c or d: each
    statement reads only u[k] of them, x and y are computed before. *)
Definition sf_recursion (p : sfp) (a b c d : N) : res N :=
  do x <- lshift128 (w_of a) (f_sl2 p);
  do y <- rshift128 (w_of c) (f_sr2 p);
  do r0 <- sf_word p 0 (f_msk1 p) (w_of a) x (w_of b) y (w_of d);
  do r1 <- sf_word p 1 (f_msk2 p) (w_of a) x (w_of b) y (w_of d);
  do r2 <- sf_word p 2 (f_msk3 p) (w_of a) x (w_of b) y (w_of d);
  do r3 <- sf_word p 3 (f_msk4 p) (w_of a) x (w_of b) y (w_of d);
  Ret (wval (w_of32 r0 r1 r2 r3)).
(** state[i % size] with the int i: a negative or too large index is undefined. *)
Definition sf_at (size : nat) (a : list N) (i : Z) : res N :=
  if (size =? 0)%nat then Undef
  else let j := Z.rem i (Z.of_nat size) in
       if (j <? 0)%Z then Undef
       else match nth_error a (Z.to_nat j) with Some x => Ret x | None => Undef end.
(** 309-318  next_state *)
Definition sf_next_state (c : sfc) (s : rr) : res rr :=
  let size := c_size c in
  let sz := Z.of_nat size in
  let index := Nat.modulo (rr_idx s + 1) size in
  let ix := Z.of_nat index in
  do a <- sf_at size (rr_arr s) ix;
  do b <- sf_at size (rr_arr s) (ix + f_pos1 (c_par c));
  do e <- sf_at size (rr_arr s) (ix + sz - 2);
  do d <- sf_at size (rr_arr s) (ix + sz - 1);
  do r <- sf_recursion (c_par c) a b e d;
  Ret (RR index (put (rr_arr s) index r)).
(** 334-359  the word r for the start mode; p = state[(index + size - 1) % size],
    i = state[index] *)
Definition sf_start (mode : Z) (p i : w128) : w128 :=
  match mode with
  | 0%Z => w_of32 (w32 i 0) (w32 i 1) (w32 i 2) (w32 i 3)
  | 1%Z => w_of32 (w32 p 1) (w32 p 2) (w32 p 3) (w32 i 0)
  | 2%Z => w_of32 (w32 p 2) (w32 p 3) (w32 i 0) (w32 i 1)
  | _ => w_of32 (w32 p 3) (w32 i 0) (w32 i 1) (w32 i 2)
  end.
(** 383-407  the word r2 for the weight mode *)
Definition sf_weight (mode : Z) (r prev : w128) : w128 :=
  match mode with
  | 4%Z => r
  | 3%Z => w_of32 (w32 r 0) (w32 r 1) (w32 r 2) (w32 prev 3)
  | 2%Z => w_of32 (w32 r 0) (w32 r 1) (w32 prev 2) (w32 prev 3)
  | _ => w_of32 (w32 r 0) (w32 prev 1) (w32 prev 2) (w32 prev 3)
  end.
(** 324-418  generate() *)
Definition sf_generate (g : sfmt) : res (N * sfmt) :=
  let '((c, s), prev) := g in
  let size := c_size c in
  do s' <- sf_next_state c s;
  do p <- sf_at size (rr_arr s') (Z.of_nat (rr_idx s') + Z.of_nat size - 1);
  do i <- sf_at size (rr_arr s') (Z.of_nat (rr_idx s'));
  let r := sf_start (c_start c) (w_of p) (w_of i) in
  let r2 := sf_weight (c_weight c) r (w_of prev) in
  Ret (wval r2, ((c, s'), wval r)).
(** 444-453  generate(int) *)
Definition sf_generate_len (v : Z) (g : sfmt) : res (N * sfmt) :=
  do '(x, g') <- sf_generate g;
  let w := if c_rev (fst (fst g)) then w_reverse (w_of x) else w_of x in
  do m <- w_mask v;
  Ret (wval (w_and w m), g').
(** 420-423  setStartMode, 428-432  setWeightMode *)
Definition sf_setStart (mode : Z) (g : sfmt) : sfmt :=
  let '((c, s), prev) := g in ((SFC (c_par c) (c_size c) mode (c_weight c) (c_rev c), s), prev).
Definition sf_setWeight (mode : Z) (g : sfmt) : sfmt :=
  let '((c, s), _) := g in ((SFC (c_par c) (c_size c) (c_start c) mode (c_rev c), s), 0).
(** 584-594  set_reverse_bit, reset_reverse_bit *)
Definition sf_setrev (b : bool) (g : sfmt) : sfmt :=
  let '((c, s), prev) := g in ((SFC (c_par c) (c_size c) (c_start c) (c_weight c) b, s), prev).
(** 484-493  setZero *)
Definition sf_setZero (g : sfmt) : sfmt :=
  let '((c, _), _) := g in ((c, RR 0 (repeat 0 (c_size c))), 0).
(** 500-521  isZero *)
Definition sf_isZero (g : sfmt) : bool :=
  let '((c, s), prev) := g in
  if rr_zero_loop (c_size c) (c_size c) 0 0 (rr_arr s) then
    match c_weight c with
    | 4%Z => true
    | 3%Z => w32 (w_of prev) 3 =? 0
    | 2%Z => (w32 (w_of prev) 2 =? 0) && (w32 (w_of prev) 3 =? 0)
    | _ => (w32 (w_of prev) 1 =? 0) && (w32 (w_of prev) 2 =? 0) && (w32 (w_of prev) 3 =? 0)
    end
  else false.
(** 550-563  add; the dynamic_cast, which throws for an object of another
    class, is left out. *)
Definition sf_add (g h : sfmt) : sfmt :=
  let '((c, s), prev) := g in
  let '((_, t), prev') := h in ((c, rr_xor (c_size c) s t), wval (w_xor (w_of prev) (w_of prev'))).
(** 245-257  seed: the words of the state as one array of 32-bit words *)
Definition sf_seed_word (v : w128) (i : nat) (prev : N) : N :=
  N.lxor (if (i <? 4)%nat then w32 v i else 0)
    (wadd 32 (trunc 32 (N.of_nat i)) (wmul 32 1812433253 (N.lxor prev (wshr prev 30)))).
Fixpoint sf_group (cnt : nat) (l : list N) : list N :=
  match cnt with
  | O => []
  | S c => wval (w_of32 (nth 0 l 0) (nth 1 l 0) (nth 2 l 0) (nth 3 l 0)) :: sf_group c (skipn 4 l)
  end.
Definition sf_seed (v : N) (g : sfmt) : sfmt :=
  let '((c, _), _) := g in
  let x := w32 (w_of v) 0 in
  ((c, RR 0 (sf_group (c_size c) (x :: rr_fill (c_size c * 4 - 1) 1 x (sf_seed_word (w_of v))))), 0).

(** The class as the toolbox sees it; where a call has undefined behaviour the
    interface has some arbitrary value (the theorems say when that is not so). *)
Definition sf_run (g : sfmt) (m : res (N * sfmt)) : N * sfmt := match m with Ret x => x | _ => (0, g) end.
Definition sf_ops : gen_ops sfmt :=
  {| g_width := 128; g_generate := fun g => sf_run g (sf_generate g);
     g_generate_len := fun v g => sf_run g (sf_generate_len v g);
     g_add := sf_add; g_setZero := sf_setZero; g_isZero := sf_isZero; g_seed := sf_seed;
     g_bitSize := fun g => (c_size (fst (fst g)) * 128)%nat |}.

(** 537-543  setOneBit; an index outside the array is undefined *)
Definition sf_setOneBit (bitPos : nat) (g : sfmt) : res sfmt :=
  let '((c, s), prev) := sf_setZero g in
  let idx := Nat.div bitPos 128 in
  let p := Nat.modulo (Nat.div bitPos 64) 2 in
  let r := Nat.modulo bitPos 64 in
  if (c_size c <=? idx)%nat then Undef
  else
    let w := w_of (nth idx (rr_arr s) 0) in
    let x := wshl 64 1 (N.of_nat r) in
    let w' := if (p =? 0)%nat then W128 x (u1 w) else W128 (u0 w) x in
    Ret ((c, RR (rr_idx s) (put (rr_arr s) idx (wval w'))), prev).
(** 523-529  setParityValue, 531-533  getParityValue *)
Definition sf_setParity (x : N) (g : sfmt) : sfmt :=
  let '((c, s), prev) := g in
  let p := c_par c in
  ((SFC (SFP (f_mexp p) (f_pos1 p) (f_sl1 p) (f_sl2 p) (f_sr1 p) (f_sr2 p) (f_msk1 p) (f_msk2 p) (f_msk3 p) (f_msk4 p) x)
        (c_size c) (c_start c) (c_weight c) (c_rev c),
    RR (rr_idx s) (put (rr_arr s) (rr_idx s) x)), prev).
Definition sf_getParity (g : sfmt) : N := nth (rr_idx (snd (fst g))) (rr_arr (snd (fst g))) 0.
(** 565-567  getMexp *)
Definition sf_par_ops : par_ops sfmt :=
  {| p_getMexp := fun g => f_mexp (c_par (fst (fst g))); p_setOneBit := sf_setOneBit;
     p_getParityValue := sf_getParity; p_setParityValue := sf_setParity |}.

(** 171-195, 223-239  the constructors; the first does not initialise the array,
    here its contents are the argument [junk].  mexp / 128 + 1 for mexp >= 0. *)
Definition sf_new_mexp (mexp : Z) (junk : list N) : sfmt :=
  ((SFC (SFP mexp 0 0 0 0 0 0 0 0 0 0) (Z.to_nat (mexp / 128 + 1)) 0 4 false, RR 0 junk), 0).
Definition sf_new (p : sfp) : sfmt :=
  let size := Z.to_nat (f_mexp p / 128 + 1) in ((SFC p size 0 4 false, RR 0 (repeat 0 size)), 0).
(** 462-482  setUpParam (SFMT_PARAM_FIXED not defined): u are the values of
    getUint32().  size - 2 is an unsigned subtraction; the remainder by zero is
    undefined. *)
Definition sf_setUpParam (u : nat -> N) (g : sfmt) : res sfmt :=
  let '((c, s), prev) := g in
  let m := wsub 32 (N.of_nat (c_size c)) 2 in
  if m =? 0 then Undef
  else
    let p := c_par c in
    Ret ((SFC (SFP (f_mexp p) (to_signed 32 (wadd 32 (u 0%nat mod m) 1))
                   (Z.of_N (u 1%nat mod 31 + 1)) (Z.of_N (u 2%nat mod 4 * 2 + 1))
                   (Z.of_N (u 3%nat mod 31 + 1)) (Z.of_N (u 4%nat mod 4 * 2 + 1))
                   (N.lor (u 5%nat) (u 6%nat)) (N.lor (u 7%nat) (u 8%nat))
                   (N.lor (u 9%nat) (u 10%nat)) (N.lor (u 11%nat) (u 12%nat)) (f_parity p))
              (c_size c) (c_start c) (c_weight c) (c_rev c), s), prev).
