(** Model of the generator classes of samples/MTDC: MT19937 (mt1.cpp:14-93) and
    MT32Search (mt2.cpp:24-232).  The two classes have the same member functions
    except for the first shift of the tempering (11 and 12), the fixed parameters
    of MT19937 and the reversed output of MT32Search; the shift is a member
    [m_sh] of the model.  Indices are [nat]; reads are modulo the size. *)
From Coq Require Import Arith NArith ZArith List Bool.
From Verif Require Import Base UtilModel GenModel TemperModel ArrayModel.
Import ListNotations.
Local Open Scope N_scope.

(** mt2.cpp:220-231: the members except state and index. *)
Record mtp := MTP {
  m_mexp : nat; m_size : nat; m_rev : bool; m_upper : N; m_lower : N; m_pos : nat; m_id : Z;
  m_mata : N; m_maskb : N; m_maskc : N; m_sh : N }.
Definition mtg : Type := mtp * rr.

(** mt2.cpp:85-88, mt1.cpp:30-33 *)
Definition mtg_temper (p : mtp) (y : N) : N :=
  let y := N.lxor y (wshr y (m_sh p)) in
  let y := N.lxor y (N.land (wshl 32 y 7) (m_maskb p)) in
  let y := N.lxor y (N.land (wshl 32 y 15) (m_maskc p)) in
  N.lxor y (wshr y 18).
(** mt2.cpp:78-91, mt1.cpp:23-35  generate() *)
Definition mtg_generate (g : mtg) : N * mtg :=
  let '(p, s) := g in
  let a := rr_arr s in
  let index := Nat.modulo (rr_idx s + 1) (m_size p) in
  let y := N.lor (N.land (rr_at (m_size p) a index) (m_upper p))
                 (N.land (rr_at (m_size p) a (index + 1)) (m_lower p)) in
  let y := N.lxor (N.lxor (rr_at (m_size p) a (index + m_pos p)) (wshr y 1))
                  (if N.testbit y 0 then m_mata p else 0) in
  (mtg_temper p y, (p, RR index (put a index y))).
(** mt2.cpp:92-102, mt1.cpp:36-40  generate(int) *)
Definition mtg_generate_len (v : Z) (g : mtg) : N * mtg :=
  let '(r, g') := mtg_generate g in
  let u := if m_rev (fst g) then reverse_bit32 r else r in
  (N.land u (wshl 32 (wnot 32 0) (32 - Z.to_N v)), g').
(** mt2.cpp:104-114, mt1.cpp:42-52  isZero *)
Definition mtg_isZero (g : mtg) : bool :=
  let '(p, s) := g in
  if negb (N.land (m_upper p) (nth (rr_idx s) (rr_arr s) 0) =? 0) then false
  else rr_zero_loop (m_size p) (m_size p - 1) 1 (rr_idx s) (rr_arr s).
(** mt2.cpp:116-121, mt1.cpp:53-58  setZero *)
Definition mtg_setZero (g : mtg) : mtg := (fst g, RR 0 (repeat 0 (m_size (fst g)))).
(** mt2.cpp:123-132, mt1.cpp:59-68  add; the dynamic_cast, which throws for an
    object of another class, is left out. *)
Definition mtg_add (g h : mtg) : mtg := (fst g, rr_xor (m_size (fst g)) (snd g) (snd h)).
(** mt2.cpp:136-144, mt1.cpp:72-80  seed *)
Definition mtg_seed_word (i : nat) (prev : N) : N :=
  wadd 32 (wmul 32 1812433253 (N.lxor prev (wshr prev 30))) (trunc 32 (N.of_nat i)).
Definition mtg_seed (v : N) (g : mtg) : mtg :=
  let p := fst g in
  (p, RR (m_size p - 1) (v :: rr_fill (m_size p - 1) 1 v mtg_seed_word)).
Definition mtg_ops : gen_ops mtg :=
  {| g_width := 32; g_generate := mtg_generate; g_generate_len := mtg_generate_len;
     g_add := mtg_add; g_setZero := mtg_setZero; g_isZero := mtg_isZero;
     g_seed := mtg_seed; g_bitSize := fun g => m_mexp (fst g) |}.

(** mt1.cpp:87-90  the constants of MT19937, and 16 its constructor. *)
Definition mt19937_par : mtp :=
  MTP (N.to_nat 19937) (N.to_nat 624) false 0x80000000 0x7fffffff (N.to_nat 397) 0%Z
      0x9908b0df 0x9d2c5680 0xefc60000 11.
Definition mt19937_new (v : N) : mtg := mtg_seed v (mt19937_par, RR 0 []).

(** mt2.cpp:26-57  the constructors.  The shift by r = size * 32 - mexp is
    undefined for r = 32.  The first constructor leaves pos and mata
    uninitialised; here they are arguments in both cases. *)
Definition mt32_size (mexp : nat) : nat := (mexp / 32 + 1)%nat.
Definition mt32_new (mexp : nat) (id : Z) (pos : nat) (mata maskb maskc v : N) : res mtg :=
  let size := mt32_size mexp in
  let r := (size * 32 - mexp)%nat in
  if (32 <=? r)%nat then Undef
  else
    let upper := wshl 32 (wnot 32 0) (N.of_nat r) in
    Ret (mtg_seed v (MTP mexp size false upper (wnot 32 upper) pos id mata maskb maskc 12, RR 0 [])).
(** mt2.cpp:150-160  setUpParam; u1 and u2 are the two values of getUint32().
    size - 2 is computed in unsigned int; a remainder by zero is undefined, and the
    conversion of a pos above INT_MAX to int is left as it is. *)
Definition mt32_setUpParam (u1 u2 : N) (g : mtg) : res mtg :=
  let '(p, s) := g in
  let d := wsub 32 (N.of_nat (m_size p)) 2 in
  if d =? 0 then Undef
  else
    let pos := wadd 32 (u1 mod d) 2 in
    let mata := if (0 <=? m_id p)%Z then N.lor (N.land u2 0xffff0000) (N.land (of_int 32 (m_id p)) 0xffff) else u2 in
    Ret (MTP (m_mexp p) (m_size p) (m_rev p) (m_upper p) (m_lower p) (N.to_nat pos) (m_id p)
             mata (m_maskb p) (m_maskc p) (m_sh p), s).
(** mt2.cpp:177-185 setTemperingPattern, 187-188 setUpTempering, 190-196
    setReverseOutput, resetReverseOutput, 58-74 and 133-135 clone *)
Definition mt32_set (mask pattern : N) (src_bit : nat) (g : mtg) : mtg :=
  let '(p, s) := g in
  let f m := N.lor (N.land m (wnot 32 mask)) (N.land pattern mask) in
  match src_bit with
  | O => (MTP (m_mexp p) (m_size p) (m_rev p) (m_upper p) (m_lower p) (m_pos p) (m_id p)
              (m_mata p) (f (m_maskb p)) (m_maskc p) (m_sh p), s)
  | S _ => (MTP (m_mexp p) (m_size p) (m_rev p) (m_upper p) (m_lower p) (m_pos p) (m_id p)
              (m_mata p) (m_maskb p) (f (m_maskc p)) (m_sh p), s)
  end.
Definition mt32_setrev (b : bool) (g : mtg) : mtg :=
  let '(p, s) := g in
  (MTP (m_mexp p) (m_size p) b (m_upper p) (m_lower p) (m_pos p) (m_id p)
       (m_mata p) (m_maskb p) (m_maskc p) (m_sh p), s).
Definition mt32_temper_ops : temper_ops mtg :=
  {| t_set := mt32_set; t_up := fun g => g; t_setRev := mt32_setrev true;
     t_resetRev := mt32_setrev false; t_clone := fun g => g |}.
