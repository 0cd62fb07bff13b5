(** Model of the generators of samples/XORSHIFT. *)
From Coq Require Import NArith ZArith List Bool.
From Verif Require Import Base GenModel.
Import ListNotations.
Local Open Scope N_scope.

(** xorshift-2.cpp:60, xorshift-3.cpp:96-99, xorshift-4.cpp:155-158,
    xorshift-5.cpp:62, xorshift128.h:9-14: four 32-bit words. *)
Record xs : Type := XS { xs_x : N; xs_y : N; xs_z : N; xs_w : N }.

(** The shift counts below are the constants of the sample or come from
    setUpParam, hence lie below 32 (see [xs3_setUpParam], [xs4_setUpParam]);
    for such counts [<<] and [>>] on uint32_t are defined. *)

(** xorshift-1.cpp:19-23, xorshift-2.cpp:22-26, xorshift-3.cpp:36-40  generate;
    a = 5, b = 14, c = 1 in the first two. *)
Definition xs3_generate (a b c : N) (s : xs) : N * xs :=
  let x := xs_x s in
  let t := N.lxor x (wshl 32 x a) in
  let w := xs_w s in
  let w' := N.lxor (N.lxor w (wshr w c)) (N.lxor t (wshr t b)) in
  (w', XS (xs_y s) (xs_z s) w w').

(** xorshift-4.cpp:46-68  g *)
Definition xs4_g (pat a b t : N) : N :=
  match pat with
  | 0 | 1 => let t := N.lxor t (wshr t a) in N.lxor t (wshl 32 t b)
  | 2 | 3 => let t := N.lxor t (wshl 32 t a) in N.lxor t (wshr t b)
  | 4 | 5 => N.lxor t (wshr t a)
  | _ => N.lxor t (wshl 32 t a)
  end.
(** xorshift-4.cpp:70-92  h *)
Definition xs4_h (pat b c t : N) : N :=
  match pat with
  | 0 | 2 => N.lxor t (wshl 32 t c)
  | 1 | 3 => N.lxor t (wshr t c)
  | 4 | 6 => let t := N.lxor t (wshr t b) in N.lxor t (wshl 32 t c)
  | _ => let t := N.lxor t (wshl 32 t b) in N.lxor t (wshr t c)
  end.
(** xorshift-4.cpp:38-45  generate *)
Definition xs4_generate (pat a b c : N) (s : xs) : N * xs :=
  let t := xs4_h pat b c (xs_x s) in
  let w' := N.lxor (xs4_g pat a b (xs_w s)) t in
  (w', XS (xs_y s) (xs_z s) (xs_w s) w').

(** xorshift-5.cpp:22-28 generate with a, b, c from line 61 (20, 11, 7);
    xorshift128.c:11-20 is the same function. *)
Definition xs5_generate (a b c : N) (s : xs) : N * xs :=
  let x := xs_x s in
  let t := N.lxor x (wshl 32 x b) in
  let t := N.lxor t (wshr t c) in
  let w := xs_w s in
  let w' := N.lxor (N.lxor w (wshl 32 w a)) t in
  (w', XS (xs_y s) (xs_z s) w w').

(** generate(int outBitLen): xorshift-2.cpp:27-31, xorshift-3.cpp:41-45,
    xorshift-4.cpp:93-97, xorshift-5.cpp:29-33.  The shift count 32 - outBitLen
    is defined for 1 <= outBitLen <= 32; the model is used there only. *)
Definition xs_generate_len (gen : xs -> N * xs) (len : Z) (s : xs) : N * xs :=
  let mask := wshl 32 (wnot 32 0) (32 - Z.to_N len) in
  let '(r, s') := gen s in
  (N.land r mask, s').

(** isZero: xorshift-2.cpp:32 etc. *)
Definition xs_isZero (s : xs) : bool :=
  (xs_x s =? 0) && (xs_y s =? 0) && (xs_z s =? 0) && (xs_w s =? 0).
(** setZero: xorshift-2.cpp:33 etc. *)
Definition xs_setZero (s : xs) : xs := XS 0 0 0 0.
(** add: xorshift-2.cpp:34-44 etc. (the dynamic_cast succeeds: same class) *)
Definition xs_add (s t : xs) : xs :=
  XS (N.lxor (xs_x s) (xs_x t)) (N.lxor (xs_y s) (xs_y t))
     (N.lxor (xs_z s) (xs_z t)) (N.lxor (xs_w s) (xs_w t)).
(** seed: xorshift-1.cpp:24-27 etc. *)
Definition xs_seed (v : N) (s : xs) : xs := XS v v v (wnot 32 v).

(** The class as a generator of the toolbox; bitSize: xorshift-2.cpp:52 etc. *)
Definition xs_ops (gen : xs -> N * xs) : gen_ops xs :=
  {| g_width := 32;
     g_generate := gen;
     g_generate_len := xs_generate_len gen;
     g_add := xs_add;
     g_setZero := xs_setZero;
     g_isZero := xs_isZero;
     g_seed := xs_seed;
     g_bitSize := fun _ => 128%nat |}.

(** xorshift-3.cpp:74-81  setUpParam: from one 32-bit number, (a, b, c) *)
Definition xs3_setUpParam (r : N) : N * N * N :=
  let a := N.land r 0x1f in
  let r := wshr r 5 in
  let b := N.land r 0x1f in
  let r := wshr r 5 in
  (a, b, N.land r 0x1f).
(** xorshift-4.cpp:126-138  setUpParam: (pat, a, b, c) *)
Definition xs4_setUpParam (r : N) : N * N * N * N :=
  let c := N.land r 0x1f in
  let r := wshr r 5 in
  let b := N.land r 0x1f in
  let r := wshr r 5 in
  let a := N.land r 0x1f in
  let r := wshr r 5 in
  (N.land r 0x7, a, b, c).

(** xorshift128.c:108-113 *)
Definition ini_func1 (x : N) : N := wmul 32 (N.lxor x (wshr x 27)) 1664525.
Definition ini_func2 (x : N) : N := wmul 32 (N.lxor x (wshr x 27)) 1566083941.

(** xorshift128.c:22-35  xorshift128_init: ar[] as a list of four words. *)
Fixpoint init_loop (n : nat) (i : N) (ar : list N) : list N :=
  match n with
  | O => ar
  | S m =>
    let p := nth (N.to_nat ((i - 1) mod 4)) ar 0 in
    let v := wadd 32 (wmul 32 1812433253 (N.lxor p (wshr p 30))) i in
    let j := N.to_nat (i mod 4) in
    init_loop m (i + 1) (firstn j ar ++ v :: skipn (S j) ar)
  end.
Definition xorshift128_init (seed : N) : xs :=
  let ar := init_loop 7 1 [seed; 0; 0; 0] in
  XS (nth 0 ar 0) (nth 1 ar 0) (nth 2 ar 0) (nth 3 ar 0).

(** Update of st[j] in the local array of init_by_array. *)
Definition st_get (st : list N) (j : N) : N := nth (N.to_nat (j mod 4)) st 0.
Definition st_set (st : list N) (j v : N) : list N :=
  let j := N.to_nat (j mod 4) in firstn j st ++ v :: skipn (S j) st.
(** xorshift128.c:67-74: one round of the first two loops with the addend e;
    result: array and next i. *)
Definition iba_round (e i : N) (st : list N) : list N * N :=
  let r := ini_func1 (N.lxor (N.lxor (st_get st i) (st_get st (i + 1))) (st_get st (i + 3))) in
  let st := st_set st (i + 1) (wadd 32 (st_get st (i + 1)) r) in
  let r := wadd 32 r (wadd 32 e i) in
  let st := st_set st (i + 2) (wadd 32 (st_get st (i + 2)) r) in
  let st := st_set st i r in
  (st, (i + 1) mod 4).
Fixpoint iba_keys (keys : list N) (i : N) (st : list N) : list N * N :=
  match keys with
  | [] => (st, i)
  | k :: ks => let '(st, i) := iba_round k i st in iba_keys ks i st
  end.
(** 76-85 *)
Fixpoint iba_rest (n : nat) (i : N) (st : list N) : list N * N :=
  match n with
  | O => (st, i)
  | S m => let '(st, i) := iba_round 0 i st in iba_rest m i st
  end.
(** 86-95 *)
Definition iba_round2 (i : N) (st : list N) : list N * N :=
  let r := ini_func2 (wadd 32 (wadd 32 (st_get st i) (st_get st (i + 1))) (st_get st (i + 3))) in
  let st := st_set st (i + 1) (N.lxor (st_get st (i + 1)) r) in
  let r := wsub 32 r i in
  let st := st_set st (i + 2) (N.lxor (st_get st (i + 2)) r) in
  let st := st_set st i r in
  (st, (i + 1) mod 4).
Fixpoint iba_mix (n : nat) (i : N) (st : list N) : list N :=
  match n with
  | O => st
  | S m => let '(st, i) := iba_round2 i st in iba_mix m i st
  end.
(** 50-95: the values of st[0..3] when the loops are over. *)
Definition iba_local (key : list N) : list N :=
  let length := N.of_nat (length key) in
  let count := if 8 <? length + 1 then length + 1 else 8 in
  let st := [0; 0; 0; 0] in
  let r := ini_func1 0 in
  let st := st_set st 1 (wadd 32 (st_get st 1) r) in
  let r := wadd 32 r length in
  let st := st_set st 2 (wadd 32 (st_get st 2) r) in
  let st := st_set st 0 r in
  let count := count - 1 in
  let '(st, i) := iba_keys key 1 st in
  let '(st, i) := iba_rest (N.to_nat (count - length)) i st in
  iba_mix 4 i st.
(** 99-107  period_certification: 'X' = 88, 'O' = 79, 'R' = 82, 'S' = 83,
    'H' = 72, 'I' = 73, 'F' = 70, 'T' = 84 *)
Definition xs_period_certification (s : xs) : xs :=
  if xs_isZero s then XS (88 * 2 ^ 16 + 79) (82 * 2 ^ 16 + 83) (72 * 2 ^ 16 + 73) (70 * 2 ^ 16 + 84)
  else s.
(** 37-97  xorshift128_init_by_array: the local array st[] is computed and
    then dropped; only period_certification touches the object. *)
Definition xorshift128_init_by_array (s : xs) (key : list N) : xs :=
  let st := iba_local key in
  xs_period_certification s.
