(** Model of include/MTToolBox/MersenneTwister.hpp and
    include/MTToolBox/MersenneTwister64.hpp.  The arrays are lists of cells; a
    cell is [None] as long as the program has not written it.  Reading such a
    cell, or using an index outside the array, is [Undef]. *)
From Coq Require Import NArith ZArith List Bool.
From Verif Require Import Base UtilModel.
Import ListNotations.
Local Open Scope N_scope.

Definition mem := list (option N).
Definition rd (m : mem) (i : nat) : res N :=
  match nth_error m i with Some (Some v) => Ret v | _ => Undef end.
Definition wr (m : mem) (i : nat) (v : N) : res mem :=
  if Nat.ltb i (length m) then Ret (upd m i (Some v)) else Undef.
(** [new T[k]] without initialisation. *)
Definition fresh (k : nat) : mem := repeat None k.

(** * Seeding, common to both classes *)
Record mt_params := mkMTP {
  p_w : N;       (* word size *)
  p_n : nat;     (* N *)
  p_sh : N;      (* shift of the seeding recursion *)
  p_f : N;       (* multiplier of seed() *)
  p_c1 : N;      (* first multiplier of seed_array() *)
  p_c2 : N       (* second multiplier of seed_array() *)
}.

(** MersenneTwister.hpp:143,206-207,221-222,299. *)
Definition par32 : mt_params := mkMTP 32 624 30 1812433253 1664525 1566083941.
(** MersenneTwister64.hpp:147-148,210-211,225-226,309. *)
Definition par64 : mt_params :=
  mkMTP 64 312 62 6364136223846793005 3935559000370003845 2862933555777941757.

Section Seeding.
Variable P : mt_params.

(** x ^ (x >> 30) resp. x ^ (x >> 62). *)
Definition scramble (x : N) : N := N.lxor x (wshr x (p_sh P)).

(** The loop of seed(uint64_t): MersenneTwister.hpp:141-145,
    MersenneTwister64.hpp:145-149. *)
Fixpoint seed_loop (cnt i : nat) (m : mem) : res mem :=
  match cnt with
  | O => Ret m
  | S c =>
      do prev <- rd m (i - 1);
      do m' <- wr m i (wadd (p_w P) (wmul (p_w P) (p_f P) (scramble prev))
                            (trunc (p_w P) (N.of_nat i)));
      seed_loop c (S i) m'
  end.

(** seed(uint64_t value), array part: MersenneTwister.hpp:139-146,
    MersenneTwister64.hpp:143-149. *)
Definition seed_mem (m : mem) (value : N) : res mem :=
  do m0 <- wr m 0 (trunc (p_w P) value);
  seed_loop (p_n P - 1) 1 m0.

(** First loop of seed_array: MersenneTwister.hpp:205-219,
    MersenneTwister64.hpp:209-223.  [key] is the memory behind the pointer,
    already converted to the word type. *)
Fixpoint array_loop1 (k : nat) (key : list N) (key_length : nat) (i j : nat) (m : mem)
  : res (nat * mem) :=
  match k with
  | O => Ret (i, m)
  | S k' =>
      do mi <- rd m i;
      do mp <- rd m (i - 1);
      match nth_error key j with
      | None => Undef
      | Some kj =>
          do m1 <- wr m i
            (wadd (p_w P)
              (wadd (p_w P)
                 (N.lxor mi (wmul (p_w P) (scramble mp) (p_c1 P))) kj)
              (trunc (p_w P) (N.of_nat j)));
          let i1 := S i in
          let j1 := S j in
          do '(i2, m2) <-
            (if Nat.leb (p_n P) i1 then
               do last <- rd m1 (p_n P - 1);
               do m2 <- wr m1 0 last;
               Ret (1%nat, m2)
             else Ret (i1, m1));
          let j2 := if Nat.leb key_length j1 then O else j1 in
          array_loop1 k' key key_length i2 j2 m2
      end
  end.

(** Second loop of seed_array: MersenneTwister.hpp:220-229,
    MersenneTwister64.hpp:224-233. *)
Fixpoint array_loop2 (k : nat) (i : nat) (m : mem) : res mem :=
  match k with
  | O => Ret m
  | S k' =>
      do mi <- rd m i;
      do mp <- rd m (i - 1);
      do m1 <- wr m i
        (wsub (p_w P) (N.lxor mi (wmul (p_w P) (scramble mp) (p_c2 P)))
              (trunc (p_w P) (N.of_nat i)));
      let i1 := S i in
      do '(i2, m2) <-
        (if Nat.leb (p_n P) i1 then
           do last <- rd m1 (p_n P - 1);
           do m2 <- wr m1 0 last;
           Ret (1%nat, m2)
         else Ret (i1, m1));
      array_loop2 k' i2 m2
  end.

(** seed_array, array part: MersenneTwister.hpp:195-233,
    MersenneTwister64.hpp:200-237. *)
Definition seed_array_mem (m : mem) (key : list N) (key_length : nat) : res mem :=
  do m0 <- seed_mem m 19650218;
  let k := if Nat.ltb key_length (p_n P) then p_n P else key_length in
  do '(i, m1) <- array_loop1 k key key_length 1 0 m0;
  do m2 <- array_loop2 (p_n P - 1) i m1;
  wr m2 0 (wshl (p_w P) 1 (p_w P - 1)).
End Seeding.

(** A [char] of a std::string (signed char on the usual platforms) converted
    by static_cast<uint32_t> / static_cast<uint64_t>: sign extension. *)
Definition char_word (w : N) (c : N) : N := of_int w (to_signed 8 c).
(** c_str() of a string given by its bytes: terminated by a zero byte. *)
Definition c_str_words (w : N) (s : list N) : list N := map (char_word w) (s ++ [0]).

(** * MersenneTwister *)
Record mt32 := mkMT { mt_mem : mem; mt_i : N }.

(** MersenneTwister.hpp:60,76,...  constructor: the array is allocated with
    LARGE_N = 1024 uninitialised entries. *)
Definition mt_alloc : mt32 := mkMT (fresh (N.to_nat 1024)) 0.

(** MersenneTwister.hpp:139-146  seed(uint64_t): the loop leaves mti = N. *)
Definition mt_seed (s : mt32) (value : N) : res mt32 :=
  do m <- seed_mem par32 (mt_mem s) value; Ret (mkMT m 624).

(** MersenneTwister.hpp:195-233  seed_array. *)
Definition mt_seed_array (s : mt32) (key : list N) (key_length : nat) : res mt32 :=
  do m <- seed_array_mem par32 (mt_mem s) key key_length; Ret (mkMT m 624).

(** MersenneTwister.hpp:159-161  seed(const std::string&). *)
Definition mt_seed_string (s : mt32) (str : list N) : res mt32 :=
  mt_seed_array s (c_str_words 32 str) (length str).

(** MersenneTwister.hpp:302-308  temper. *)
Definition temper32 (y : N) : N :=
  let y := N.lxor y (wshr y 11) in
  let y := N.lxor y (N.land (wshl 32 y 7) 0x9d2c5680) in
  let y := N.lxor y (N.land (wshl 32 y 15) 0xefc60000) in
  N.lxor y (wshr y 18).

(** MersenneTwister.hpp:280-296  next.  LARGE_N - N = 400, M = 397. *)
Definition mt_next (s : mt32) : res (N * mt32) :=
  let m := mt_mem s in
  let mti := mt_i s in
  do a <- rd m (N.to_nat (N.land (wadd 32 400 mti) 0x3ff));
  do b <- rd m (N.to_nat (N.land (wadd 32 401 mti) 0x3ff));
  let y := N.lor (N.land a 0x80000000) (N.land b 0x7fffffff) in
  do c <- rd m (N.to_nat (N.land (wadd 32 797 mti) 0x3ff));
  let mag := if N.land y 1 =? 0 then 0 else 0x9908b0df in
  do m' <- wr m (N.to_nat mti) (N.lxor (N.lxor c (wshr y 1)) mag);
  do v <- rd m' (N.to_nat mti);
  Ret (temper32 v, mkMT m' (N.land (wadd 32 mti 1) 0x3ff)).

(** MersenneTwister.hpp:246-248  getUint32. *)
Definition mt_getUint32 (s : mt32) : res (N * mt32) := mt_next s.

(** MersenneTwister.hpp:263-267  getUint64. *)
Definition mt_getUint64 (s : mt32) : res (N * mt32) :=
  do '(hi, s1) <- mt_next s;
  do '(lo, s2) <- mt_next s1;
  Ret (N.lor (wshl 64 hi 32) lo, s2).

(** * MersenneTwister64 *)
Record mt64 := mkMT64 { mt64_mem : mem; mt64_i : nat }.

(** MersenneTwister64.hpp:65,81,... *)
Definition mt64_alloc : mt64 := mkMT64 (fresh 312) 0.

(** MersenneTwister64.hpp:143-151  seed: mti is reset to 0. *)
Definition mt64_seed (s : mt64) (value : N) : res mt64 :=
  do m <- seed_mem par64 (mt64_mem s) value; Ret (mkMT64 m 0).

(** MersenneTwister64.hpp:200-237  seed_array. *)
Definition mt64_seed_array (s : mt64) (key : list N) (key_length : nat) : res mt64 :=
  do m <- seed_array_mem par64 (mt64_mem s) key key_length; Ret (mkMT64 m 0).

(** MersenneTwister64.hpp:164-166  seed(const std::string&). *)
Definition mt64_seed_string (s : mt64) (str : list N) : res mt64 :=
  mt64_seed_array s (c_str_words 64 str) (length str).

(** MersenneTwister64.hpp:312-318  temper. *)
Definition temper64 (y : N) : N :=
  let y := N.lxor y (N.land (wshr y 29) 0x5555555555555555) in
  let y := N.lxor y (N.land (wshl 64 y 17) 0x71D67FFFEDA60000) in
  let y := N.lxor y (N.land (wshl 64 y 37) 0xFFF7EEE000000000) in
  N.lxor y (wshr y 43).

(** MersenneTwister64.hpp:280-292  next.  N = 312, M = 156. *)
Definition mt64_next (s : mt64) : res (N * mt64) :=
  let m := mt64_mem s in
  let mti := mt64_i s in
  do a <- rd m mti;
  do b <- rd m ((mti + 1) mod 312);
  let x := N.lor (N.land a 0xFFFFFFFF80000000) (N.land b 0x7FFFFFFF) in
  do c <- rd m ((mti + 156) mod 312);
  let mag := if N.land x 1 =? 0 then 0 else 0xB5026F5AA96619E9 in
  do m' <- wr m mti (N.lxor (N.lxor c (wshr x 1)) mag);
  do v <- rd m' mti;
  Ret (temper64 v, mkMT64 m' ((mti + 1) mod 312)).

(** MersenneTwister64.hpp:265-267  getUint64; 250-252 getUint32. *)
Definition mt64_getUint64 (s : mt64) : res (N * mt64) := mt64_next s.
Definition mt64_getUint32 (s : mt64) : res (N * mt64) :=
  do '(v, s') <- mt64_next s; Ret (trunc 32 (wshr v 32), s').

(** [n] consecutive calls of a generating method. *)
Fixpoint take {S : Type} (next : S -> res (N * S)) (n : nat) (s : S)
  : res (list N * S) :=
  match n with
  | O => Ret ([], s)
  | Datatypes.S n' =>
      do '(v, s1) <- next s;
      do '(l, s2) <- take next n' s1;
      Ret (v :: l, s2)
  end.
