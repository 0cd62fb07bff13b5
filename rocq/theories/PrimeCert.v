(** A checker for primality certificates (Pocklington's criterion) on binary
    numbers.  Part of the proofs, not of the modelled program. *)
From Coq Require Import NArith List Bool.
Import ListNotations.
Local Open Scope N_scope.

(** a^e mod n *)
Fixpoint pow_mod (a n : N) (e : positive) : N :=
  match e with
  | xH => a mod n
  | xO e' => let x := pow_mod a n e' in (x * x) mod n
  | xI e' => let x := pow_mod a n e' in (a * (x * x)) mod n
  end.

(** A certificate for n: triples (q, e, a), q prime, q^e divides n - 1. *)
Definition cert := (N * list (N * nat * N))%type.
Fixpoint npow (q : N) (e : nat) : N := match e with O => 1 | S f => q * npow q f end.
Definition cert_prod (l : list (N * nat * N)) : N :=
  fold_right (fun t acc => npow (fst (fst t)) (snd (fst t)) * acc) 1 l.
(** With x = a^((n-1)/q): x - 1 is prime to n and x^q = 1. *)
Definition check_base (q a n : N) : bool :=
  match q, (n - 1) / q with
  | Npos q', Npos e =>
      let x := pow_mod a n e in
      (N.gcd (x + (n - 1)) n =? 1) && (pow_mod x n q' =? 1)
  | _, _ => false
  end.
Fixpoint nodupb (l : list N) : bool :=
  match l with [] => true | x :: r => negb (existsb (N.eqb x) r) && nodupb r end.
Definition check_cert (known : list N) (c : cert) : bool :=
  let '(n, l) := c in
  let f := cert_prod l in
  (1 <? n) && ((n - 1) mod f =? 0) && (n <? (f + 1) * (f + 1)) &&
  nodupb (map (fun t => fst (fst t)) l) &&
  forallb (fun t => let '(q, e, a) := t in
             existsb (N.eqb q) known && Nat.ltb 0 e && check_base q a n) l.
Fixpoint check_certs (cs : list cert) (known : list N) : bool :=
  match cs with
  | [] => true
  | c :: r => check_cert known c && check_certs r (fst c :: known)
  end.
(** [l] with the exponents [es] is a factorisation of m into members of known. *)
Fixpoint prod_pow (l : list N) (es : list nat) : N :=
  match l, es with
  | q :: l', e :: es' => npow q e * prod_pow l' es'
  | _, _ => 1
  end.
Definition check_table (known : list N) (n : N) (l : list N) (es : list nat) : bool :=
  (Nat.eqb (length l) (length es)) && (prod_pow l es =? 2 ^ n - 1) &&
  forallb (fun e => Nat.ltb 0 e) es &&
  forallb (fun q => existsb (N.eqb q) known) l.
