(** The abstract generator interface of the toolbox.
    A C++ generator object is a value of an arbitrary state type [S]; the
    virtual functions are the fields of [gen_ops].  An object is mutated by
    replacing its state; [clone] is the identity (the result shares nothing
    with the original). *)
From Coq Require Import NArith ZArith List Bool.
From Verif Require Import Base.
Import ListNotations.
Local Open Scope N_scope.

Record gen_ops (S : Type) : Type := {
  (** width of the output type U: bit_size<U>(), util.hpp:36-40 *)
  g_width : N;
  (** AbstractGenerator.hpp:74  U generate() *)
  g_generate : S -> N * S;
  (** EquidistributionCalculatable.hpp:100  U generate(int outBitLen) *)
  g_generate_len : Z -> S -> N * S;
  (** EquidistributionCalculatable.hpp:124  void add(that) *)
  g_add : S -> S -> S;
  (** EquidistributionCalculatable.hpp:135  void setZero() *)
  g_setZero : S -> S;
  (** EquidistributionCalculatable.hpp:156  bool isZero() const *)
  g_isZero : S -> bool;
  (** AbstractGenerator.hpp:103  void seed(U value) *)
  g_seed : N -> S -> S;
  (** AbstractGenerator.hpp:124  int bitSize() const *)
  g_bitSize : S -> nat
}.
Arguments g_width {S}.
Arguments g_generate {S}.
Arguments g_generate_len {S}.
Arguments g_add {S}.
Arguments g_setZero {S}.
Arguments g_isZero {S}.
Arguments g_seed {S}.
Arguments g_bitSize {S}.
