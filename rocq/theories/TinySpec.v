(** Specification notions for TinyMT32 and its search program. *)
From Coq Require Import NArith ZArith List Bool Sorted.
From mathcomp Require Import all_ssreflect all_algebra.
From Verif Require Import Base LinSpec PolyF2 SampleSpec TemperSpec TinyModel TinyDcModel TinyLin.
Set Implicit Arguments.
Unset Strict Implicit.
Unset Printing Implicit Defensive.
Import GRing.Theory.
Local Open Scope ring_scope.
Delimit Scope Z_scope with coqZ.

(** A generator with 32-bit words everywhere. *)
Definition tiny_legal (g : tiny) : Prop := p_ok (tm_par g) /\ q_ok (tm_st g).
(** d is the total defect, over the top v = 1 ... 32 bits of the (unreversed)
    output, of the orbit of the state of g. *)
Definition tiny_defect_is (g : tiny) (d : Z) : Prop :=
  exists k : nat -> nat,
    (forall v, (1 <= v <= 32)%N -> equidist_dim (tiny_A (tm_par g, false)) (tiny_C (tm_par g, false)) (tiny_vec g) v (k v)) /\
    d = List.fold_right Z.add 0%coqZ
      (List.map (fun v => Z.of_nat (127 %/ v)%N - Z.of_nat (k v))%coqZ (List.seq 1 32)).

(** The recursion parameters made from the number r for the given id. *)
Definition tiny_params (id r : N) : tiny_param := tm_par (tiny_setUpParam r (tiny_new id)).
Definition tiny_maximal (p : tiny_param) : Prop := maximal_period (tiny_A (p, false)).

(** The line for the number r: the tempering parameter is found by going
    through the windows, first the lower 9 bits from the bottom in steps of 5,
    then the upper 23 bits from the top in steps of 6, choosing each time the best
    pattern. *)
Definition tiny_line_for (id r : N) (l : tiny_line) : Prop :=
  exists (g0 g1 g2 : tiny) (cost : tiny -> Z),
    [/\ tm_par g0 = tiny_params id r, tiny_legal g0 /\ tiny_vec g0 != 0,
        forall g, tiny_legal g -> tiny_defect_is g (cost g),
        tempered tiny_set cost 32 true (step_list 9 5 1) g0 g1 /\
        tempered tiny_set cost 32 false (step_list 23 6 1) g1 g2 &
        [/\ tl_par l = tm_par g2, tl_poly l = char_poly (tiny_A (tm_par g2, false)),
            tl_weight l = Z.of_nat #|[set i : 'I_128 | (tl_poly l)`_i != 0]|,
            tl_delta l = cost g2 &
            total_defect (tiny_A (tm_par g2, false)) (tiny_C (tm_par g2, false)) 32 (tl_delta l)]].
(** The lines printed by the program: in decreasing order of the number r from
    start on those with parameters of maximal period and defect at most
    max_delta; at most count of them unless all are wanted. *)
Definition tiny_listing (id start : N) (max_delta : Z) (all : bool) (count : nat) (out : list tiny_line) : Prop :=
  exists (rs : list N) (lines : list tiny_line),
    [/\ StronglySorted (fun a b => (b < a)%num) rs,
        forall r, List.In r rs <-> (r <= start)%num /\ tiny_maximal (tiny_params id r),
        List.Forall2 (tiny_line_for id) rs lines &
        let wanted := List.filter (fun l => (tl_delta l <=? max_delta)%coqZ) lines in
        out = if all then wanted else List.firstn count wanted].
