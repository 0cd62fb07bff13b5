(** What the lines printed by MTGP32dc mean. *)
From Coq Require Import NArith ZArith List Bool.
From mathcomp Require Import all_ssreflect all_algebra.
From Verif Require Import Base UtilSpec LinSpec SampleSpec TemperSpec MtgpModel MtgpLin MtgpProofs MtgpDcModel Mt2Spec.
Set Implicit Arguments.
Unset Strict Implicit.
Unset Printing Implicit Defensive.
Import GRing.Theory.
Delimit Scope Z_scope with coqZ.

(** The table of a list of four words: entry i is the sum of the words whose
    bit is set in i. *)
Definition gpd_table (src : list N) : list N := List.map (fun i => select_xor (N.of_nat i) src 0) (List.seq 0 16).
(** The generator of a line. *)
Definition gpd_par (d : nat) (id : N) (rev : bool) (imask : N) (pos : nat) (tbl tmp : list N) : gpp :=
  let size := (d / 32 + 1)%nat in
  GPP d size rev imask (wshl 32 (wnot 32 0) (N.of_nat (size * 32 - d))) pos 13 4 id tbl (gpd_table tbl) tmp (gpd_table tmp).
Definition words4 (l : list N) : Prop := length l = 4%N /\ forall k, (List.nth k l 0 < 2 ^ 32)%num.

Section Spec.
Variables (d : nat) (id : N).
(** The recursion that five 32-bit numbers stand for: the position is 3 ... gp_last,
    tbl[2] and tbl[3] contain the id. *)
Definition gpd_pos (u : N) : nat := Z.to_nat (3 + Z.of_N u mod (gp_last (d / 32 + 1)%nat - 2))%coqZ.
Definition gpd_entry (i u : N) : N := if (N.land u 15 =? 2 ^ i)%num then N.lxor u (2 ^ i) else u.
Definition gpd_tbl (u : nat -> N) : list N :=
  [:: gpd_entry 0 (u 1%N); gpd_entry 1 (u 2%N);
      N.lxor (N.land (gpd_entry 2 (u 3%N)) 0xfff0000f) (N.land (id * 16) 0x000ffff0);
      N.lxor (N.land (gpd_entry 3 (u 4%N)) 0x0000ffff) (N.land id 0xffff0000)].
Definition gpd_gen (u : nat -> N) (rev : bool) (tmp : list N) : gpp := gpd_par d id rev 0 (gpd_pos (u 0%N)) (gpd_tbl u) tmp.
Definition zero4 : list N := [:: 0; 0; 0; 0]%num.
Definition gpd_maximal (u : nat -> N) : Prop := maximal_period (gpu_A (gpd_gen u false zero4)).

(** The bits of the mask in word i are replaced. *)
Definition gpd_make (mask q : N) (i : nat) (tmp : list N) : list N :=
  List.map (fun j => let t := List.nth j tmp 0%num in if (i =? j)%nat then N.lor (N.ldiff t mask) (N.land q mask) else t) (List.seq 0 4).
(** A line for the recursion of u.  delta is the total defect of the generator
    printed, weight the number of terms of the characteristic polynomial.  The
    tempering words come from two searches by windows of five bits: the nine
    low bits, judged by the total defect of the reversed numbers, then the 23 high
    bits, judged by the total defect. *)
Definition gpd_line_for (u : nat -> N) (l : gpd_line) : Prop :=
  [/\ gl_id l = id /\ words4 (gl_tmp l), gl_pos l = gpd_pos (u 0%N) /\ gl_tbl l = gpd_tbl u,
      gl_weight l = Z.of_nat #|[set i : 'I_d.+1 | ((char_poly (gpu_A (gpd_gen u false zero4)))`_i != 0)%R]|,
      total_defect (gpu_A (gpd_gen u false (gl_tmp l))) (gpu_C (gpd_gen u false (gl_tmp l))) 32 (gl_delta l) &
      exists cost tmp1, (forall rev tmp, words4 tmp ->
          total_defect (gpu_A (gpd_gen u rev tmp)) (gpu_C (gpd_gen u rev tmp)) 32 (cost rev tmp)) /\
        tempered gpd_make (cost true) 32 true (step_list 9 5 4) zero4 tmp1 /\
        tempered gpd_make (cost false) 32 false (step_list 23 5 4) tmp1 (gl_tmp l)].

Variables (B : Type) (next : B -> N * B).
(** The k-th five numbers. *)
Definition five (k : nat) (b : B) (j : nat) : N := number next j (after next (5 * k) b).
Definition gpd_barren (m : nat) (b : B) : Prop := forall k, (k < m)%N -> ~ gpd_maximal (five k b).
(** The line for the first maximal recursion. *)
Definition gpd_first (b : B) (l : gpd_line) : Prop :=
  exists k, [/\ gpd_barren k b, gpd_maximal (five k b) & gpd_line_for (five k b) l].
End Spec.
