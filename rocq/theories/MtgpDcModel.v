(** Model of the program samples/MTGPDC/MTGP32dc.cpp.  The header line, the
    output of the option verbose, the sha1 digest and the parsing of the options
    are left out; the printed parameter lines are the result. *)
From Coq Require Import NArith ZArith List Bool.
From mathcomp Require Import all_ssreflect all_algebra.
From Verif Require Import Base UtilModel GenModel PolyF2 PeriodModel EquiModel TemperModel RecTemperModel MtgpModel SearchModel.
Set Implicit Arguments.
Unset Strict Implicit.
Unset Printing Implicit Defensive.
Delimit Scope Z_scope with coqZ.

(** MTGP32search.hpp:205-208, 241-244 and 292-302 as the virtual functions of
    TemperingCalculatable.  The program's searches have four parameters, so the
    write to tmp_tbl is always inside (C59_setPattern_undefined says when it is not);
    there the object is left as it is.  clone() copies everything but the member
    mask, which is as uninitialised in the copy as in the original. *)
Definition gpu_set (mask pattern : N) (i : nat) (g : gpu) : gpu :=
  match gpu_setPattern mask pattern i g with Ret g' => g' | _ => g end.
Definition gpu_up (g : gpu) : gpu := match gpu_setUpTempering g with Ret g' => g' | _ => g end.
Definition gpu_setrev (rev : bool) (g : gpu) : gpu :=
  let '(p, s) := g in
  (GPP (gp_mexp p) (gp_size p) rev (gp_imask p) (gp_mask p) (gp_pos p) (gp_sh1 p) (gp_sh2 p) (gp_id p)
     (gp_tbl p) (gp_p p) (gp_tmp p) (gp_tp p), s).
Definition gpu_temper_ops : temper_ops gpu :=
  {| t_set := gpu_set; t_up := gpu_up; t_setRev := gpu_setrev true; t_resetRev := gpu_setrev false; t_clone := fun g => g |}.

(** MTGP32dc.cpp:83-85 and mtgp_param.h:98-130: the printed line, without mexp,
    sh1, sh2 and mask, which are the same in all lines. *)
Record gpd_line := GL { gl_id : N; gl_pos : nat; gl_tbl : list N; gl_tmp : list N; gl_weight : Z; gl_delta : Z }.
Definition gpd_lineof (g : gpu) (w delta : Z) : gpd_line :=
  GL (gp_id g.1) (gp_pos g.1) (gp_tbl g.1) (gp_tmp g.1) w delta.
(** The members that a new object leaves uninitialised. *)
Record gpd_junk := GJ { gj_imask : N; gj_pos : nat; gj_sh1 : N; gj_sh2 : N }.

Section Program.
(** The parameter generator, MersenneTwister; one call of getUint32(). *)
Variables (B : Type) (next : B -> N * B).
(** NTL's MinPolySeq, calc_1pos, the fuel of the loops of the library and the
    uninitialised array veq. *)
Variables (M : seq 'F_2 -> nat -> f2x) (pos : N -> res Z) (efuel sfuel ffuel : nat) (veq0 : list Z).

(** MTGP32search.hpp:166-190 with the generator: five values *)
Definition gpd_setUp (g : gpu) (b : B) : res (gpu * B) :=
  let '(l, b') := draw next 5 b in
  do g' <- gpu_setUpParam (List.nth 0 l 0%num) (List.nth 1 l 0%num) (List.nth 2 l 0%num) (List.nth 3 l 0%num) (List.nth 4 l 0%num) g;
  Ret (g', b').
(** MTGP32dc.cpp:31-33  AlgorithmPartialBitPattern<uint32_t, 32, 4, try, 5, lsb> *)
Definition gpd_temper (try : Z) (lsb : bool) : gpu -> res (Z * gpu) :=
  pb_call gpu gpu_temper_ops 32 count_bit32 (fun g => Z.of_nat (g_bitSize gpu_ops g))
    (tm_get_equidist gpu gpu_ops gpu_temper_ops pos efuel veq0 32) 32 4 try 5 lsb sfuel.
(** 69  all.search(mtgp, st, stlsb, opt.verbose) with the default
    MersennePrimitivity *)
Definition gpd_search (verbose : bool) (g : gpu) (b : B) : res (bool * rt_state gpu B) :=
  rt_search gpu_ops gpu_temper_ops M gpd_setUp 1 pos efuel veq0 ffuel MersennePrimitivity
    (gpd_temper 23 false) (gpd_temper 9 true) true verbose false g b.
(** 56-91  indexed_search; b is the state of a MersenneTwister seeded with the
    seed of the options.  None is "search failed". *)
Definition gpd_indexed (mexp : nat) (id : N) (j : gpd_junk) (verbose : bool) (b : B) : res (option gpd_line) :=
  do g <- gpu_new mexp id (gj_imask j) (gj_pos j) (gj_sh1 j) (gj_sh2 j);
  do '(found, r) <- gpd_search verbose g b;
  Ret (if found : bool then Some (gpd_lineof (rt_rand r) (rt_weight r) (rt_delta r)) else None).
(** 44-53: the loop of main; [cnt] is the count, junk the uninitialised members
    in each round.  The result are the lines and the return value. *)
Fixpoint gpd_loop (cnt : nat) (mexp : nat) (id : N) (junk : nat -> gpd_junk) (verbose : bool) (b : B) : res (list gpd_line * Z) :=
  match cnt with
  | O => Ret (nil, 0%coqZ)
  | c.+1 =>
      do o <- gpd_indexed mexp id (junk 0%nat) verbose b;
      match o with
      | Some l =>
          do '(lines, ret) <- gpd_loop c mexp (wadd 32 id 1) (fun i => junk i.+1) verbose b;
          Ret (l :: lines, ret)
      | None => Ret (nil, (-1)%coqZ)
      end
  end.
(** 37-54  main *)
Definition gpd_main (mexp : nat) (id : N) (junk : nat -> gpd_junk) (verbose : bool) (count : Z) (b : B) : res (list gpd_line * Z) :=
  gpd_loop (Z.to_nat count) mexp id junk verbose b.
End Program.
