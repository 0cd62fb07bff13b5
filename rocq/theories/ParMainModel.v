(** Model of the program calc_parity of sfmtdc: samples/sfmtdc/calc_parity.cpp with
    MAIN defined.  The argument is the text of argv[optind]; the loop of getopt is
    left out, the option -c is an argument here.  The option -v only prints more and
    is left out, with all messages but the last line. *)
From Coq Require Import NArith ZArith List Bool.
From mathcomp Require Import all_ssreflect all_algebra.
From Verif Require Import Base UtilModel GenModel PolyF2 PeriodModel ParityModel ArrayModel W128Model W128Spec SfmtModel PerTestModel EqMainModel.
Import ListNotations.
Set Implicit Arguments.
Unset Strict Implicit.
Unset Printing Implicit Defensive.
Import GRing.Theory.
Local Open Scope ring_scope.
Delimit Scope Z_scope with coqZ.

(** sfmtsearch.hpp:595-625  periodCertification on the object: it looks at state[0]. *)
Definition sf_cert (g : sfmt) : Z * sfmt :=
  let '((c, s), prev) := g in
  let '(r, w) := periodCertification (w_of (List.nth 0 (rr_arr s) 0%num)) (w_of (f_parity (c_par c))) in
  (r, ((c, RR (rr_idx s) (put (rr_arr s) 0 (wval w))), prev)).

(** The last line of test_parity0, or its early return (136-140). *)
Inductive tp_out := TpOk (result : nat) | TpFailed (point : nat) | TpError.

Section Programs.
(** NTL::MinPolySeq, NTL::kernel, calc_1pos<w128_t>; [junk2] as in ParityModel *)
Variables (M : seq 'F_2 -> nat -> f2x) (pos : N -> res Z) (kernel : nat -> nat -> (nat -> nat -> bool) -> list (list bool)).
Variables (fuel : nat) (junk junk2 : N).

(** calc_parity.cpp:72-84 and 132-142: r = periodCertification(), and once more if it
    is not 1 *)
Definition tp_twice (sf : sfmt) : bool * sfmt :=
  let '(r, sf) := sf_cert sf in
  if (r =? 1)%coqZ then (true, sf) else let '(r, sf) := sf_cert sf in (~~ (r =? 0)%coqZ, sf).
(** 46-144: the loop; [cnt] is the number of further passes.  After a break result is
    0; point is 0 unless it was set.  DivRem by zero ends the program. *)
Fixpoint tp_loop (cnt i result : nat) (f : f2x) (sf : sfmt) : res tp_out :=
  match cnt with
  | O => Ret (if (result == 0)%N then TpFailed 0 else TpOk result)
  | S cnt' =>
      let mexp := p_getMexp sf_par_ops sf in
      let sf := g_seed sf_ops (N.of_nat (i + 1)) sf in
      do '(mpoly, sf) <- minpoly sf_ops M sf 0 0;
      do _ <- gf2x_div mpoly f;
      if ~~ (deg (mpoly %% f)%R =? -1)%coqZ then Ret (TpFailed i)
      else if (deg mpoly <? mexp)%coqZ then Ret (TpFailed i)
      else
        let '(ok, sf) := tp_twice sf in
        if ~~ ok then Ret (TpFailed i)
        else
          let sf := g_seed sf_ops (N.of_nat (i + 3)) sf in
          let sf := annihilate sf_ops sf f in
          do '(mpoly, sf) <- minpoly sf_ops M sf 0 0;
          if (mexp <=? deg mpoly)%coqZ then Ret (TpFailed 0)
          else
            let '(r, sf) := sf_cert sf in
            if (r =? 1)%coqZ then Ret (TpFailed 0)
            else
              let '(r, sf) := sf_cert sf in
              if (r =? 0)%coqZ then Ret (TpFailed i)
              else
                do '(mpoly, sf) <- minpoly sf_ops M sf 0 0;
                if (deg mpoly <? mexp)%coqZ then Ret (TpFailed i)
                else
                  let '(ok, sf) := tp_twice sf in
                  if ~~ ok then Ret TpError else tp_loop cnt' i.+1 result.+1 f sf
  end.
(** 30-150  test_parity0 *)
Definition test_parity0 (param : sfp) (f : f2x) (parity : N) : res tp_out :=
  tp_loop 100 0 0 f (sf_setParity parity (sf_new param)).
(** 199-243  main; a negative mexp is not followed any further.  [None]: the message
    that there is no factor; main returns false, that is 0, in this case, too. *)
Definition sf_par_main (check : bool) (para : list N) : res (option (list N * option tp_out)) :=
  do p <- sf_parse para;
  if (f_mexp p <? 0)%coqZ then Undef
  else
    let sf := sf_seed (eq_seed 1 junk) (sf_new p) in
    do '(poly, sf) <- minpoly sf_ops M sf 0 0;
    do '(irreducible, has) <- hasFactorOfDegree fuel poly (p_getMexp sf_par_ops sf);
    if ~~ has then Ret None
    else
      do '(_, sf) <- searchParity sf_ops sf_par_ops pos kernel (Some junk2) fuel sf irreducible;
      let text := sf_text (c_par sf.1.1) in
      if check then
        (* getParityValue(), 19-24 *)
        do r <- test_parity0 p irreducible (p_getParityValue sf_par_ops sf);
        Ret (Some (text, Some r))
      else Ret (Some (text, None)).
End Programs.
