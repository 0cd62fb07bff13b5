(** Properties C39, C40: the searches for tempering parameters. *)
From Coq Require Import NArith ZArith List Bool Lia.
From Verif Require Import Base UtilSpec TemperModel TemperSpec TemperProofs BestBitsSpec BestBitsProofs TemperEx.
Import ListNotations.
Local Open Scope Z_scope.

(** * C39: AlgorithmPartialBitPattern *)
(** Each step installs the best of the 2^size patterns of its window: least
    defect, then most one bits, then the largest.  The steps are those of
    step_list: every window for every parameter.  [defect] is any function that
    yields a value on the legal generators. *)
Theorem C39_search : forall S (T : temper_ops S) W count_bit bitSize defect cost param_num try_bit_len step lsb legal,
  temper_laws (fun m q i s => t_up T (t_set T m q i s)) bitSize cost W param_num legal ->
  (forall s, legal s -> defect s = Ret (cost s)) ->
  (forall s, legal s -> legal (t_setRev T s) /\ legal (t_resetRev T s)) ->
  (forall x, (x < 2 ^ W)%N -> count_bit x = N.of_nat (popcount (N.to_nat W) x)) ->
  (1 <= step)%nat -> (N.of_nat try_bit_len <= W)%N ->
  forall fuel s, (Nat.min step try_bit_len <= 30)%nat -> (try_bit_len < fuel)%nat -> legal s ->
  exists s1, pb_call S T W count_bit bitSize defect (Z.of_N W) (Z.of_nat param_num) (Z.of_nat try_bit_len) (Z.of_nat step) lsb fuel s =
               Ret (0, t_resetRev T s1) /\ legal s1 /\
    tempered (fun m q i s => t_up T (t_set T m q i s)) cost W lsb (step_list try_bit_len step param_num)
      (if lsb then t_setRev T s else t_resetRev T s) s1.
Proof. exact pbp_thm. Qed.
(** The windows cover each of the try_bit_len bits once and no other bit. *)
Theorem C39_windows : forall n step j, (1 <= step)%nat -> (j < n)%nat ->
  length (filter (fun '(p, size) => ((p <=? j) && (j <? p + size))%nat) (window_list n step)) = 1%nat.
Proof. exact windows_cover. Qed.
Theorem C39_windows_inside : forall n step p size, (1 <= step)%nat ->
  In (p, size) (window_list n step) -> (1 <= size /\ p + size <= n)%nat.
Proof. exact windows_in. Qed.
(** The other bits of the parameters keep their values. *)
Theorem C39_outside : forall S (T : temper_ops S) W bitSize defect cost param_num try_bit_len step lsb legal,
  temper_laws (fun m q i s => t_up T (t_set T m q i s)) bitSize cost W param_num legal ->
  (forall s, legal s -> defect s = Ret (cost s)) ->
  (1 <= step)%nat -> (N.of_nat try_bit_len <= W)%N ->
  forall view, temper_view (fun m q i s => t_up T (t_set T m q i s)) cost W param_num legal view ->
  forall s s1 i b, legal s ->
  tempered (fun m q i s => t_up T (t_set T m q i s)) cost W lsb (step_list try_bit_len step param_num) s s1 ->
  (if lsb then (N.of_nat try_bit_len <= b)%N else (b < W - N.of_nat try_bit_len \/ W <= b)%N) ->
  N.testbit (view s1 i) b = N.testbit (view s i) b.
Proof. intros S T W. exact (outside_thm S T W (fun x => x)). Qed.
(** The result is not worse than the generator given. *)
Theorem C39_never_worse : forall S (T : temper_ops S) W bitSize cost param_num try_bit_len step lsb legal,
  temper_laws (fun m q i s => t_up T (t_set T m q i s)) bitSize cost W param_num legal ->
  (1 <= step)%nat -> (N.of_nat try_bit_len <= W)%N ->
  forall view, temper_view (fun m q i s => t_up T (t_set T m q i s)) cost W param_num legal view ->
  forall s s1, legal s ->
  tempered (fun m q i s => t_up T (t_set T m q i s)) cost W lsb (step_list try_bit_len step param_num) s s1 ->
  cost s1 <= cost s.
Proof. intros S T W bitSize. exact (worse_thm S T W (fun x => x) bitSize (fun _ => Undef)). Qed.
(** Windows of 31 bits and more are undefined behaviour (1 << size in int). *)
Theorem C39_wide_window_undefined : forall S (T : temper_ops S) W count_bit bitSize defect param_num try_bit_len step lsb,
  (N.of_nat try_bit_len <= W)%N ->
  forall fuel s, (1 <= param_num)%nat -> (31 <= Nat.min step try_bit_len)%nat -> (1 <= fuel)%nat ->
  pb_call S T W count_bit bitSize defect (Z.of_N W) (Z.of_nat param_num) (Z.of_nat try_bit_len) (Z.of_nat step) lsb fuel s = Undef.
Proof. exact wide_undef. Qed.

(** * C40: AlgorithmBestBits *)
(** The whole search: after each bit exactly the candidates of least defect
    are kept, in order, the list is never empty, no array is accessed out of
    bounds, and the first of the candidates left is installed. *)
Theorem C40_search : forall S (T : temper_ops S) W bitSize defect cost size shifts limit legal,
  set_laws (t_set T) bitSize W size legal ->
  forall s, (1 <= size <= 7)%nat -> length shifts = size -> (forall x, In x shifts -> 0 <= x) ->
  (N.of_nat limit <= W)%N -> (forall s, legal s -> legal (t_resetRev T s)) ->
  (forall v s, legal s -> (1 <= v <= limit)%nat -> defect v s = Ret (cost v s) /\ cost v s <= bitSize s * Z.of_N W) ->
  legal s ->
  let s0 := t_resetRev T s in
  exists q l, searched W size shifts (fun v q => cost v (set_all (t_set T) W q s0)) limit (q :: l) /\
    bb_call S T W bitSize defect size shifts (Z.of_nat limit) s = Ret (0, t_resetRev T (t_up T (set_all (t_set T) W q s0))).
Proof. exact bb_thm. Qed.
(** The result of search_best_temper itself has candidates that are not of
    least defect: every candidate at most as bad as those before it. *)
Theorem C40_search_best_refuted : exists S (T : temper_ops S) bitSize defect s s' cands,
  bb_search_best_temper S T 32 bitSize defect 1 [7] s 0 [0%N] [] = Ret (s', cands) /\
  exists c c', In c cands /\ In c' cands /\ tp_delta c' < tp_delta c.
Proof. exact search_best_refuted. Qed.
(** Nothing is called between setTemperingPattern and the measurement: with a
    generator that makes a table of its parameters in setUpTempering the search
    installs parameters that are not the best of those tried. *)
Theorem C40_stale_refuted : exists (T : temper_ops (N * N)) (cost : N -> Z) s q,
  (forall m x i p, t_set T m x i p = (N.lor (N.ldiff (fst p) m) (N.land x m), snd p)) /\ (forall p, t_up T p = (fst p, fst p)) /\
  bb_call (N * N) T 32 (fun _ => 10) (fun _ p => Ret (cost (snd p))) 1 [7] 1 s = Ret (0, (q, q)) /\
  exists q', extends 32 0 1 [7] [0%N] 2 [[q]; [q']] /\ cost q' < cost q.
Proof. exact stale_refuted. Qed.
(** Eight parameters and more: 1 << 36 in int is undefined behaviour. *)
Theorem C40_eight_parameters_undefined : forall S (T : temper_ops S) W bitSize defect size shifts limit s,
  (8 <= size)%nat -> 1 <= limit -> bb_call S T W bitSize defect size shifts limit s = Undef.
Proof. exact eight_undef. Qed.

(** * Non-vacuity *)
Example C39_toy_laws : temper_laws (fun m q i s => t_up toy_T (t_set toy_T m q i s)) (fun _ => 2) toy_cost 8 2 toy_legal /\
  temper_view (fun m q i s => t_up toy_T (t_set toy_T m q i s)) toy_cost 8 2 toy_legal (fun s j => match j with O => fst s | 1%nat => snd s | _ => 0%N end).
Proof. exact toy_laws. Qed.
Example C39_toy : pb_call (N * N) toy_T 8 (fun x => N.of_nat (popcount 8 x)) (fun _ => 2) (fun s => Ret (toy_cost s))
  8 2 8 3 false 9 (0, 0)%N = Ret (0, (0x5a, 0x5a)%N).
Proof. vm_compute. reflexivity. Qed.
Example C39_toy_windows : window_list 8 3 = [(0, 3); (3, 3); (6, 2)]%nat.
Proof. reflexivity. Qed.
Example C40_toy : set_laws (t_set toy_T) (fun _ => 2) 8 2 toy_legal /\
  bb_call (N * N) toy_T 8 (fun _ => 2) (fun v s => Ret (toy_cost s)) 2 [2; 3] 8 (7, 7)%N = Ret (0, (0x5a, 0x58)%N).
Proof. exact toy_bits. Qed.

Print Assumptions C39_search.
Print Assumptions C39_windows.
Print Assumptions C39_windows_inside.
Print Assumptions C39_outside.
Print Assumptions C39_never_worse.
Print Assumptions C39_wide_window_undefined.
Print Assumptions C40_search.
Print Assumptions C40_search_best_refuted.
Print Assumptions C40_stale_refuted.
Print Assumptions C40_eight_parameters_undefined.
