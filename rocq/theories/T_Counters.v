(** Property theorems C61: the counters of the estimator. *)
From Verif Require Import Py L_Qc M_BaseMaps M_Subsets M_Paths M_Curves M_Utils M_Heap M_Heapq M_Sat M_Dilation M_Counters
  S_BaseMaps S_Subsets S_Paths S_Curves S_Fuzzy S_Heap S_Sat P_Heap P_Heapq P_SatSolver P_Counters P_CountersBis S_Utils L_R T_Fuzzy.
From Coq Require Import Reals.
Local Open Scope nat_scope.

(** C61: counting does not change results: the method with counters returns what the method without them returns, with the
    same number of calls of the solver. For a sequence of curves the number of possible curves of each has to be defined. *)
Theorem C61_no_effect : forall ratio hq solver sched max_iter,
  (forall fuel c good bad it ia call k,
     fst (bisect_k ratio hq fuel solver sched max_iter c good bad it ia call k) = bisect_dilation_fuzzy ratio hq fuel solver sched max_iter c good bad it ia call) /\
  (forall fuel c tol stop slo sup sc call k,
     option_map fst (estimate_fuzzy_k ratio hq fuel solver sched max_iter c tol stop slo sup sc call k) = estimate_dilation_fuzzy ratio hq fuel solver sched max_iter c tol stop slo sup sc call) /\
  (forall hs fuel curves tol mult upper k, (forall c, In c curves -> exists n, count_possible_curves c = Some n) ->
     option_map (fun r => fst (fst r)) (estimate_sequence_k ratio hq hs fuel solver sched max_iter curves tol mult upper k) =
     estimate_dilation_sequence ratio hq hs fuel solver sched max_iter curves tol mult upper).
Proof.
  intros ratio hq solver sched max_iter. split; [|split].
  - intros. apply bisect_erase.
  - intros. apply fuzzy_erase.
  - intros hs fuel curves tol mult upper k H. unfold estimate_sequence_k, estimate_dilation_sequence. destruct (tolerance_of tol); auto. apply loop_erase.
    intros _ it Hi. apply in_map_iff in Hi as ([i c] & <- & Hi). cbn. apply in_combine_r in Hi. destruct (H c Hi) as [n ->]. discriminate.
Qed.
Print Assumptions C61_no_effect.

(** C61, bisect_dilation_fuzzy: divide_iter grows by the number of divisions, at most max_iter and exactly max_iter if the
    method ran out of iterations; sat.solve_calls grows by the calls of the solver, but for the last one if a curve was
    found (or possibly if none was found). *)
Theorem C61_bisect : forall ratio hq fuel solver sched max_iter c good bad it ia call k r call' k',
  bisect_k ratio hq fuel solver sched max_iter c good bad it ia call k = (r, call', k') ->
  let solved := k_solve k' - k_solve k in let divided := k_divide k' - k_divide k in
  k_solve k <= k_solve k' /\ k_divide k <= k_divide k' /\ k_bisect k' = k_bisect k /\ k_seen k' = k_seen k /\ k_possible k' = k_possible k /\
  solved <= divided /\ call + solved <= call' <= call + solved + 1 /\
  (forall x, r = BFound x -> call' = call + solved + 1) /\ (r = BOutOfIter -> call' = call + solved) /\
  (forall m, max_iter = Some m -> (Z.of_nat divided <= Z.max m 0)%Z /\ (r = BOutOfIter -> Z.of_nat divided = Z.max m 0)) /\
  (max_iter = None -> r <> BOutOfIter).
Proof.
  intros ratio hq fuel solver sched max_iter c good bad it ia call k r call' k' E solved divided.
  pose proof (bisect_rel ratio hq solver sched max_iter fuel c good bad it ia call k) as H. rewrite E in H. unfold bis_rel, dk in H. fold solved divided in H.
  destruct H as (A1 & A2 & A3 & A4 & A5 & A6 & A7 & A8 & A9 & A10). repeat (split; [auto; lia|]). split; [intros x ->; auto|]. split; [intros ->; auto|]. split.
  - intros m Em. split; [specialize (A9 m Em); lia|]. intros Er. destruct (A10 Er) as (m' & Em' & X). rewrite Em in Em'. injection Em' as <-. lia.
  - intros En Er. destruct (A10 Er) as (m & Em & _). congruence.
Qed.
Print Assumptions C61_bisect.

(** C61, estimate_dilation_fuzzy: bisect_iter bounds the solver calls that are not counted, and the divisions. *)
Theorem C61_fuzzy : forall ratio hq fuel solver sched max_iter c tol stop slo sup sc call k r call' k',
  estimate_fuzzy_k ratio hq fuel solver sched max_iter c tol stop slo sup sc call k = Some (r, call', k') ->
  let solved := k_solve k' - k_solve k in let divided := k_divide k' - k_divide k in let bisected := k_bisect k' - k_bisect k in
  k_solve k <= k_solve k' /\ k_divide k <= k_divide k' /\ k_bisect k <= k_bisect k' /\ k_seen k' = k_seen k /\ k_possible k' = k_possible k /\
  solved <= divided /\ call + solved <= call' <= call + solved + bisected /\
  (forall m, max_iter = Some m -> (Z.of_nat divided <= Z.max m 0 * Z.of_nat bisected)%Z).
Proof.
  intros ratio hq fuel solver sched max_iter c tol stop slo sup sc call k r call' k' E solved divided bisected. apply fuzzy_rel in E. unfold fuz_rel, dk in E. fold solved divided bisected in E.
  destruct E as (A1 & A2 & A3 & A4 & A5 & A6 & A7 & A8). repeat (split; [auto; lia|]). auto.
Qed.
Print Assumptions C61_fuzzy.

(** C61, estimate_dilation_fuzzy: bisect_iter counts the steps of the bisection: b of them divide the distance of the bounds by
    at least (3/2)^b and by at most 2^b; a limit of iterations may make one step, the last one, useless. *)
Theorem C61_bisect_iter : forall ratio hq fuel solver sched max_iter c tol stop lo up sc call k ex lo' up' call' k', (0 < tol)%Z -> (0 <= lo)%Qc ->
  estimate_fuzzy_k ratio hq fuel solver sched max_iter c tol stop (Some lo) (Some up) sc call k = Some (ex, lo', up', call', k') ->
  let b := k_bisect k' - k_bisect k in
  (qR up - qR lo <= 2 ^ b * (qR up' - qR lo'))%R /\ (3 ^ (b - 1) * (qR up' - qR lo') <= 2 ^ (b - 1) * (qR up - qR lo))%R /\
  (max_iter = None -> (3 ^ b * (qR up' - qR lo') <= 2 ^ b * (qR up - qR lo))%R).
Proof. intros. eapply fuzzy_width; eauto. rewrite <- qR_0. apply qR_le. auto. Qed.
Print Assumptions C61_bisect_iter.

(** C61, estimate_dilation_sequence: whatever the result, seen_pcurve grows by the number of fuzzy curves, and possible_curves
    by the number of regular curves that belong to them (counted once for each fuzzy curve). *)
Theorem C61_sequence : forall ratio hq hs fuel solver sched max_iter curves tol mult upper k r calls k',
  (forall c, In c curves -> exists d N group no_time_rev paths, valid_group d group /\ valid_paths d N paths /\ built group no_time_rev paths c) ->
  (forall u, upper = Some u -> (0 < u)%Qc) ->
  estimate_sequence_k ratio hq hs fuel solver sched max_iter curves tol mult upper k = Some (r, calls, k') ->
  k_seen k' = k_seen k + length curves /\
  (exists families, Forall2 (fun c l => NoDup l /\ forall x, In x l <-> chosen_from c x) curves families /\
     k_possible k' = k_possible k + length (concat families)) /\
  let solved := k_solve k' - k_solve k in let divided := k_divide k' - k_divide k in let bisected := k_bisect k' - k_bisect k in
  k_solve k <= k_solve k' /\ k_divide k <= k_divide k' /\ k_bisect k <= k_bisect k' /\ solved <= divided /\ solved <= calls <= solved + bisected.
Proof.
  intros ratio hq hs fuel solver sched max_iter curves tol mult upper k r calls k' HC HU E. unfold estimate_sequence_k in E. destruct (tolerance_of tol) as [tl|]; [|discriminate].
  apply loop_rel in E. cbn zeta in E. assert (EN : match upper with None => true | Some u => qltb (0 * tl)%Qc u end = true).
  { destruct upper as [u|]; auto. apply qltb_ok. replace (0 * tl)%Qc with 0%Qc by ring. apply HU; auto. }
  rewrite EN in E. cbn [andb] in E. unfold seq_rel, dk in E. destruct E as (A1 & A2 & A3 & A4 & A5 & A6 & A7 & _).
  assert (L : forall n, length (combine (seq n (length curves)) curves) = length curves) by (intros n; rewrite combine_length, seq_length; apply Nat.min_id).
  split; [rewrite A1, map_length; unfold enumerate, range; rewrite L; auto|]. split; [|repeat (split; [auto; lia|]); lia].
  assert (S : counts (map (fun ic => CI (fst ic) None None (snd ic) None) (enumerate curves)) = list_sum (map counted_curve curves)).
  { unfold counts. rewrite map_map. cbn [ci_curve]. unfold enumerate, range. f_equal. generalize 0. clear. induction curves as [|c l IH]; intros n; cbn; auto. f_equal. apply IH. }
  rewrite A2, S. clear - HC. induction curves as [|c l IH].
  - exists []. split; [constructor|]. cbn. auto.
  - destruct IH as (fs & F1 & F2); [intros; apply HC; right; auto|]. destruct (HC c (or_introl eq_refl)) as (d & N & g & nt & ps & H1 & H2 & H3).
    destruct (C26_possible d N g nt ps c H1 H2 H3) as (f & B1 & B2 & B3 & B4 & B5). exists (f :: fs). split; [constructor; auto|]. cbn [concat map]. rewrite app_length. unfold counted_curve at 1. rewrite B3. cbn [list_sum fold_right] in *. unfold list_sum in *. cbn [fold_right]. lia.
Qed.
Print Assumptions C61_sequence.

(** The curves with Hilbert's path: 16 of them; the solver is called 1 time more than sat.solve_calls says by a call of
    bisect_dilation_fuzzy that finds a curve. *)
Local Notation bisect61 good bad :=
  (bisect_k ratio_linf sorted_hq 400 simple_solver (fun z => (z + z / 3 + 1)%Z) (Some 300%Z) hilbert_fuzzy (Zq good) (Zq bad) None None 0 k_zero).
Example C61_example :
  (forall c, In c [hilbert_fuzzy; hilbert_fuzzy] -> exists d N group no_time_rev paths, valid_group d group /\ valid_paths d N paths /\ built group no_time_rev paths c) /\
  (let '(r, calls, k') := bisect61 7 6 in (match r with BFound _ => true | _ => false end, calls, k_solve k', k_bisect k')) = (true, 11, 10, 0) /\
  (let '(r, calls, k') := bisect61 5 4 in (r, calls, k_solve k')) = (BNone, 1, 1) /\
  (let '(r, calls, k') := bisect_k ratio_linf sorted_hq 400 simple_solver (fun z => z) (Some 2%Z) hilbert_fuzzy (Zq 7) (Zq 6) None None 0 k_zero in (r, k_divide k')) = (BOutOfIter, 2) /\
  option_map (fun r => (snd (fst r), snd r)) (estimate_sequence_k ratio_linf sorted_hq sorted_hq 400 simple_solver (fun z => (z + z / 3 + 1)%Z) None [hilbert_fuzzy; hilbert_fuzzy] 2 2 None k_zero) =
    Some (18, Ct 40 18 4 2 32) /\
  (0 <= Zq 3)%Qc /\ option_map (fun r => (k_bisect (snd r), this (snd (fst (fst r))), this (snd (fst (fst (fst r)))))) (estimate_fuzzy_k ratio_linf sorted_hq 400 simple_solver (fun z => (z + z / 3 + 1)%Z) None hilbert_fuzzy 2 None (Some (Zq 3)) (Some (Zq 9)) None 0 k_zero) =
    Some (3, 7%Q, (47 # 9)%Q).
Proof.
  split.
  { intros c Hc. destruct C25_example as (A & B & C & _). exists 2, 2, None, false, hilbert_paths. split; [exact A|]. split; [exact B|]. destruct Hc as [<-|[<-|[]]]; apply built_init; exact C. }
  split; [vm_compute; reflexivity|]. split; [vm_compute; reflexivity|]. split; [vm_compute; reflexivity|]. split; [vm_compute; reflexivity|]. split; [vm_compute; discriminate|]. vm_compute; reflexivity.
Qed.
Lemma bisect61_counts : forall r c k, bisect61 7 6 = (r, c, k) -> c = 11 /\ k_solve k = 10.
Proof. intros r c k H. destruct C61_example as (_ & E & _). rewrite H in E. split; congruence. Qed.
(** C61, a stronger reading that is false: sat.solve_calls is not the number of calls of the solver. *)
Theorem C61_solve_calls_refuted : ~ forall ratio hq fuel solver sched max_iter c good bad it ia call k r call' k', heapq_ok hq -> sat_ok solver ->
  bisect_k ratio hq fuel solver sched max_iter c good bad it ia call k = (r, call', k') -> call' = call + (k_solve k' - k_solve k).
Proof.
  intros H. destruct (bisect61 7 6) as [[r c] k'] eqn:EB. destruct (bisect61_counts _ _ _ EB) as [E1 E2].
  specialize (H ratio_linf sorted_hq 400 simple_solver (fun z => (z + z / 3 + 1)%Z) (Some 300%Z) hilbert_fuzzy (Zq 7) (Zq 6) None None 0 k_zero r c k' (@sorted_hq_ok bpair) simple_solver_ok EB).
  rewrite E1, E2 in H. discriminate H.
Qed.
Print Assumptions C61_solve_calls_refuted.
