(** Property theorems C40: estimate_dilation_sequence. *)
From Verif Require Import Py L_Qc M_BaseMaps M_Subsets M_Paths M_Curves M_Zoo M_Utils M_Heap M_Sat M_Dilation S_BaseMaps S_Subsets S_Utils S_Paths S_Curves S_Fuzzy S_Heap S_Sat S_Ratio S_Dilation
  P_Valid P_Check P_FuzzyMain P_FuzzyBuilt P_FuzzyExample P_Heap P_SatSolver P_SeqEst T_Fuzzy T_Dilation T_Bisect.
From Coq Require Import Reals.
Local Open Scope nat_scope.

(** C40: the returned lo bounds the dilation of all curves of all fuzzy curves from below; up is the dilation bound of some
    curve, or the given upper_bound; up <= lo * (1 + 1/rel_tol_inv); the curves of a fuzzy curve whose index is not
    returned have dilation above up; the returned examples are curves of the fuzzy curves with the returned indices.
    None is returned only if there are no curves or all exceed the given upper bound. *)
Theorem C40_sequence : forall hq, heapq_ok hq -> forall hs, heapq_ok hs -> forall (ratio : ratio_func) (rR : list R -> R -> R) d
    fuel solver sched max_iter curves rel_tol_inv mult upper_bound result,
  Forall (fuzzy_input d) curves -> ratio_ok d (ratio d) rR -> sat_ok solver ->
  estimate_dilation_sequence ratio hq hs fuel solver sched max_iter curves rel_tol_inv mult upper_bound = Some result ->
  match result with
  | Some (lo, up, examples, idxs) =>
      (forall c, In c curves -> min_dilation_ge rR c (qR lo)) /\
      (upper_bound = Some up \/ exists i c, In i idxs /\ nth_error curves i = Some c /\ min_dilation_le rR c (qR up)) /\
      ((0 < rel_tol_inv)%Z -> (qR up * IZR rel_tol_inv <= qR lo * IZR (rel_tol_inv + 1))%R) /\
      NoDup idxs /\ (forall i c, nth_error curves i = Some c -> ~ In i idxs -> min_dilation_above rR c up) /\
      Forall2 (fun ex i => exists c, nth_error curves i = Some c /\ forall r, ex = Some r -> exists M, possible_within rR c r M) examples idxs
  | None => curves = [] \/ exists u, upper_bound = Some u /\ forall c, In c curves -> min_dilation_above rR c u
  end.
Proof. exact seq_spec. Qed.
Print Assumptions C40_sequence.

(** The Peano curve and the Meurthe curve, each as a fuzzy curve with all specs defined. *)
Definition only (f x : curve) : curve :=
  fold_left (fun f k => match get_spec x 0 k with Some (Some s) => match specify f 0 k s with Some f' => f' | None => f end | _ => f end) (range (cv_genus x)) f.
Definition fuzzy_of (x : curve) : curve := match forget x None true with Some f => only f x | None => x end.
Definition peano_meurthe : list curve := [fuzzy_of (curve_or zoo_peano); fuzzy_of (curve_or zoo_meurthe)].
Lemma fuzzy_of_input x : valid_curveb x = true -> match forget x None true with Some _ => True | None => False end -> fuzzy_input (cv_dim x) (fuzzy_of x).
Proof.
  intros V HF. apply valid_curveb_ok in V. unfold fuzzy_of, forget in *. rewrite (get_paths_eq _ V) in *. cbn [obind] in *. destruct (init_from_paths _ _ _) as [f|] eqn:E; [|destruct HF].
  exists (cv_div x), None, true. eexists. split; [intros g X; discriminate|]. split; [exact (forget_paths_valid _ V)|]. apply built_init in E. unfold only. revert E. generalize f. induction (range (cv_genus x)) as [|k l IH]; intros f0 E; cbn; auto. apply IH.
  destruct (get_spec x 0 k) as [[s|]|]; auto. destruct (specify f0 0 k s) as [f1|] eqn:ES; auto. eapply built_specify; eauto.
Qed.
Definition seq_example (curves : list curve) (r m : Z) (u : option Qc) :=
  estimate_dilation_sequence ratio_linf sorted_hq sorted_hq 400 simple_solver (fun z => (z + z / 3 + 1)%Z) None curves r m u.
Example C40_example : heapq_ok (@sorted_hq bpair) /\ heapq_ok (@sorted_hq citem) /\ Forall (fuzzy_input 2) peano_meurthe /\
  ratio_ok 2 (ratio_linf 2) (norm_ratio norm_linf 2) /\ sat_ok simple_solver /\
  (exists lo up exs, seq_example peano_meurthe 4 4 None = Some (Some (lo, up, exs, [1])) /\ (Zq 4 < lo)%Qc /\ (up < Zq 6)%Qc) /\
  seq_example peano_meurthe 4 4 (Some (Zq 3)) = Some None /\ seq_example [] 4 4 None = Some None.
Proof.
  split; [exact sorted_hq_ok|]. split; [exact sorted_hq_ok|]. split.
  { apply Forall_cons; [|apply Forall_cons; [|apply Forall_nil]]; [refine (fuzzy_of_input (curve_or zoo_peano) _ _)|refine (fuzzy_of_input (curve_or zoo_meurthe) _ _)]; vm_compute; auto. }
  split; [apply (C35_norms 2); auto|]. split; [exact simple_solver_ok|]. split; [|split; vm_compute; reflexivity].
  do 3 eexists. split; [vm_compute; reflexivity|]. split; vm_compute; reflexivity.
Qed.

(** Refuted: the documentation says that the returned 'curves' have their dilation in [lo, up].  With rel_tol_inv 1 the
    Peano curve, of dilation at least 8, is returned although up = 6. *)
Theorem C40_listed_within_refuted : exists lo up exs idxs r, seq_example peano_meurthe 1 2 None = Some (Some (lo, up, exs, idxs)) /\
  In (Some r) exs /\ up = Zq 6 /\ same_curve r (curve_or zoo_peano) /\ dilation_ge (norm_ratio norm_linf 2) (curve_or zoo_peano) 8.
Proof.
  assert (HV : valid_curve (curve_or zoo_peano)) by (apply valid_curveb_ok; vm_compute; reflexivity).
  assert (exists lo up am, estimate_dilation_regular ratio_linf sorted_hq 400 (curve_or zoo_peano) (Some 5%Z) None (Some 0) None = Some (lo, up, am) /\ this lo = 8%Q) as (lo0 & up0 & am & ER & EL) by (do 3 eexists; split; [vm_compute; reflexivity|reflexivity]).
  assert (RO : ratio_ok (cv_dim (curve_or zoo_peano)) (ratio_linf (cv_dim (curve_or zoo_peano))) (norm_ratio norm_linf 2)) by (apply (C35_norms 2); auto).
  destruct (C37_regular_encloses _ sorted_hq_ok ratio_linf _ _ 400 (Some 5%Z) None (Some 0) None lo0 up0 am HV RO (Nat.le_0_l _) ER) as (_ & HD & _). assert (lo0 = Zq 8) by (apply Qc_is_canon; rewrite EL; vm_compute; reflexivity). subst lo0. rewrite L_R.qR_Zq in HD.
  assert (exists lo up exs idxs ex, seq_example peano_meurthe 1 2 None = Some (Some (lo, up, exs, idxs)) /\ nth_error exs 1 = Some (Some ex) /\ this up = 6%Q /\ same_curve ex (curve_or zoo_peano)) as (lo & up & exs & idxs & ex & E & EX & EU & ES).
  { do 5 eexists. split; [vm_compute; reflexivity|]. split; [reflexivity|]. split; [reflexivity|]. split; [reflexivity|]. split; vm_compute; reflexivity. }
  exists lo, up, exs, idxs, ex. split; auto. split; [apply nth_error_In with 1; auto|]. split; [apply Qc_is_canon; rewrite EU; vm_compute; reflexivity|]. split; auto.
Qed.
Print Assumptions C40_listed_within_refuted.
