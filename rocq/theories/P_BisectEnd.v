(** C38 in the form of the property. *)
From Verif Require Import Py L_Py L_Qc L_R M_BaseMaps M_Subsets M_Paths M_Curves M_Heap M_Sat M_Dilation S_BaseMaps S_Subsets S_Utils S_Heap S_Paths S_Curves S_Fuzzy S_Sat S_Ratio S_Dilation P_Heap P_FuzzyOps P_Bisect.
From Coq Require Import Reals.
Local Open Scope nat_scope.
Lemma loop_out ratio hq solver sched fuel : forall t a n k call, fst (bisect_loop ratio hq fuel solver sched None t a n k call) <> BOutOfIter.
Proof.
  assert (F : forall a call, fst (finish solver a call) <> BOutOfIter). { intros a call. unfold finish. cbn [fst]. destruct (ad_solve solver call a) as [mm|]; [destruct (get_model_curve a mm)|]; discriminate. }
  induction fuel as [|fuel IH]; intros t a n k call; cbn [bisect_loop]; destruct (bh_items t); auto; [discriminate|].
  destruct (divide_tree ratio hq None t) as [t1|]; [|discriminate]. destruct (forbid t1 a) as [t2 a2]. destruct (n + 1 <? k)%Z; auto. destruct (ad_solve solver call a2); [auto|discriminate].
Qed.
Lemma built_dim d N group dtr paths c : valid_group d group -> valid_paths d N paths -> built group dtr paths c -> cv_dim c = d.
Proof. intros HG HP HB. destruct (built_good d N group dtr paths HG HP c HB) as (_ & _ & E & _). exact E. Qed.
Theorem bisect_spec : forall hq, heapq_ok hq -> forall (ratio : ratio_func) (rR : list R -> R -> R)
    d N group no_time_rev paths c fuel solver sched max_iter good bad it ia call result calls,
  valid_group d group -> valid_paths d N paths -> built group no_time_rev paths c ->
  ratio_ok d (ratio d) rR -> sat_ok solver -> cached_tree ratio hq c it -> cached_adapter c ia ->
  bisect_dilation_fuzzy ratio hq fuel solver sched max_iter c good bad it ia call = (result, calls) ->
  match result with
  | BFound x => exists y, chosen_from c y /\ x = pattern_curve y 0 /\ dilation_le rR x (qR good)
  | BNone => forall x, chosen_from c x -> dilation_ge rR x (qR bad)
  | BOutOfIter => exists m, max_iter = Some m
  | BError => True
  end.
Proof.
  intros hq HQ ratio rR d N group dtr paths c fuel solver sched max_iter good bad it ia call result calls HG HP HB RO HS Hit Hia E. destruct (heapq_inv hq HQ) as (is_heap & HH).
  rewrite <- (built_dim d N group dtr paths c HG HP HB) in RO.
  destruct (bisect_decides d N group dtr paths HG HP c HB ratio rR RO hq is_heap HH fuel solver sched max_iter good bad it ia call HS Hit Hia) as [A _]. rewrite E in A. cbn [fst] in A.
  destruct result; auto. destruct max_iter as [m|]; [eauto|]. exfalso. unfold bisect_dilation_fuzzy in E. destruct (match it with None => create_tree ratio hq fuel c (Some good) (Some bad) false None | Some t => bh_copy bp_lo bp_up hq t (Some good) (Some bad) end) as [t|]; [|discriminate].
  destruct (match ia with None => ad_load fuel c | Some a => Some (ad_copy a) end) as [a|]; [|discriminate].
  destruct (forbid t a) as [t1 a1]. pose proof (loop_out ratio hq solver sched fuel t1 a1 0 1 call) as X. rewrite E in X. apply X. auto.
Qed.
Theorem bisect_returns : forall hq, heapq_ok hq -> forall (ratio : ratio_func) (rR : list R -> R -> R) d N group no_time_rev paths c,
  valid_group d group -> valid_paths d N paths -> built group no_time_rev paths c -> (forall p, In p paths -> joined_path p) -> ratio_ok d (ratio d) rR ->
  exists fuel0, forall fuel solver sched m good bad it ia call, sat_ok solver -> cached_tree ratio hq c it -> cached_adapter c ia ->
    fuel0 <= fuel -> (m < Z.of_nat fuel)%Z -> fst (bisect_dilation_fuzzy ratio hq fuel solver sched (Some m) c good bad it ia call) <> BError.
Proof.
  intros hq HQ ratio rR d N group dtr paths c HG HP HB HJ RO. destruct (heapq_inv hq HQ) as (is_heap & HH). rewrite <- (built_dim d N group dtr paths c HG HP HB) in RO.
  destruct (templates_fuel d N group dtr paths HG HP c HB HJ) as (f0 & H0). exists (Nat.max 1 f0). intros fuel solver sched m good bad it ia call HS Hit Hia Hf Hm. destruct (H0 fuel ltac:(lia)) as [H1 H2].
  destruct (bisect_decides d N group dtr paths HG HP c HB ratio rR RO hq is_heap HH fuel solver sched (Some m) good bad it ia call HS Hit Hia) as [_ A]. apply (A m); auto. lia.
Qed.
