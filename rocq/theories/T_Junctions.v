(** Property theorems C22, C23, C24: regular junctions. *)
From Verif Require Import Py M_BaseMaps M_Subsets M_Paths M_Curves M_Zoo S_BaseMaps S_Utils S_Curves S_Junctions P_Valid P_JuncFacts.
From Coq Require Import Reals.
Local Open Scope nat_scope.

(** C22: when gen_regular_junctions is exhausted, every pair of consecutive fractions of every pattern and every depth
    is one of the generated junctions up to an isometry and a reversal of time. *)
Theorem C22_complete : forall c fuel js, valid_curve c -> gen_regular_junctions fuel c = (js, GDone) ->
  forall p cnums1 cnums2 X1 X2 dx, neighbours c p cnums1 cnums2 X1 X2 dx ->
  exists j, In j js /\ isometric (cv_dim c) X1 X2 dx (j_spec1 j) (j_spec2 j) (j_dx j).
Proof. exact junc_complete. Qed.
Print Assumptions C22_complete.
(** (there is such a pair for every number T with 0 <= T and T + 1 < G^n) *)
Theorem C22_pairs_exist : forall c p n T, valid_curve c -> p < cv_mult c -> (0 <= T)%Z -> (T + 1 < Z.of_nat (cv_genus c) ^ Z.of_nat n)%Z ->
  exists cnums1 cnums2 X1 X2 dx, length cnums1 = n /\ value (Z.of_nat (cv_genus c)) (map Z.of_nat cnums1) = T /\ neighbours c p cnums1 cnums2 X1 X2 dx.
Proof. exact neighbours_exist. Qed.
Print Assumptions C22_pairs_exist.
(** C22: every junction generated (also by an interrupted enumeration) is a pair of consecutive fractions, up to an
    isometry and a reversal of time.  C24: its depth is the depth of this pair. *)
Theorem C22_genuine : forall c fuel j, valid_curve c -> In j (fst (gen_regular_junctions fuel c)) ->
  exists p cnums1 cnums2 X1 X2 dx, neighbours c p cnums1 cnums2 X1 X2 dx /\
    isometric (cv_dim c) X1 X2 dx (j_spec1 j) (j_spec2 j) (j_dx j) /\ j_depth j = Some (length cnums1).
Proof. exact junc_genuine. Qed.
Print Assumptions C22_genuine.
(** C22: the normal form: the cube map of spec1 is the identity, spec1.pnum <= spec2.pnum, with equal pnums not both
    specs are reversed in time, delta_t = 1. *)
Theorem C22_normal_form : forall c fuel j, valid_curve c -> In j (fst (gen_regular_junctions fuel c)) ->
  coords (sp_bm (j_spec1 j)) = coords (id_map (cv_dim c)) /\ sp_pnum (j_spec1 j) <= sp_pnum (j_spec2 j) /\
  (sp_pnum (j_spec1 j) = sp_pnum (j_spec2 j) -> time_rev (sp_bm (j_spec1 j)) = true -> time_rev (sp_bm (j_spec2 j)) = false) /\ j_dt j = 1%Z.
Proof. exact junc_normal. Qed.
Print Assumptions C22_normal_form.
Theorem C22_no_duplicates : forall c fuel, valid_curve c ->
  NoDup (map (fun j => (j_spec1 j, j_spec2 j, j_dx j, j_dt j)) (fst (gen_regular_junctions fuel c))).
Proof. exact junc_nodup. Qed.
Print Assumptions C22_no_duplicates.
Theorem C22_never_raises : forall c fuel, valid_curve c -> snd (gen_regular_junctions fuel c) <> GRaise.
Proof. exact junc_noraise. Qed.
Print Assumptions C22_never_raises.

(** C22, auto-junctions: one for each pattern, in order: the fraction of the pattern, neither moved nor reversed, with itself;
    its depth is 0. *)
Theorem C22_auto : forall c p,
  (nth_error (gen_auto_junctions c) p = None <-> cv_mult c <= p) /\
  forall j, nth_error (gen_auto_junctions c) p = Some j ->
    j_spec1 j = j_spec2 j /\ sp_pnum (j_spec1 j) = p /\ time_rev (sp_bm (j_spec1 j)) = false /\
    (forall v, length v = cv_dim c -> apply_vec (sp_bm (j_spec1 j)) v = v) /\
    length (j_dx j) = cv_dim c /\ (forall x, In x (j_dx j) -> x = 0%Z) /\ j_dt j = 0%Z /\ j_depth j = Some 0.
Proof.
  intros c p. unfold gen_auto_junctions, range. split; [rewrite nth_error_None, map_length, seq_length; tauto|].
  intros j E. rewrite nth_error_map in E. destruct (nth_error (seq 0 (cv_mult c)) p) as [q|] eqn:EQ; [|discriminate].
  assert (L : p < cv_mult c) by (rewrite <- (seq_length (cv_mult c) 0); apply nth_error_Some; congruence).
  apply (nth_error_nth _ _ 0) in EQ. rewrite seq_nth in EQ by auto. cbn in EQ. subst q. injection E as <-. cbn. repeat (split; auto).
  - intros v Hv. apply (P_Actions.action_vec (cv_dim c) (id_map (cv_dim c)) (id_map (cv_dim c)) v); auto; apply L_BaseMaps.wf_id.
  - apply repeat_length.
  - intros x Hx. apply repeat_spec in Hx. auto.
Qed.
Print Assumptions C22_auto.
Example C22_auto_example : length (gen_auto_junctions (curve_or zoo_beta_omega)) = 2.
Proof. vm_compute. reflexivity. Qed.

(** C23: for a curve that passes check() the enumeration ends. *)
Theorem C23_terminates : forall c, valid_curve c -> check c = Some true ->
  exists fuel0 js, forall fuel, fuel0 <= fuel -> gen_regular_junctions fuel c = (js, GDone).
Proof. exact junc_terminates. Qed.
Print Assumptions C23_terminates.
(** C23: delta_x of its junctions is a non-zero vector of -1, 0, 1. *)
Theorem C23_delta : forall c fuel j, valid_curve c -> check c = Some true -> In j (fst (gen_regular_junctions fuel c)) ->
  length (j_dx j) = cv_dim c /\ Forall (fun z => (-1 <= z <= 1)%Z) (j_dx j) /\ exists i, i < cv_dim c /\ nth i (j_dx j) 0%Z <> 0%Z.
Proof. exact junc_delta. Qed.
Print Assumptions C23_delta.
(** C23: the curve spec1*c ends where the curve spec2*c, shifted by delta_x, begins. *)
Theorem C23_meets : forall c fuel j, valid_curve c -> check c = Some true -> In j (fst (gen_regular_junctions fuel c)) ->
  forall x y, graph (cv_mul_sp (j_spec1 j) c) 1 x -> graph (cv_mul_sp (j_spec2 j) c) 0 y ->
  forall i, i < cv_dim c -> (nth i x 0 = nth i y 0 + IZR (nth i (j_dx j) 0%Z))%R.
Proof. exact junc_meets. Qed.
Print Assumptions C23_meets.
Theorem C23_ends_exist : forall c fuel j, valid_curve c -> In j (fst (gen_regular_junctions fuel c)) ->
  (exists x, graph (cv_mul_sp (j_spec1 j) c) 1 x) /\ (exists y, graph (cv_mul_sp (j_spec2 j) c) 0 y).
Proof. exact junc_specs_defined. Qed.
Print Assumptions C23_ends_exist.
(** C23: without continuity the enumeration may never end. *)
Theorem C23_may_run_forever : exists c, valid_curve c /\ forall fuel, snd (gen_regular_junctions fuel c) = GFuel.
Proof. exact (ex_intro _ lex_curve lex_forever). Qed.
Print Assumptions C23_may_run_forever.

(** C24: get_depth() is enough: every pair of consecutive fractions, of any depth, is up to isometry and reversal a pair
    of depth at most get_depth(). *)
Theorem C24_depth_enough : forall c fuel n, valid_curve c -> get_depth fuel c = Some n ->
  forall p cnums1 cnums2 X1 X2 dx, neighbours c p cnums1 cnums2 X1 X2 dx ->
  exists q cnums3 cnums4 Y1 Y2 dy, length cnums3 <= n /\ neighbours c q cnums3 cnums4 Y1 Y2 dy /\ isometric (cv_dim c) X1 X2 dx Y1 Y2 dy.
Proof. exact depth_enough. Qed.
Print Assumptions C24_depth_enough.
(** C24: the stronger reading (the depth is the least one) fails: the curve facet_gated_4d of the zoo, valid and
    continuous, has a junction of depth 3 that occurs already at depth 2 ... *)
Theorem C24_least_depth_refuted : exists c fuel js j, valid_curve c /\ check c = Some true /\ gen_regular_junctions fuel c = (js, GDone) /\
  In j js /\ j_depth j = Some 3 /\
  exists p cnums1 cnums2 X1 X2 dx, length cnums1 = 2 /\ neighbours c p cnums1 cnums2 X1 X2 dx /\
    isometric (cv_dim c) X1 X2 dx (j_spec1 j) (j_spec2 j) (j_dx j).
Proof.
  exact (match fg4_generated with ex_intro _ js (conj E (conj Hj _)) =>
    ex_intro _ fg4 (ex_intro _ 100 (ex_intro _ js (ex_intro _ fg4_j (conj (proj1 fg4_valid) (conj (proj2 fg4_valid) (conj E (conj Hj (conj eq_refl
      (ex_intro _ 0 (ex_intro _ [3; 15] (ex_intro _ [4; 0] (ex_intro _ fg4_X1 (ex_intro _ fg4_X2 (ex_intro _ [0; 0; -1; 0]%Z (conj eq_refl fg4_pair)))))))))))))))
  end).
Qed.
Print Assumptions C24_least_depth_refuted.
(** ... and get_depth() of it is 3 although depth 2 is enough for all pairs. *)
Theorem C24_get_depth_refuted : exists c fuel, valid_curve c /\ check c = Some true /\ get_depth fuel c = Some 3 /\
  forall p cnums1 cnums2 X1 X2 dx, neighbours c p cnums1 cnums2 X1 X2 dx ->
  exists q cnums3 cnums4 Y1 Y2 dy, length cnums3 <= 2 /\ neighbours c q cnums3 cnums4 Y1 Y2 dy /\ isometric (cv_dim c) X1 X2 dx Y1 Y2 dy.
Proof.
  exact (match fg4_generated with ex_intro _ js (conj E (conj Hj Hd)) =>
    ex_intro _ fg4 (ex_intro _ 100 (conj (proj1 fg4_valid) (conj (proj2 fg4_valid) (conj Hd fg4_two)))) end).
Qed.
Print Assumptions C24_get_depth_refuted.

(** The hypotheses hold for a bifractal curve of the zoo: 6 junctions, the enumeration ends. *)
Example C22_24_example : let c := curve_or zoo_beta_omega in
  valid_curve c /\ check c = Some true /\ snd (gen_regular_junctions 100 c) = GDone /\
  length (fst (gen_regular_junctions 100 c)) = 6 /\ get_depth 100 c = Some 2.
Proof. split; [apply valid_curveb_ok; vm_compute; reflexivity|]. vm_compute. auto. Qed.
