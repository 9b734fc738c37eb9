(** The possible curves of the path fuzzy curves a user can build. *)
From Verif Require Import Py L_Py L_Qc M_BaseMaps S_BaseMaps L_BaseMaps P_Actions P_GenMaps M_Subsets S_Subsets P_Subsets P_Points
  M_Paths M_Utils M_Curves S_Utils S_Curves S_Paths S_Fuzzy P_CurveAct P_Core P_Bridge P_Paths P_Entrance P_Cont P_Check P_Subdiv P_Fuzzy P_FuzzyInit P_FuzzyCurves P_FuzzyMain P_FuzzyOps.
From Coq Require Import Lia.
Local Open Scope nat_scope.

Lemma flip_lt b G k : k < G -> flip_num b G k < G. Proof. unfold flip_num. destruct (time_rev b); lia. Qed.
Lemma flip_inv b G k : k < G -> flip_num b G (flip_num (bm_inv b) G k) = k.
Proof. unfold flip_num. rewrite inv_time_rev. destruct (time_rev b); lia. Qed.
(** multiplication of a curve and of the curves chosen from it *)
Lemma mul_chosen c x b q : valid_fuzzy c -> path_data_ok c -> valid_curve x -> wf_bm (cv_dim c) b -> chosen_from c x -> chosen_from (cv_mul b q c) (cv_mul b q x).
Proof.
  intros V D VX Hb (K1 & K2 & K3 & K4 & K5 & K6 & K7). assert (EG : cv_genus x = cv_genus c) by (unfold cv_genus; congruence).
  assert (EM : cv_mult x = cv_mult c) by (unfold cv_mult; rewrite <- (map_length pat_proto (cv_pats x)), K5, map_length; auto).
  assert (EGm : cv_genus (cv_mul b q c) = cv_genus c) by (unfold cv_genus; rewrite cv_dim_mul, cv_div_mul; auto).
  unfold chosen_from. rewrite EGm, !cv_dim_mul, !cv_div_mul, !cv_pnum_mul, !cv_mult_mul. split; [rewrite cv_mul_eq; cbn; rewrite K1; auto|]. repeat (split; auto).
  - rewrite !cv_mul_eq. cbn [cv_pats]. rewrite !map_map. cbn [pat_mul pat_proto]. rewrite <- (map_map pat_proto (pr_mul b) (cv_pats x)), K5, map_map. auto.
  - rewrite !cv_mul_eq. cbn [cv_pats]. rewrite Forall_map. eapply Forall_impl; [|exact K6]. intros pat HL. cbn [pat_mul pat_specs]. rewrite map_length. destruct (time_rev b); rewrite ?rev_length; auto.
  - intros p k Hp Hk. destruct (K7 p (flip_num b (cv_genus c) k) Hp (flip_lt b _ k Hk)) as (s & l & A & B & C).
    exists (sp_conj s (cube_map b)), (map (fun s => sp_conj s (cube_map b)) l). rewrite (allowed_mul c V D b Hb q p k Hp Hk), B. split; [|split; [auto|apply in_map_iff; eauto]].
    rewrite (get_spec_mul x (valid_curve_fuzzy x VX) b q p k) by lia. rewrite EG, A. auto.
Qed.

Section Built.
Context (d N : nat) (group : option (list base_map)) (dtr : bool) (paths : list (path (list Qc))).
Context (HG : valid_group d group) (HP : valid_paths d N paths).
Lemma built_variants c : built group dtr paths c -> exists vs, all_variants c = Some vs.
Proof.
  intros HB. destruct (built_good d N group dtr paths HG HP c HB) as (V & D & E1 & E2 & E3 & E4 & A). apply omap_some_all. intros [p k] Hin. apply in_prod_iff in Hin. unfold range in Hin. rewrite !in_seq in Hin. cbn.
  destruct (A p k) as (l & H & _); [lia|lia|]. eauto.
Qed.
Theorem built_possible c : built group dtr paths c ->
  exists l, gen_possible_curves c = Some l /\ NoDup l /\ count_possible_curves c = Some (length l) /\ l <> [] /\ forall x, In x l <-> chosen_from c x.
Proof.
  intros HB. destruct (built_variants c HB) as (vs & HV). destruct (built_good d N group dtr paths HG HP c HB) as (V & D & E1 & E2 & E3 & E4 & A).
  destruct (possible_exact c vs HV) as (l & E & H). exists l. split; auto. split; [|split; [apply (count_exact c vs HV); auto|split; auto]].
  - apply (possible_nodup c vs HV l E). intros p k a Hp Hk Ha. destruct (A p k Hp Hk) as (l' & A1 & A2 & _). congruence.
  - intros ->. unfold gen_possible_curves in E. rewrite HV in E. cbn in E. injection E as E. apply map_eq_nil in E.
    assert (HL : exists y, In y (lprod vs)).
    { assert (HN : forall v, In v vs -> v <> []).
      { intros v Hv. apply In_nth_error in Hv as (i & Hi). destruct (omap_nth' _ _ _ _ _ HV Hi) as ([p k] & A' & B). apply nth_error_In in A'. apply in_prod_iff in A'. unfold range in A'. rewrite !in_seq in A'. cbn in B.
        destruct (A p k) as (l' & B1 & _ & B2 & _); [lia|lia|]. congruence. }
      clear -HN. induction vs as [|v vs IH]; [exists []; cbn; auto|]. destruct IH as (y & Hy); [intros v' Hv'; apply HN; right; auto|].
      destruct v as [|a v]; [exfalso; apply (HN []); [left|]; auto|]. exists (a :: y). apply In_lprod. constructor; [left; auto|]. apply In_lprod in Hy. auto. }
    destruct HL as (y & Hy). rewrite E in Hy. destruct Hy.
Qed.
Theorem built_chosen_valid c x : built group dtr paths c -> chosen_from c x -> valid_curve x.
Proof.
  intros HB Hx. destruct (built_good d N group dtr paths HG HP c HB) as (V & D & E1 & E2 & E3 & E4 & A). apply (chosen_valid c); auto. intros p k l s Hp Hk El Hs.
  destruct (A p k Hp Hk) as (l' & A1 & _ & _ & A2). rewrite E1. apply A2. congruence.
Qed.
Theorem built_mul_possible c b q x : built group dtr paths c -> wf_bm d b -> q < cv_mult c ->
  (chosen_from (cv_mul b q c) x <-> exists y, chosen_from c y /\ x = cv_mul b q y).
Proof.
  intros HB Hb Hq. pose proof HB as HB0. destruct (built_good d N group dtr paths HG HP c HB) as (V & D & E1 & E2 & E3 & E4 & A). rewrite <- E1 in Hb. split.
  - intros Hx. assert (HB' : built group dtr paths (cv_mul b q c)) by (apply (built_mul group dtr paths c b q); auto).
    pose proof (built_chosen_valid _ x HB' Hx) as VX. destruct (built_good d N group dtr paths HG HP _ HB') as (V' & D' & E1' & _).
    assert (EX : cv_dim x = cv_dim c) by (destruct Hx as (_ & -> & _); apply cv_dim_mul).
    assert (EQ : cv_pnum x = q) by (destruct Hx as (_ & _ & _ & -> & _); apply cv_pnum_mul).
    exists (cv_mul (bm_inv b) (cv_pnum c) x). split.
    + assert (EC : c = cv_mul (bm_inv b) (cv_pnum c) (cv_mul b q c)).
      { rewrite cv_mul_mul by auto using wf_inv, valid_fuzzy_shape. rewrite (mul_inv_l (cv_dim c)) by auto. rewrite cv_mul_id by auto using valid_fuzzy_shape. symmetry. apply cv_with_pnum_same. }
      rewrite EC at 1. apply mul_chosen; auto. rewrite cv_dim_mul. apply wf_inv; auto.
    + rewrite cv_mul_mul; rewrite ?EX; auto using wf_inv, valid_fuzzy_shape, valid_curve_fuzzy. rewrite (mul_inv_r (cv_dim c)) by auto. rewrite <- EX.
      rewrite cv_mul_id by auto using valid_fuzzy_shape, valid_curve_fuzzy. rewrite <- EQ. symmetry. apply cv_with_pnum_same.
  - intros (y & Hy & ->). apply mul_chosen; auto. apply (built_chosen_valid c); auto.
Qed.
(** a curve keeps passing the check when multiplied *)
Lemma check_mul x b q : valid_curve x -> wf_bm (cv_dim x) b -> q < cv_mult x -> check x = Some true -> check (cv_mul b q x) = Some true.
Proof.
  intros VX Hb Hq E. apply (check_single _ (valid_curve_mul b q x Hb Hq VX)). intros p t y y' Hp Hy Hy'. rewrite cv_mult_mul in Hp.
  assert (EP : pattern_curve (cv_mul b q x) p = cv_mul_sp (Sp b p) x) by (unfold pattern_curve, cv_mul_sp; cbn [sp_bm sp_pnum]; rewrite !cv_mul_eq; reflexivity).
  rewrite EP in Hy, Hy'. assert (W : wfS (core_of x) (Sp b p)) by (split; auto). apply (graph_kgraph x VX) in Hy, Hy'; auto.
  apply (kunique (core_of x) (full_ok _ (core_of_full x (valid_curve_fuzzy x VX))) (check_kcont x VX E) (Sp b p) t); auto.
Qed.
Theorem built_check c x : (forall p, In p paths -> joined_path p) -> built group dtr paths c -> chosen_from c x -> check x = Some true.
Proof.
  intros HJ HB. revert x. induction HB as [c EC|c b q HB IH Hb Hq|c p k s c' HB IH ES]; intros x Hx.
  - apply (chosen_check d N group dtr paths HG HP c EC x Hx HJ).
  - destruct (built_good d N group dtr paths HG HP c HB) as (V & D & E1 & E2 & E3 & E4 & A). unfold cv_mul_sp in Hx. cbn [sp_bm sp_pnum] in Hx.
    apply built_mul_possible in Hx as (y & Hy & ->); [|auto|rewrite <- E1; auto|auto]. pose proof (built_chosen_valid c y HB Hy) as VY. pose proof Hy as (_ & Y2 & _ & _ & Y5 & _).
    apply check_mul; auto; [congruence|]. unfold cv_mult. rewrite <- (map_length pat_proto), Y5, map_length. auto.
  - destruct (built_good d N group dtr paths HG HP c HB) as (V & D & E1 & E2 & E3 & E4 & A). apply IH.
    assert (HS : exists l, gen_allowed_specs c p k = Some l /\ In s l).
    { unfold specify in ES. destruct (gen_allowed_specs c p k) as [l|]; [|discriminate]. destruct (memb spec_eqb s l) eqn:EMB; [|discriminate]. apply (memb_In _ spec_eqb_ok) in EMB. eauto. }
    destruct HS as (l & EL & Hin). assert (Hpk : p < cv_mult c /\ k < cv_genus c).
    { unfold gen_allowed_specs in EL. destruct (get_spec c p k) as [os|] eqn:EG'; [|destruct (cv_kind c); discriminate]. unfold get_spec in EG'.
      destruct (nth_error (cv_pats c) p) as [pat|] eqn:EP; [|discriminate]. split; [unfold cv_mult; apply nth_error_Some; congruence|].
      destruct V as (_ & _ & _ & _ & HF). rewrite Forall_forall in HF. destruct (HF pat (nth_error_In _ _ EP)) as (_ & HL & _). unfold cv_genus. rewrite <- HL. apply nth_error_Some. congruence. }
    apply (specify_chosen c p k s c' x (proj1 Hpk) (proj2 Hpk) ES). auto.
Qed.
End Built.
