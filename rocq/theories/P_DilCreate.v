(** The initial tree covers all pairs of moments. *)
From Verif Require Import Py L_Py L_Qc L_R M_BaseMaps S_BaseMaps L_BaseMaps P_Actions M_Subsets S_Subsets P_Subsets P_Facets
  M_Paths M_Curves M_Utils M_Heap M_Sat M_Dilation S_Heap P_Heap S_Utils S_Curves S_Fuzzy P_CurveAct L_Digits P_Core P_Bridge P_Cont P_Subdiv P_Faces P_FuzzyInit P_FuzzyOps P_FuzzyBuilt
  S_Ratio S_Dilation P_Junctions P_DilGeo P_DilRatio P_DilBounds P_DilPieces P_DilTree P_DilOps.
From Coq Require Import Reals Lra Permutation.
Local Open Scope nat_scope.

Section Create.
Context (ratio : ratio_func) (rR : list R -> R -> R) (c0 : curve) (HD : dcls c0) (RO : ratio_ok (cv_dim c0) (ratio (cv_dim c0)) rR).
Context (js : list junction) (HJS : forall j, In j js -> wft (core_of c0) (jt j) /\ j_dt j = 1%Z).
Context (st : stash) (HST : points_ok c0 st).
Context (hq : heap_impl bpair) (is_heap : list (node bpair) -> Prop) (HH : IH_ok hq is_heap) (b : option Qc) (keep : bool).
Notation K := (core_of c0). Notation G := (cv_genus c0). Notation d := (cv_dim c0).
Definition all_juncs (j : junction) : Prop := In j (gen_auto_junctions c0) \/ In j js.
Lemma auto_in j : In j (gen_auto_junctions c0) <-> exists p, p < cv_mult c0 /\ j = auto_junction d p.
Proof. unfold gen_auto_junctions. rewrite in_map_iff. unfold range. split; intros (p & H1 & H2); exists p; [apply in_seq in H2; split; [lia|auto]|split; auto; apply in_seq; lia]. Qed.
Lemma auto_jt p : jt (auto_junction d p) = auto_tri K p. Proof. reflexivity. Qed.
Lemma juncs_wft j : all_juncs j -> wft K (jt j).
Proof. intros [H|H]; [|apply HJS; auto]. apply auto_in in H as (p & Hp & ->). rewrite auto_jt. apply auto_wf. auto. Qed.
Let HV : valid_fuzzy c0 := proj1 HD.
Let HF : core_full K := core_of_full c0 HV.
Let HK : core_ok K := full_ok K HF.
Lemma pair_data_in j k1 k2 : In (j, k1, k2) (pair_data c0 js) <->
  (In j (gen_auto_junctions c0) /\ k1 + 2 <= k2 < G) \/
  (In j js /\ k1 < G /\ k2 < G /\ (kflip K (sp_bm (j_spec1 j)) k1, kflip K (sp_bm (j_spec2 j)) k2) <> (G - 1, 0)).
Proof.
  unfold pair_data. pose proof (G_pos c0 HV) as HG. rewrite in_app_iff, !in_flat_map. apply or_iff_compat2 || idtac. split.
  - intros [(j' & Hj & H)|(j' & Hj & H)].
    + left. apply in_flat_map in H as (k & Hk & H). apply in_map_iff in H as (k' & E & Hk'). injection E as -> -> ->. apply in_seq in Hk'. split; auto. lia.
    + right. apply in_map_iff in H as ([a a'] & E & H). cbn [fst snd] in E. injection E as -> -> ->. apply filter_In in H as [H HN]. apply in_prod_iff in H as [H1 H2]. unfold range in *. apply in_seq in H1, H2.
      split; auto. split; [lia|]. split; [lia|]. intros E. apply negb_true_iff in HN. unfold pc_eqb in HN. cbn [fst snd] in HN. injection E as E1 E2. unfold kflip in E1, E2. rewrite kG_genus in *.
      destruct (time_rev (sp_bm (j_spec1 j))), (time_rev (sp_bm (j_spec2 j))); apply andb_false_iff in HN as [HN|HN]; apply Nat.eqb_neq in HN; lia.
  - intros [(Hj & H)|(Hj & H1 & H2 & HN)].
    + left. exists j. split; auto. apply in_flat_map. exists k1. split; [unfold range; apply in_seq; lia|]. apply in_map_iff. exists k2. split; auto. apply in_seq. lia.
    + right. exists j. split; auto. apply in_map_iff. exists (k1, k2). split; auto. apply filter_In. split; [apply in_prod; unfold range; apply in_seq; lia|]. apply negb_true_iff. unfold pc_eqb. cbn [fst snd].
      apply andb_false_iff. destruct (Nat.eq_dec k1 (if time_rev (sp_bm (j_spec1 j)) then 0 else G - 1)) as [E1|E1]; [|left; apply Nat.eqb_neq; auto].
      right. apply Nat.eqb_neq. intros E2. apply HN. unfold kflip. rewrite kG_genus. destruct (time_rev (sp_bm (j_spec1 j))), (time_rev (sp_bm (j_spec2 j))); f_equal; lia.
Qed.
Lemma init_ok j k1 k2 : In (j, k1, k2) (pair_data c0 js) -> exists P, init_first_order c0 j k1 k2 = Some P /\ pair_ok c0 all_juncs P /\
  pp_curve P = c0 /\ pp_junc P = j /\ po_cnums (pp_pos1 P) = [k1] /\ po_cnums (pp_pos2 P) = [k2].
Proof.
  intros Hin. apply pair_data_in in Hin. assert (HA : all_juncs j) by (destruct Hin as [(H & _)|(H & _)]; [left|right]; auto).
  pose proof (juncs_wft j HA) as (W1 & W2 & _). cbn [jt fst snd] in W1, W2.
  assert (HP : forall X k, wfS K X -> k < G -> first_pos c0 (sp_pnum X) k = Some (Pos d (cv_div c0) [k] [kcube K (sp_pnum X) k])).
  { intros X k HX Hk. unfold first_pos. destruct (nth_pat c0 HV (sp_pnum X) (proj2 HX)) as (pat & Ep & _). rewrite Ep. destruct (nth_cube c0 HV _ k _ Ep Hk) as [Ec _]. rewrite Ec. auto. }
  assert (HO : forall X k, wfS K X -> k < G -> piece_ok c0 (sp_pnum X) (Pos d (cv_div c0) [k] [kcube K (sp_pnum X) k])).
  { intros X k HX Hk. split; [apply HX|]. split.
    - split; [reflexivity|]. split; [reflexivity|]. split; [repeat constructor; auto|]. cbn [po_cubes po_cnums kcubes]. f_equal. unfold kcb. cbn [sp_bm sp_pnum]. rewrite kflip_id_map. symmetry. apply (apply_cube_id d).
      destruct (ok_cube K HK (sp_pnum X) k (proj2 HX) Hk) as [HL _]. exact HL.
    - exists [], k. cbn. auto. }
  assert (Hk : k1 < G /\ k2 < G) by (destruct Hin as [(_ & H)|(_ & H)]; lia). destruct Hk as [Hk1 Hk2].
  unfold init_first_order. rewrite !HP by auto. eexists. split; [reflexivity|]. split; [|repeat split].
  split; [apply ref_refl|]. cbn [pp_curve pp_junc pp_pos1 pp_pos2 po_depth po_cnums length]. split; auto. split; [apply HO; auto|]. split; [apply HO; auto|]. split; [left; reflexivity|].
  exists k1, [], k2, []. split; auto. split; auto. unfold apart_first. destruct Hin as [(H & Hlt)|(H & _ & _ & HN)].
  - apply auto_in in H as (p & Hp & ->). cbn. rewrite !kflip_id. lia.
  - destruct (HJS j H) as [_ ->]. pose proof (kflip_lt K (sp_bm (j_spec1 j)) k1 Hk1). pose proof (kflip_lt K (sp_bm (j_spec2 j)) k2 Hk2). rewrite kG_genus in *.
    destruct (Nat.eq_dec (kflip K (sp_bm (j_spec1 j)) k1) (G - 1)) as [E1|E1]; [|lia]. destruct (Nat.eq_dec (kflip K (sp_bm (j_spec2 j)) k2) 0) as [E2|E2]; [|lia]. exfalso. apply HN. congruence.
Qed.
Context (fuel : nat) (HJR : regular_junctions fuel c0 = Some js).
Notation handled := (handled rR).
Notation tree_ok := (tree_ok rR c0 all_juncs is_heap b keep).
Lemma create_ok g : exists t, create_tree ratio hq fuel c0 g b keep st = Some t /\ tree_ok t /\ bh_good_thr t = g /\ (keep = true -> pair_data c0 js <> [] -> exists m, bh_max t = Some m) /\
  forall j k1 k2 x s u t0 w, In (j, k1, k2) (pair_data c0 js) -> chosen_from c0 x ->
    kq (core_of x) (jt j) [kflip K (sp_bm (j_spec1 j)) k1] [kflip K (sp_bm (j_spec2 j)) k2] s u t0 w -> handled t x j s u t0 w.
Proof.
  unfold create_tree. rewrite HJR.
  destruct (push_list ratio rR c0 HD RO all_juncs juncs_wft st HST hq is_heap HH b keep (fun jcc => init_first_order c0 (fst (fst jcc)) (snd (fst jcc)) (snd jcc)) (pair_data c0 js) (bh_new g b keep)) as (t & A1 & A2 & A3 & A4 & A5 & A6 & A7 & A8).
  - exact (new_ok rR c0 all_juncs hq is_heap HH b keep g).
  - intros [[j k1] k2] Hin. cbn [fst snd]. destruct (init_ok j k1 k2 Hin) as (P & E & HP & _). eauto.
  - exists t. split; [exact A1|]. split; auto. split; [exact A3|]. split; auto. intros j k1 k2 x s u t0 w Hin Hx HQ. destruct (init_ok j k1 k2 Hin) as (P & E & HP & Ec & Ej & E1 & E2).
    rewrite <- Ej. eapply (A7 (j, k1, k2) P); [auto|exact E|congruence|]. unfold pair_kq, jcs1, jcs2. rewrite Ej, E1, E2. cbn [map].
    rewrite !(sub_flip c0 x (chosen_sub c0 x HD Hx)). exact HQ.
Qed.
(** Every pair of moments of a curve chosen from c0 is accounted for. *)
Lemma create_covers t x (Jx : junction -> Prop) : chosen_from c0 x ->
  (forall j k1 k2 s u t0 w, In (j, k1, k2) (pair_data c0 js) ->
    kq (core_of x) (jt j) [kflip K (sp_bm (j_spec1 j)) k1] [kflip K (sp_bm (j_spec2 j)) k2] s u t0 w -> handled t x j s u t0 w) ->
  (forall p cs cs', p < cv_mult x -> consec (core_of x) cs cs' -> exists j, In j js /\ Jx j /\ jeq (cv_dim x) (kpair (core_of x) p cs cs') (jt j)) ->
  forall p s u t0 w, p < cv_mult x -> kgraph (core_of x) (Sp (id_map (cv_dim x)) p) s u -> kgraph (core_of x) (Sp (id_map (cv_dim x)) p) t0 w -> (s < t0)%R ->
  exists j s' u' t' w', (In j (gen_auto_junctions c0) \/ In j js /\ Jx j) /\ handled t x j s' u' t' w' /\ jrho rR x j s' u' t' w' = rR (diffs (cv_dim x) u w) (t0 - s)%R.
Proof.
  intros Hx Hh HJx p s u t0 w Hp HA HB Hst. pose proof (dcls_chosen c0 x HD Hx) as HCx. pose proof (core_of_full x (valid_curve_fuzzy x HCx)) as HFx. pose proof (chosen_sub c0 x HD Hx) as HS.
  pose proof HS as (Ed & EN & Em & _). assert (ROx : ratio_ok (kd (core_of x)) (ratio (cv_dim c0)) rR) by (cbn [kd core_of]; rewrite Ed; auto).
  destruct (apart_rep (core_of x) HFx _ rR ROx (fun tr => exists j, In j js /\ Jx j /\ jt j = tr) p s u t0 w) as (k1 & k2 & s' & u' & t' & w' & H1 & H2 & HR); auto.
  { intros q cs cs' Hq HC. destruct (HJx q cs cs' Hq HC) as (j & Hj1 & Hj2 & Hj3). exists (jt j). split; eauto. }
  rewrite (sub_G c0 x HS), kG_genus in *. destruct HR as [(q & Hq & Hlt & HQ & ER)|(tr & (j & Hj1 & Hj2 & <-) & HN & HQ & ER)].
  - exists (auto_junction d q), s', u', t', w'. assert (Hin : In (auto_junction d q) (gen_auto_junctions c0)) by (apply auto_in; exists q; split; auto; cbn [km core_of] in Hq; lia). split; auto. split.
    + apply (Hh (auto_junction d q) k1 k2); [apply pair_data_in; left; split; auto; lia|]. cbn [j_spec1 j_spec2 auto_junction sp_bm]. rewrite !kflip_id. rewrite auto_jt. unfold auto_tri in *. cbn [kd core_of] in *. rewrite Ed in HQ. exact HQ.
    + unfold jrho. cbn [j_dt j_dx auto_junction]. cbn [kd core_of] in ER. rewrite !Ed in ER. rewrite Ed. exact ER.
  - exists j, s', u', t', w'. split; auto. destruct (HJS j Hj1) as [_ Edt]. split.
    + assert (B1 : kflip K (sp_bm (j_spec1 j)) (kflip K (sp_bm (j_spec1 j)) k1) = k1) by (apply kflip_flip; auto). assert (B2 : kflip K (sp_bm (j_spec2 j)) (kflip K (sp_bm (j_spec2 j)) k2) = k2) by (apply kflip_flip; auto).
      apply (Hh j (kflip K (sp_bm (j_spec1 j)) k1) (kflip K (sp_bm (j_spec2 j)) k2)).
      * apply pair_data_in. right. split; auto. split; [apply (kflip_lt K); auto|]. split; [apply (kflip_lt K); auto|]. rewrite B1, B2. auto.
      * rewrite B1, B2. exact HQ.
    + unfold jrho. rewrite Edt. exact ER.
Qed.
End Create.
