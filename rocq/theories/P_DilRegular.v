(** Estimator.estimate_dilation_regular. *)
From Verif Require Import Py L_Py L_Qc L_R M_BaseMaps S_BaseMaps L_BaseMaps P_Actions M_Subsets S_Subsets P_Subsets P_Facets P_Combi
  M_Paths M_Curves M_Utils M_Heap M_Sat M_Dilation S_Heap P_Heap S_Utils S_Curves S_Fuzzy P_CurveAct L_Digits P_Core P_Bridge P_Cont P_Subdiv P_Faces P_FuzzyInit P_FuzzyOps P_FuzzyBuilt
  S_Ratio S_Dilation P_Junctions P_JuncLoop P_JuncMain P_DilGeo P_DilRatio P_DilBounds P_DilPieces P_DilTree P_DilOps P_DilCreate.
From Coq Require Import Reals Lra Permutation.
Local Open Scope nat_scope.

Lemma cp_eqb_ok : eqb_ok cp_eqb.
Proof.
  intros [x s] [y t]. unfold cp_eqb. cbn [fst snd]. rewrite andb_true_iff. split.
  - intros [H1 H2]. apply pt_eqb_ok in H1. apply Qc_eq_bool_correct in H2. congruence.
  - intros E. injection E as -> ->. split; [apply pt_eqb_ok; auto|]. unfold Qc_eq_bool. destruct (Qc_eq_dec t t); auto.
Qed.
Lemma omap_all {A B} (f : A -> option B) (Q : B -> Prop) l : (forall a, In a l -> exists b, f a = Some b /\ Q b) -> exists r, omap f l = Some r /\ Forall Q r /\ length r = length l.
Proof.
  induction l as [|a l IH]; intros H; [exists []; cbn; auto|]. destruct (H a (or_introl eq_refl)) as (b & E & Hb). destruct IH as (r & Er & Fr & Lr); [intros; apply H; right; auto|].
  exists (b :: r). cbn. rewrite E, Er. cbn. auto.
Qed.
Lemma face_points_ok c fd : valid_curve c -> fd <= cv_dim c -> exists pts, face_points c fd = Some pts /\ points_ok c (Some pts).
Proof.
  intros HC Hfd. unfold face_points. destruct (gen_faces_exact (cv_dim c) fd Hfd) as (fs & -> & _ & Hin).
  set (f := fun p => option_map _ _). unfold range.
  assert (A : forall p, p < cv_mult c -> exists l, f p = Some l /\ Forall (qpt (core_of c) (Sp (id_map (cv_dim c)) p)) l).
  { intros p Hp. unfold f. destruct (omap_all (fun fl => get_face_moment_point c (fst fl) (Some p) (snd fl)) (qpt (core_of c) (Sp (id_map (cv_dim c)) p)) (list_prod fs [false; true])) as (r & E & F & _).
    - intros [face lst] Hi. apply in_prod_iff in Hi as [Hi _]. apply Hin in Hi. cbn [fst snd].
      destruct (face_moment_ok c HC face) with (lst := lst) (p := p) as (x & t & _ & E & Hg & _); auto.
      { split; [apply Hi|]. apply Hi. }
      exists (x, t). split; auto. unfold qpt. cbn [fst snd]. apply (graph_pattern c HC); auto.
    - rewrite E. eexists. split; [reflexivity|]. rewrite Forall_forall in *. intros y Hy. apply F. apply (In_dedup cp_eqb cp_eqb_ok r y). exact (Permutation_in _ (sorted_perm cp_cmp (dedup cp_eqb r)) Hy). }
  assert (B : forall n m, (forall p, m <= p < m + n -> p < cv_mult c) -> exists pts, omap f (seq m n) = Some pts /\ length pts = n /\ forall p l, nth_error pts p = Some l -> f (m + p) = Some l).
  { induction n as [|n IH]; intros m Hm; [exists []; cbn; split; auto; split; auto; intros [|p] l; discriminate|].
    destruct (A m) as (l0 & E0 & _); [apply Hm; lia|]. destruct (IH (S m)) as (pts & E & L & H); [intros p Hp; apply Hm; lia|]. exists (l0 :: pts). cbn [seq omap]. cbn in E. rewrite E0. cbn. rewrite E. cbn. split; auto. split; [lia|].
    intros [|p] l Hp; cbn in Hp; [injection Hp as <-; rewrite Nat.add_0_r; auto|]. rewrite <- Nat.add_succ_comm. apply H; auto. }
  destruct (B (cv_mult c) 0) as (pts & E & L & H); [intros; lia|]. exists pts. split; auto. split; auto. split; auto. intros p l Hl. destruct (A p) as (l' & E' & F'); [rewrite <- L; apply nth_error_Some; congruence|].
  pose proof (H p l Hl) as E2. cbn in E2. congruence.
Qed.

Section Regular.
Context (ratio : ratio_func) (rR : list R -> R -> R) (c0 : curve) (HC : valid_curve c0) (RO : ratio_ok (cv_dim c0) (ratio (cv_dim c0)) rR).
Context (hq : heap_impl bpair) (is_heap : list (node bpair) -> Prop) (HH : IH_ok hq is_heap).
Let HD : dcls c0 := dcls_curve c0 HC.
Let HV : valid_fuzzy c0 := proj1 HD.
Let HF : core_full (core_of c0) := core_of_full c0 HV.
Context (js : list junction) (HG : Forall (genuine c0) js)
  (HCov : forall p cs cs', p < cv_mult c0 -> consec (core_of c0) cs cs' -> exists j, In j js /\ jeq (cv_dim c0) (kpair (core_of c0) p cs cs') (jt j)).
Notation K := (core_of c0).
Lemma js_wft j : In j js -> wft K (jt j) /\ j_dt j = 1%Z.
Proof. rewrite Forall_forall in HG. intros Hj. specialize (HG j Hj). split; [apply (genuine_wf c0 HC); auto|]. apply HG. Qed.
Notation AJ := (all_juncs c0 js).
Lemma juncs_cfg j : AJ j -> cfg K (jt j) (j_dt j).
Proof.
  intros [H|H].
  - apply auto_in in H as (p & Hp & ->). right. split; auto. exists p. split; auto.
  - left. destruct (js_wft j H) as [_ E]. split; auto. rewrite Forall_forall in HG. destruct (HG j H) as (_ & p & cs & cs' & Hp & Hc & _ & He). exists p, cs, cs'. auto.
Qed.
Notation tree_ok := (tree_ok rR c0 AJ is_heap None true).
Notation item_ok := (item_ok rR c0 AJ).
Notation handled := (handled rR).
Lemma item_self i : item_ok i -> chosen_from (pp_curve (bp_pair i)) c0.
Proof. intros [HP _]. rewrite (refines_curve c0 _ HC (proj1 HP)). apply chosen_self. auto. Qed.
Lemma item_nil i s u t w : item_ok i -> pair_kq (bp_pair i) c0 s u t w -> kq K (jt (pp_junc (bp_pair i))) [] [] s u t w.
Proof.
  intros [HP HB] HQ. pose proof HP as (HR & Hj & P1 & P2 & _). pose proof (refines_curve c0 _ HC HR) as E.
  rewrite E in P1, P2. destruct P1 as (_ & (_ & _ & W1 & _) & _). destruct P2 as (_ & (_ & _ & W2 & _) & _).
  exact (kq_up K HF _ _ _ s u t w (juncs_wft c0 js js_wft _ Hj) (wfc_flip K (sp_bm (j_spec1 (pp_junc (bp_pair i)))) _ W1) (wfc_flip K (sp_bm (j_spec2 (pp_junc (bp_pair i)))) _ W2) HQ).
Qed.
Lemma item_ge i : item_ok i -> dilation_ge rR c0 (qR (bp_lo i)).
Proof.
  intros Hi. pose proof Hi as [HP HB]. destruct (HB c0 (item_self i Hi)) as (B1 & (s & u & t & w & HQ & HL) & _). destruct (B1 _ _ _ _ HQ) as [Hlt _].
  assert (Hj : AJ (pp_junc (bp_pair i))) by apply HP. pose proof (cfg_real K HF _ rR RO _ _ s u t w (juncs_cfg _ Hj) (item_nil i s u t w Hi HQ) Hlt) as (p & s' & t' & u' & w' & Hp & A1 & A2 & A3 & A4).
  exists p, s', t', u', w'. split; auto. split; [apply (graph_pattern c0 HC); auto|]. split; [apply (graph_pattern c0 HC); auto|]. split; auto. cbn [kd core_of] in A4. rewrite A4. exact HL.
Qed.
(** what an argmax says *)
Definition argmax_at (lo : Qc) (a : argmax) : Prop :=
  let j := am_junc a in AJ j /\ exists w, graph (cv_mul_sp (j_spec1 j) c0) (qR (am_t1 a)) (map qR (am_x1 a)) /\ graph (cv_mul_sp (j_spec2 j) c0) (qR (am_t2 a) - IZR (j_dt j)) w /\
    length (am_x2 a) = cv_dim c0 /\ (forall i, (i < cv_dim c0)%nat -> nth i (map qR (am_x2 a)) 0 = nth i w 0 + IZR (nth i (j_dx j) 0%Z))%R /\
    (qR (am_t1 a) < qR (am_t2 a))%R /\ qR lo = rR (diffs (cv_dim c0) (map qR (am_x1 a)) (map qR (am_x2 a))) (qR (am_t2 a) - qR (am_t1 a))%R.
Lemma item_argmax i a : item_ok i -> bp_argmax i = Some a -> argmax_at (bp_lo i) a.
Proof.
  intros Hi Ea. pose proof Hi as [HP HB]. destruct (HB c0 (item_self i Hi)) as (B1 & _ & B3). destruct (B3 a Ea) as (s & u & t & w & HQ & EL & (Ej & _ & _ & Es & Eu & Et & Lw & Ew)). destruct (B1 _ _ _ _ HQ) as [Hlt _].
  assert (Hj : AJ (pp_junc (bp_pair i))) by apply HP. unfold argmax_at. rewrite Ej. split; auto. exists w. pose proof (item_nil i s u t w Hi HQ) as HN. unfold jt in HN. destruct HN as [N1 N2].
  pose proof (juncs_wft c0 js js_wft _ Hj) as (W1 & W2 & _). apply (kpt_nil K) in N1; auto. apply (kpt_nil K) in N2; auto.
  rewrite Es, Eu, Et. replace (t + IZR (j_dt (pp_junc (bp_pair i))) - IZR (j_dt (pp_junc (bp_pair i))))%R with t by lra.
  split; [apply (graph_kgraph c0 HC); auto|]. split; [apply (graph_kgraph c0 HC); auto|]. split; auto. split; auto. split; auto.
  rewrite EL. unfold jrho, rho. f_equal. unfold diffs_shifted, diffs. apply map_ext_in. intros k Hk. apply in_seq in Hk. rewrite Ew by (cbn in *; lia). auto.
Qed.
Definition covers (t : tree) : Prop :=
  forall p s u t0 w, p < cv_mult c0 -> kgraph K (Sp (id_map (cv_dim c0)) p) s u -> kgraph K (Sp (id_map (cv_dim c0)) p) t0 w -> (s < t0)%R ->
  exists j s' u' t' w', handled t c0 j s' u' t' w' /\ jrho rR c0 j s' u' t' w' = rR (diffs (cv_dim c0) u w) (t0 - s)%R.
Lemma top_le t lo top : tree_ok t -> bh_good_thr t = Some lo -> covers t -> bh_top t = Some top -> dilation_le rR c0 (qR (bp_up top)).
Proof.
  intros Ht Eg HCv Etop p s t0 u w Hp HA HB Hst. apply (graph_pattern c0 HC) in HA, HB; auto. destruct (HCv p s u t0 w Hp HA HB Hst) as (j & s' & u' & t' & w' & Hh & ER).
  destruct (top_ok rR c0 AJ hq is_heap HH None true t Ht) as [T1 T2]. destruct (bh_items t) as [|i0 l] eqn:EI; [rewrite (T1 eq_refl) in Etop; discriminate|]. destruct T2 as (top' & Etop' & Hin & HM); [congruence|].
  assert (top' = top) by congruence. subst top'. rewrite <- EI in *. destruct Ht as (_ & Hact & _ & Hok & Hbad). rewrite <- ER. destruct Hh as [(g & Eg' & Hg)|(i & Hi & (Hj & Hx & HQ))].
  - assert (g = lo) by congruence. subst g. specialize (Hact top Hin). unfold activeb in Hact. rewrite Eg in Hact. apply andb_true_iff in Hact as [Hact _]. apply negb_true_iff in Hact. unfold goodb in Hact. apply qleb_false in Hact. apply qR_lt in Hact. lra.
  - destruct Hi as [Hi|Hi]; [|exfalso; specialize (Hbad i Hi); discriminate]. specialize (HM i Hi). apply qR_le in HM. destruct (Hok i (or_introl Hi)) as [_ Hb]. destruct (Hb c0 Hx) as (B1 & _). destruct (B1 _ _ _ _ HQ) as [_ B2]. subst j. lra.
Qed.
Definition estimate_ok (lo up : Qc) (am : option argmax) : Prop :=
  dilation_le rR c0 (qR up) /\ dilation_ge rR c0 (qR lo) /\ forall a, am = Some a -> argmax_at lo a.
Definition loop_inv (t : tree) (lo up : Qc) (am : option argmax) : Prop :=
  tree_ok t /\ bh_good_thr t = Some lo /\ covers t /\ estimate_ok lo up am.
Context (st : stash) (HST : points_ok c0 st).
Definition unless_stopped (tol : option Qc) (max_iter max_depth : option Z) (lo up : Qc) : Prop :=
  forall tl, tol = Some tl -> max_iter = None -> max_depth = None -> (up <= lo * tl)%Qc.
Lemma loop_ok tol max_iter max_depth fuel : forall t lo up am n r, loop_inv t lo up am ->
  regular_loop ratio hq fuel st tol max_iter max_depth t lo up am n = Some r ->
  estimate_ok (fst (fst r)) (snd (fst r)) (snd r) /\ unless_stopped tol max_iter max_depth (fst (fst r)) (snd (fst r)).
Proof.
  induction fuel as [|fuel IH]; intros t lo up am n r (I1 & I2 & I3 & I4) E; [discriminate|]. cbn [regular_loop] in E.
  destruct (match tol with Some tl => qleb up (lo * tl)%Qc | None => false end) eqn:ET.
  { injection E as <-. cbn. split; auto. intros tl -> _ _. apply qleb_ok; auto. }
  destruct (match max_iter with Some m => _ | None => false end) eqn:EM.
  { injection E as <-. cbn. split; auto. intros tl _ -> _. discriminate. }
  destruct (match max_depth with Some m => _ | None => false end) eqn:EP.
  { injection E as <-. cbn. split; auto. intros tl _ _ ->. discriminate. }
  destruct (divide_tree ratio hq st t) as [t1|] eqn:ED; [|discriminate]. destruct (bh_max t1) as [item|] eqn:EI; [|discriminate].
  assert (NE : bh_items t <> []). { intros E0. unfold divide_tree, bh_pop in ED. destruct I1 as ((Hh & _) & _). unfold bh_items in E0. apply map_eq_nil in E0. rewrite E0 in *. rewrite (proj1 (proj2 (proj2 HH))) in ED. discriminate. }
  destruct (divide_tree_ok ratio rR c0 HD RO AJ (juncs_wft c0 js js_wft) st HST hq is_heap HH None true t I1 NE) as (t1' & E1' & A1 & A2 & A3 & A4 & _).
  assert (t1' = t1) by congruence. subst t1'.
  assert (Hitem : item_ok item) by (apply A1; auto).
  assert (C1 : covers t1). { intros p s u t0 w Hp HA HB Hst. destruct (I3 p s u t0 w Hp HA HB Hst) as (j & s' & u' & t' & w' & Hh & ER). exists j, s', u', t', w'. auto. }
  destruct (qltb lo (bp_lo item)) eqn:EB.
  - apply qltb_ok in EB. destruct (update_tree_ok rR c0 AJ hq is_heap HH None true t1 (bp_lo item) A1) as (t2 & E2 & B1 & B2 & _ & _ & _ & B6). { rewrite A2, I2. apply Qclt_le_weak; auto. }
    rewrite E2 in E. destruct (bh_top t2) as [top|] eqn:Etop; [|discriminate].
    assert (C2 : covers t2). { intros p s u t0 w Hp HA HB Hst. destruct (C1 p s u t0 w Hp HA HB Hst) as (j & s' & u' & t' & w' & Hh & ER). exists j, s', u', t', w'. auto. }
    apply IH in E; auto. split; auto. split; auto. split; auto. split; [|split; [apply item_ge; auto|intros a Ha; apply item_argmax; auto]].
    pose proof (top_le t2 _ top B1 B2 C2 Etop) as HT. destruct (qltb (bp_up top) up); auto. apply I4.
  - destruct (bh_top t1) as [top|] eqn:Etop; [|discriminate]. apply IH in E; auto. split; auto. split; [congruence|]. split; auto. split; [|split; apply I4].
    assert (A2' : bh_good_thr t1 = Some lo) by congruence. pose proof (top_le t1 _ top A1 A2' C1 Etop) as HT. destruct (qltb (bp_up top) up); auto. apply I4.
Qed.
End Regular.

Lemma estimate_regular_ok ratio rR c hq is_heap : valid_curve c -> ratio_ok (cv_dim c) (ratio (cv_dim c)) rR -> IH_ok hq is_heap ->
  forall fuel rti max_iter fd max_depth lo up am, match fd with Some f => f <= cv_dim c | None => True end ->
  estimate_dilation_regular ratio hq fuel c rti max_iter fd max_depth = Some (lo, up, am) -> exists js, gen_regular_junctions fuel c = (js, GDone) /\
  estimate_ok rR c js lo up am /\ unless_stopped (match rti with Some r => tolerance_of r | None => None end) max_iter max_depth lo up.
Proof.
  intros HC RO HH fuel rti max_iter fd max_depth lo up am Hfd E. unfold estimate_dilation_regular in E.
  assert (EK : cv_kind c = KCurve) by apply HC. 
  destruct (match fd with None => Some None | Some f => option_map Some (face_points c f) end) as [st|] eqn:Est; [|discriminate].
  assert (HST : points_ok c st). { destruct fd as [f|]; [|injection Est as <-; exact I]. destruct (face_points_ok c f HC Hfd) as (pts & Ep & Hp). rewrite Ep in Est. injection Est as <-. auto. }
  destruct (match rti with None => Some None | Some r => option_map Some (tolerance_of r) end) as [tol|] eqn:Etol; [|discriminate].
  assert (Et : tol = match rti with Some r => tolerance_of r | None => None end). { destruct rti as [r|]; [|congruence]. destruct (tolerance_of r); cbn in Etol; congruence. }
  destruct (gen_regular_junctions fuel c) as [js e] eqn:EJ. pose proof (gen_spec c HC fuel) as GS. rewrite EJ in GS. cbn [fst snd] in GS. cbv zeta in GS. destruct GS as (G1 & _ & _ & G4).
  destruct (create_tree ratio hq fuel c None None true st) as [t|] eqn:ECT; [|discriminate].
  assert (Ee : e = GDone). { unfold create_tree, regular_junctions in ECT. rewrite EK, EJ in ECT. destruct e; auto; discriminate. }
  subst e. specialize (G4 eq_refl). exists js. split; auto. rewrite <- Et.
  assert (EJR : regular_junctions fuel c = Some js) by (unfold regular_junctions; rewrite EK, EJ; auto).
  destruct (create_ok ratio rR c (dcls_curve c HC) RO js (js_wft c HC js G1) st HST hq is_heap HH None true fuel EJR None) as (t' & E' & A1 & A2 & A3 & A4).
  assert (t' = t) by congruence. subst t'. clear E'.
  assert (HCV : covers rR c t).
  { intros p s u t0 w Hp HA HB Hst. destruct (create_covers ratio rR c (dcls_curve c HC) RO js (js_wft c HC js G1) t c (fun _ => True) (chosen_self c HC)) with (p := p) (s := s) (u := u) (t0 := t0) (w := w) as (j & s' & u' & t' & w' & _ & Hh & ER); auto.
    - intros j k1 k2 s' u' t' w' Hin HQ. eapply A4; eauto. apply chosen_self; auto.
    - intros q cs cs' Hq Hc. destruct (G4 q cs cs' Hq Hc) as (j & Hj & He). eauto.
    - exists j, s', u', t', w'. auto. }
  destruct (bh_max t) as [item|] eqn:EI; [|discriminate].
  destruct (update_tree_ok rR c (all_juncs c js) hq is_heap HH None true t (bp_lo item) A1) as (t1 & E1 & B1 & B2 & _ & _ & _ & B6). { rewrite A2. exact I. }
  rewrite E1 in E. destruct (bh_top t1) as [top|] eqn:Etop; [|discriminate].
  assert (HCV1 : covers rR c t1). { intros p s u t0 w Hp HA HB Hst. destruct (HCV p s u t0 w Hp HA HB Hst) as (j & s' & u' & t' & w' & Hh & ER). exists j, s', u', t', w'. auto. }
  assert (Hitem : item_ok rR c (all_juncs c js) item) by (apply A1; auto).
  refine (loop_ok ratio rR c HC RO hq is_heap HH js G1 st HST tol max_iter max_depth fuel t1 (bp_lo item) (bp_up top) (bp_argmax item) 0 (lo, up, am) _ E).
  split; auto. split; auto. split; auto. split; [eapply top_le; eauto|]. split; [eapply item_ge; eauto|]. intros a Ha. eapply item_argmax; eauto.
Qed.
