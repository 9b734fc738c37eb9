(** Path fuzzy curves: allowed specs (C25). *)
From Verif Require Import Py L_Py L_Qc M_BaseMaps S_BaseMaps L_BaseMaps P_Actions P_GenMaps M_Subsets S_Subsets P_Subsets P_Points
  M_Paths M_Utils M_Curves S_Utils S_Curves S_Paths S_Fuzzy P_CurveAct P_Bridge P_Paths.
From Coq Require Import Lia.
Local Open Scope nat_scope.

Lemma dset_keys {K V} (keqb : K -> K -> bool) (H : eqb_ok keqb) (d : list (K * V)) k v :
  map fst (dset keqb d k v) = if memb keqb k (map fst d) then map fst d else map fst d ++ [k].
Proof.
  induction d as [|[k0 v0] d IH]; cbn; auto. destruct (keqb k k0) eqn:E; cbn; auto. rewrite IH. fold (memb keqb k (map fst d)). destruct (memb keqb k (map fst d)); auto.
Qed.
Lemma dset_NoDup {K V} (keqb : K -> K -> bool) (H : eqb_ok keqb) (d : list (K * V)) k v :
  NoDup (map fst d) -> NoDup (map fst (dset keqb d k v)).
Proof.
  intros HN. rewrite (dset_keys keqb H). destruct (memb keqb k (map fst d)) eqn:E; auto. apply (memb_false keqb H) in E.
  apply NoDup_app_intro; auto; [repeat constructor; auto|]. intros x Hx [<-|[]]. auto.
Qed.
Lemma nat_eqb_ok : eqb_ok Nat.eqb. Proof. intros x y. apply Nat.eqb_eq. Qed.

(** the group *)
Lemma full_subgroup d : subgroup d (gen_base_maps d None).
Proof.
  split; [apply NoDup_gen_base_maps|]. split; [intros b Hb; apply In_gen_base_maps in Hb; tauto|].
  split; [apply In_gen_base_maps; split; auto using wf_id|]. split.
  - intros a b Ha Hb. apply In_gen_base_maps in Ha, Hb. apply In_gen_base_maps. split; auto. apply wf_mul; tauto.
  - intros a Ha. apply In_gen_base_maps in Ha. apply In_gen_base_maps. split; auto. apply wf_inv; tauto.
Qed.
Lemma opt_group_subgroup d group dtr : valid_group d group -> subgroup d (opt_group group dtr d).
Proof.
  intros HG. unfold opt_group. set (g := match group with Some g => g | None => _ end).
  assert (Hg : subgroup d g) by (unfold g; destruct group; [apply HG; auto|apply full_subgroup]). clearbody g.
  destruct dtr; auto. destruct Hg as (H1 & H2 & H3 & H4 & H5). split; [apply NoDup_filter; auto|].
  split; [intros b Hb; apply filter_In in Hb; apply H2; tauto|]. split; [apply filter_In; auto|]. split.
  - intros a b Ha Hb. apply filter_In in Ha, Hb. apply filter_In. split; [apply H4; tauto|]. rewrite mul_time_rev. destruct Ha as [_ A], Hb as [_ B].
    destruct (time_rev a), (time_rev b); cbn in *; auto.
  - intros a Ha. apply filter_In in Ha. apply filter_In. rewrite inv_time_rev. split; [apply H5; tauto|tauto].
Qed.
Lemma In_opt_group d group dtr b : valid_group d group -> (In b (opt_group group dtr d) <-> usable d group dtr b).
Proof.
  intros HG. unfold opt_group, usable. set (g := match group with Some g => g | None => _ end).
  assert (Hg : In b g <-> wf_bm d b /\ (forall g0, group = Some g0 -> In b g0)).
  { unfold g. destruct group as [g0|].
    - split; [intros H; split; [apply (HG g0 eq_refl); auto|intros g1 E; congruence]|]. intros [_ H]. apply H; auto.
    - rewrite In_gen_base_maps. split; [intros [A _]; split; auto; congruence|tauto]. }
  destruct dtr.
  - rewrite filter_In, Hg. rewrite Bool.negb_true_iff. tauto.
  - rewrite Hg. intuition congruence.
Qed.

Section Orbit.
Context (d : nat) (g : list base_map) (Hg : subgroup d g).
Lemma g_wf b : In b g -> wf_bm d b. Proof. apply Hg. Qed.
Lemma std_some l : exists sl, std_link_of g l = Some sl.
Proof. apply min_list_some. destruct Hg as (_ & _ & H & _). intros E. apply map_eq_nil in E. rewrite E in H. destruct H. Qed.
Lemma std_image l sl : std_link_of g l = Some sl -> exists b, In b g /\ pl_mul b l = sl.
Proof. intros E. apply (min_list_spec pl_cmp pl_cmp_ok) in E as [E _]. apply in_map_iff in E as (b & <- & Hb). eauto. Qed.
Lemma pl_act a b l : In a g -> In b g -> pl_dim d l -> pl_mul a (pl_mul b l) = pl_mul (bm_mul a b) l.
Proof. intros Ha Hb [H1 H2]. symmetry. apply (pl_mul_mul d); auto using g_wf. Qed.
Lemma g_mul a b : In a g -> In b g -> In (bm_mul a b) g. Proof. apply Hg. Qed.
Lemma g_inv a : In a g -> In (bm_inv a) g. Proof. apply Hg. Qed.
Lemma pl_back a l : In a g -> pl_dim d l -> pl_mul (bm_inv a) (pl_mul a l) = l.
Proof.
  intros Ha Hl. rewrite pl_act; auto using g_inv. rewrite (mul_inv_l d) by auto using g_wf. destruct Hl. apply pl_mul_id; auto.
Qed.
Lemma pl_forth a l : In a g -> pl_dim d l -> pl_mul a (pl_mul (bm_inv a) l) = l.
Proof.
  intros Ha Hl. rewrite pl_act; auto using g_inv. rewrite (mul_inv_r d) by auto using g_wf. destruct Hl. apply pl_mul_id; auto.
Qed.
Lemma std_mul b l : In b g -> pl_dim d l -> std_link_of g (pl_mul b l) = std_link_of g l.
Proof.
  intros Hb Hl. unfold std_link_of. apply min_list_ext; [apply pl_cmp_ok|]. intros x. rewrite !in_map_iff. split; intros (a & <- & Ha).
  - exists (bm_mul a b). split; [symmetry; apply pl_act; auto|apply g_mul; auto].
  - exists (bm_mul a (bm_inv b)). split; [|apply g_mul; auto using g_inv]. rewrite <- pl_act; auto using g_inv; [|apply pl_mul_dim; auto using g_wf].
    rewrite pl_back; auto.
Qed.
Lemma std_std l sl : pl_dim d l -> std_link_of g l = Some sl -> std_link_of g sl = Some sl.
Proof. intros Hl E. destruct (std_image _ _ E) as (b & Hb & <-). rewrite std_mul; auto. Qed.
Lemma std_dim l sl : pl_dim d l -> std_link_of g l = Some sl -> pl_dim d sl.
Proof. intros Hl E. destruct (std_image _ _ E) as (b & Hb & <-). apply pl_mul_dim; auto using g_wf. Qed.
(** the map found by next(...) *)
Lemma first_to l l' : (exists b, In b g /\ pl_mul b l = l') ->
  exists b, first_such (fun b => pl_eqb (pl_mul b l) l') g = Some b /\ In b g /\ pl_mul b l = l'.
Proof.
  intros (b & Hb & E). unfold first_such. destruct (find _ g) as [a|] eqn:F.
  - apply find_some in F as [F1 F2]. apply pl_eqb_ok in F2. eauto.
  - exfalso. pose proof (find_none _ _ F b Hb) as H. cbn in H. rewrite E in H. assert (pl_eqb l' l' = true) by (apply pl_eqb_ok; auto). congruence.
Qed.

(** the dictionary of standard links *)
Notation std_t := (list (plink * list (nat * base_map))).
Definition cell (L : list (nat * path (list Qc))) (sl : plink) (pn : nat) (m : base_map) : Prop :=
  exists pth, In (pn, pth) L /\ std_link_of g (pa_link pth) = Some sl /\ In m g /\ pl_mul m (pa_link pth) = sl.
Definition std_ok (L : list (nat * path (list Qc))) (D : std_t) : Prop :=
  NoDup (map fst D) /\
  (forall sl l, dget pl_eqb D sl = Some l -> NoDup (map fst l) /\ l <> [] /\ (forall pn m, In (pn, m) l -> cell L sl pn m)) /\
  (forall pn pth, In (pn, pth) L -> exists sl l m, std_link_of g (pa_link pth) = Some sl /\ dget pl_eqb D sl = Some l /\ In (pn, m) l).
Definition std_step (D : std_t) (np : nat * path (list Qc)) : option std_t :=
      match std_link_of g (pa_link (snd np)) with
      | None => None
      | Some sl =>
          match first_such (fun b => pl_eqb (pl_mul b (pa_link (snd np))) sl) g with
          | None => None
          | Some m => let cur := match dget pl_eqb D sl with Some l => l | None => [] end in
                      Some (dset pl_eqb D sl (dset Nat.eqb cur (fst np) m))
          end
      end.
Lemma dset_In {K V} (keqb : K -> K -> bool) (H : eqb_ok keqb) (D : list (K * V)) k v x : In x (dset keqb D k v) -> x = (k, v) \/ In x D.
Proof.
  induction D as [|[k0 v0] D IH]; cbn; [intuition|]. destruct (keqb k k0) eqn:E; cbn; [|intuition].
  apply H in E; subst. intuition.
Qed.
Lemma std_step_ok L D np : std_ok L D -> ~ In (fst np) (map fst L) -> exists D', std_step D np = Some D' /\ std_ok (L ++ [np]) D'.
Proof.
  destruct np as [pn pth]. cbn [fst]. intros (HN & HD & HL) Hnew. unfold std_step. cbn [fst snd]. destruct (std_some (pa_link pth)) as (sl & E). rewrite E.
  destruct (first_to (pa_link pth) sl (std_image _ _ E)) as (m & Em & Hm & Im). rewrite Em. eexists; split; [reflexivity|].
  set (cur := match dget pl_eqb D sl with Some l => l | None => [] end).
  assert (Hcur : NoDup (map fst cur) /\ forall q m', In (q, m') cur -> cell L sl q m').
  { unfold cur. destruct (dget pl_eqb D sl) eqn:F; [|split; [constructor|intros q m' []]]. destruct (HD sl l F) as (A & _ & B). auto. }
  assert (Hmono : forall sl' q m', cell L sl' q m' -> cell (L ++ [(pn, pth)]) sl' q m').
  { intros sl' q m' (pt & A & B). exists pt. split; auto. apply in_or_app; auto. }
  split; [apply (dset_NoDup _ pl_eqb_ok); auto|]. split.
  - intros sl' l. rewrite (dget_dset _ pl_eqb_ok). destruct (pl_eqb sl' sl) eqn:F.
    + apply pl_eqb_ok in F; subst sl'. intros E'; inversion E'; subst l. split; [apply (dset_NoDup _ nat_eqb_ok); tauto|]. split.
      * destruct cur as [|[? ?] ?]; cbn; [congruence|]. destruct (pn =? n); congruence.
      * intros q m' Hin. apply (dset_In _ nat_eqb_ok) in Hin as [Hin|Hin].
        -- inversion Hin; subst. exists pth. split; auto. apply in_or_app; right; cbn; auto.
        -- apply Hmono, Hcur; auto.
    + intros F'. destruct (HD sl' l F') as (A & B & C). eauto.
  - intros q pt Hin. apply in_app_or in Hin as [Hin|[Hin|[]]].
    + destruct (HL q pt Hin) as (sl' & l & m' & A & B & C). exists sl'. rewrite (dget_dset _ pl_eqb_ok). destruct (pl_eqb sl' sl) eqn:F; [|eauto].
      apply pl_eqb_ok in F; subst sl'. eexists; exists m'. split; auto. split; [reflexivity|]. unfold cur. rewrite B.
      assert (q <> pn) by (intros ->; apply Hnew; apply (in_map fst) in Hin; auto).
      assert (G : dget Nat.eqb (dset Nat.eqb l pn m) q = Some m').
      { rewrite (dget_dset _ nat_eqb_ok). apply Nat.eqb_neq in H. rewrite H. apply (In_dget _ nat_eqb_ok); auto. apply (HD sl l B). }
      apply (dget_In _ nat_eqb_ok) in G. auto.
    + injection Hin as <- <-. exists sl. rewrite (dget_dset _ pl_eqb_ok). assert (pl_eqb sl sl = true) as -> by (apply pl_eqb_ok; auto).
      eexists; exists m. split; auto. split; [reflexivity|]. assert (G : dget Nat.eqb (dset Nat.eqb cur pn m) pn = Some m).
      { rewrite (dget_dset _ nat_eqb_ok), Nat.eqb_refl. auto. } apply (dget_In _ nat_eqb_ok) in G. auto.
Qed.
Lemma init_std_ok paths : exists D, init_links_std g paths = Some D /\ std_ok (enumerate paths) D.
Proof.
  assert (H : forall M L D, std_ok L D -> NoDup (map fst (L ++ M)) ->
    exists D', fold_left (fun acc np => obind acc (fun D => std_step D np)) M (Some D) = Some D' /\ std_ok (L ++ M) D').
  { induction M as [|np M IH]; intros L D HL HN; [exists D; rewrite app_nil_r; auto|]. cbn [fold_left obind].
    rewrite map_app in HN. cbn [map] in HN. assert (Hnew : ~ In (fst np) (map fst L)).
    { intros Hin. apply NoDup_remove_2 in HN. apply HN, in_or_app; auto. }
    destruct (std_step_ok L D np HL Hnew) as (D1 & -> & H1). destruct (IH (L ++ [np]) D1 H1) as (D' & E & H').
    - rewrite <- app_assoc, map_app; auto.
    - exists D'. rewrite <- app_assoc in H'. auto. }
  destruct (H (enumerate paths) [] []) as (D & E & HD).
  - split; [constructor|]. split; [discriminate|]. intros ? ? [].
  - cbn. rewrite enumerate_fst. apply seq_NoDup.
  - exists D. auto.
Qed.
Definition symm_of (D : std_t) : list (plink * list base_map) :=
  map (fun ld => (fst ld, filter (fun b => pl_eqb (pl_mul b (fst ld)) (fst ld)) g)) D.
Lemma dget_symm D sl : dget pl_eqb (symm_of D) sl =
  option_map (fun _ => filter (fun b => pl_eqb (pl_mul b sl) sl) g) (dget pl_eqb D sl).
Proof.
  unfold symm_of. induction D as [|[k v] D IH]; cbn; auto. destruct (pl_eqb sl k) eqn:E; auto. apply pl_eqb_ok in E; subst; auto.
Qed.

Section Paths.
Context (paths : list (path (list Qc))) (HP : forall p, In p paths -> pl_dim d (pa_link p)).
(** images of the global links *)
Definition image (l : plink) : Prop := exists pn pth b, nth_error paths pn = Some pth /\ In b g /\ pl_mul b (pa_link pth) = l.
Context (D : std_t) (HD : std_ok (enumerate paths) D).
Lemma fraction_some l : pl_dim d l -> image l -> exists sl r L, init_fraction g D l = Some (sl, r) /\ std_link_of g l = Some sl /\
  dget pl_eqb D sl = Some L /\ In r g /\ pl_mul r sl = l.
Proof.
  intros Hl (pn & pth & b & E & Hb & EL). pose proof (HP pth (nth_error_In _ _ E)) as Hp.
  destruct HD as (_ & _ & H3). destruct (H3 pn pth) as (sl & L & m & A & B & _); [apply In_enumerate; auto|].
  assert (S : std_link_of g l = Some sl) by (rewrite <- EL, std_mul; auto).
  unfold init_fraction. rewrite S, B. destruct (std_image l sl S) as (a & Ha & Ea).
  destruct (first_to sl l) as (r & Er & Hr & Ir).
  { exists (bm_inv a). split; [apply g_inv; auto|]. rewrite <- Ea. apply pl_back; auto. }
  rewrite Er. exists sl, r, L. auto.
Qed.
Lemma fraction_none l : pl_dim d l -> ~ image l -> init_fraction g D l = None.
Proof.
  intros Hl Hn. unfold init_fraction. destruct (std_some l) as (sl & E). rewrite E. destruct (dget pl_eqb D sl) as [L|] eqn:F; auto.
  exfalso. apply Hn. destruct HD as (_ & H2 & _). destruct (H2 sl L F) as (_ & NE & H). destruct L as [|[pn m] L]; [congruence|].
  destruct (H pn m (or_introl eq_refl)) as (pth & A & B & Hm & Em). apply In_enumerate in A.
  destruct (std_image l sl E) as (a & Ha & Ea). exists pn, pth, (bm_mul (bm_inv a) m). split; auto. split; [apply g_mul; auto using g_inv|].
  rewrite <- pl_act; auto using g_inv. 2: apply HP; eapply nth_error_In; eauto. rewrite Em, <- Ea. apply pl_back; auto.
Qed.
Lemma allowed_exact l sl r L : pl_dim d l -> init_fraction g D l = Some (sl, r) -> dget pl_eqb D sl = Some L ->
  let R := flat_map (fun pm => map (fun symm => Sp (bm_mul (bm_mul r symm) (snd pm)) (fst pm)) (filter (fun b => pl_eqb (pl_mul b sl) sl) g)) L in
  NoDup R /\ forall s, In s R <-> exists pth, nth_error paths (sp_pnum s) = Some pth /\ In (sp_bm s) g /\ pl_mul (sp_bm s) (pa_link pth) = l.
Proof.
  intros Hl E F R. destruct HD as (H1 & H2 & H3). destruct (H2 sl L F) as (N1 & _ & N3).
  assert (Hr : std_link_of g l = Some sl /\ In r g /\ pl_mul r sl = l).
  { unfold init_fraction in E. destruct (std_link_of g l) as [sl'|] eqn:E1; [|discriminate]. destruct (dget pl_eqb D sl'); [|discriminate].
    destruct (first_such _ g) as [r'|] eqn:E2; [|discriminate]. inversion E; subst. apply find_some in E2 as [A B]. apply pl_eqb_ok in B. auto. }
  destruct Hr as (Hs & Hr & Er). assert (Hsl : pl_dim d sl) by (apply (std_dim l sl); auto).
  assert (Hcell : forall pm, In pm L -> wf_bm d (snd pm)).
  { intros [pn m] Hin. destruct (N3 pn m Hin) as (pth & _ & _ & A & _). apply g_wf; auto. }
  split.
  - unfold R. apply NoDup_flat_map.
    + apply (NoDup_map_rev fst) in N1. auto.
    + intros [pn m] Hin. apply NoDup_map_inj; [|apply NoDup_filter; apply Hg]. intros a b Ha Hb E'. pose proof (f_equal sp_bm E') as E0. cbn [sp_bm snd] in E0.
      apply filter_In in Ha as [Ha _], Hb as [Hb _]. apply (mul_cancel_r d) in E0; auto using wf_mul, g_wf. 2: apply (Hcell (pn, m)); auto.
      apply (mul_cancel_l d) in E0; auto using g_wf.
    + intros [p1 m1] [p2 m2] s I1 I2 A B. apply in_map_iff in A as (a & Ea & _), B as (b & Eb & _). pose proof (f_equal sp_pnum (eq_trans Ea (eq_sym Eb))) as E0. cbn [sp_pnum fst] in E0. subst p2.
      f_equal. pose proof (In_dget _ nat_eqb_ok _ _ _ N1 I1). pose proof (In_dget _ nat_eqb_ok _ _ _ N1 I2). congruence.
  - intros s. unfold R. rewrite in_flat_map. split.
    + intros ([pn m] & Hin & Hs'). apply in_map_iff in Hs' as (b & <- & Hb). apply filter_In in Hb as [Hb Eb]. apply pl_eqb_ok in Eb. cbn [sp_bm sp_pnum fst snd].
      destruct (N3 pn m Hin) as (pth & A & B & Hm & Em). apply In_enumerate in A. exists pth. split; auto. assert (Hpl : pl_dim d (pa_link pth)) by (apply HP; eapply nth_error_In; eauto).
      split; [apply g_mul; auto; apply g_mul; auto|]. rewrite <- pl_act; auto; [|apply g_mul; auto]. rewrite Em. rewrite <- pl_act by auto. rewrite Eb. auto.
    + intros (pth & A & Hb & Eb). assert (Hpl : pl_dim d (pa_link pth)) by (apply HP; eapply nth_error_In; eauto).
      destruct (H3 (sp_pnum s) pth) as (sl' & L' & m & S1 & S2 & S3); [apply In_enumerate; auto|].
      assert (sl' = sl). { rewrite <- Eb in Hs. rewrite std_mul in Hs; auto. congruence. } subst sl'. assert (L' = L) by congruence. subst L'.
      exists (sp_pnum s, m). split; auto. apply in_map_iff. destruct (N3 _ _ S3) as (pth' & A' & _ & Hm & Em). apply In_enumerate in A'. assert (pth' = pth) by congruence. subst pth'.
      exists (bm_mul (bm_mul (bm_inv r) (sp_bm s)) (bm_inv m)). cbn [fst snd].
      assert (W : wf_bm d (sp_bm s) /\ wf_bm d r /\ wf_bm d m) by auto using g_wf. destruct W as (Ws & Wr & Wm).
      split.
      * destruct s as [b pn]. cbn [sp_bm sp_pnum] in *. f_equal.
        rewrite !(mul_assoc d) by auto using wf_mul, wf_inv. rewrite (mul_inv_l d m) by auto. rewrite (mul_id_r d) by auto.
        rewrite <- (mul_assoc d) by auto using wf_inv. rewrite (mul_inv_r d) by auto. apply mul_id_l; auto.
      * apply filter_In. split; [apply g_mul; auto using g_inv, g_mul|]. apply pl_eqb_ok. rewrite <- Em.
        rewrite pl_act; auto using g_inv, g_mul. rewrite !(mul_assoc d) by auto using wf_mul, wf_inv. rewrite (mul_inv_l d m) by auto. rewrite (mul_id_r d) by auto.
        rewrite <- pl_act; auto using g_inv. rewrite Eb. rewrite <- Er at 1. rewrite pl_back; auto.
Qed.
End Paths.
End Orbit.
