(** The example curve of a fuzzy curve and its regular estimate; the loop of estimate_dilation_fuzzy. *)
From Verif Require Import Py L_Py L_Qc L_R M_BaseMaps M_Subsets M_Paths M_Curves M_Utils M_Heap M_Sat M_Dilation S_BaseMaps S_Subsets S_Utils S_Heap S_Paths S_Curves S_Fuzzy S_Sat S_Ratio S_Dilation
  L_Digits P_CurveAct P_Core P_Bridge P_Junctions P_JuncLoop P_JuncMain P_Check P_Heap P_FuzzyCurves P_FuzzyInit P_FuzzyOps P_FuzzyBuilt P_FuzzyExample P_Templates P_TemplJunc P_DilGeo P_DilRatio P_DilBounds P_DilPieces P_DilTree P_DilOps P_DilCreate P_DilSpec P_Bisect P_BisectEnd.
From Coq Require Import Reals Lra.
Local Open Scope nat_scope.

Lemma frame_eq c c' : same_frame c c' -> (forall p k, p < cv_mult c -> get_spec c' p k = get_spec c p k) -> c' = c.
Proof.
  intros (F1 & F2 & F3 & F4 & F5 & F6) H. assert (EM : cv_mult c' = cv_mult c) by (unfold cv_mult; rewrite <- (map_length pat_proto (cv_pats c')), F5, map_length; auto).
  assert (EP : cv_pats c' = cv_pats c).
  { apply nth_error_ext. intros p. destruct (Nat.lt_ge_cases p (cv_mult c)) as [Hp|Hp].
    - destruct (nth_error (cv_pats c) p) as [a|] eqn:E1; [|apply nth_error_None in E1; unfold cv_mult in Hp; lia].
      destruct (nth_error (cv_pats c') p) as [a'|] eqn:E2; [|apply nth_error_None in E2; unfold cv_mult in *; lia].
      assert (A : pat_proto a' = pat_proto a). { apply (f_equal (fun l => nth_error l p)) in F5. rewrite !nth_error_map, E1, E2 in F5. cbn in F5. congruence. }
      assert (B : pat_specs a' = pat_specs a). { apply nth_error_ext. intros k. specialize (H p k Hp). unfold get_spec in H. rewrite E1, E2 in H. exact H. }
      destruct a, a'. cbn in *. congruence.
    - transitivity (@None pattern); [|symmetry]; apply nth_error_None; unfold cv_mult in *; lia. }
  destruct c, c'. cbn in *. congruence.
Qed.
Section Example.
Context (d N : nat) (group : option (list base_map)) (dtr : bool) (paths : list (path (list Qc))).
Context (HG : valid_group d group) (HP : valid_paths d N paths).
Lemma specify_list c e : built group dtr paths c -> (forall p k, p < cv_mult c -> k < cv_genus c -> exists s l, get_spec e p k = Some (Some s) /\ gen_allowed_specs c p k = Some l /\ In s l) ->
  forall L, Forall (fun pk => fst pk < cv_mult c /\ snd pk < cv_genus c) L ->
  exists c', built group dtr paths c' /\ same_frame c c' /\ (forall p k, In (p, k) L -> get_spec c' p k = get_spec e p k /\ exists s, get_spec e p k = Some (Some s) /\ gen_allowed_specs c' p k = Some [s]) /\
    (forall p k, ~ In (p, k) L -> get_spec c' p k = get_spec c p k /\ gen_allowed_specs c' p k = gen_allowed_specs c p k).
Proof.
  intros HB HE. induction L as [|[p k] L IH]; intros HL.
  - exists c. split; auto. split; [repeat split|]. split; [intros p k []|auto].
  - inversion HL as [|? ? [Hp Hk] HL']; subst. cbn in Hp, Hk. destruct (IH HL') as (c1 & B1 & F1 & A1 & A2). destruct (HE p k Hp Hk) as (s & l & E1 & E2 & E3).
    assert (exists l1, gen_allowed_specs c1 p k = Some l1 /\ In s l1) as (l1 & L1 & L2).
    { assert (DI : In (p, k) L \/ ~ In (p, k) L) by (apply ListDec.In_decidable; intros [a b] [a' b']; unfold Decidable.decidable; destruct (Nat.eq_dec a a'), (Nat.eq_dec b b'); subst; auto; right; intros X; injection X; auto).
      destruct DI as [Hi|Hi].
      - destruct (A1 p k Hi) as (_ & s' & E4 & E5). exists [s']. split; auto. left. congruence.
      - exists l. split; auto. rewrite (proj2 (A2 p k Hi)). auto. }
    destruct (specify c1 p k s) as [c2|] eqn:ES; [|exfalso; apply specify_raises in ES; apply ES; eauto].
    destruct (specify_keeps c1 p k s c2 ES) as (K1 & K2 & K3 & K4 & K5 & K6 & K7). pose proof (specify_allowed_specs c1 p k s c2 ES) as K8. destruct F1 as (F1 & F2 & F3 & F4 & F5 & F6).
    exists c2. split; [eapply built_specify; eauto|]. split; [repeat split; congruence|]. split.
    + intros p' k' [X|Hi].
      * injection X as <- <-. rewrite K7, K8, !Nat.eqb_refl. cbn [andb]. split; eauto.
      * rewrite K7, K8. destruct (Nat.eqb_spec p p'); cbn [andb]; [|apply A1; auto]. destruct (Nat.eqb_spec k k'); [|apply A1; auto]. subst. split; eauto.
    + intros p' k' Hi. rewrite K7, K8. destruct (Nat.eqb_spec p p'); cbn [andb]; [destruct (Nat.eqb_spec k k')|].
      * exfalso. apply Hi. left. congruence.
      * apply A2. intros X. apply Hi. right. auto.
      * apply A2. intros X. apply Hi. right. auto.
Qed.
Lemma example_built c e : built group dtr paths c -> get_curve_example c = Some e -> built group dtr paths e /\ same_frame c e /\
  chosen_from c (cv_with_kind e KCurve) /\ chosen_from e (cv_with_kind e KCurve).
Proof.
  intros HB HE. destruct (example_ok c) as (e' & E & SF & H).
  - apply (built_A d N group dtr paths HG HP c HB).
  - apply (built_len d N group dtr paths HG HP c HB).
  - destruct (built_A d N group dtr paths HG HP c HB 0 0) as (l & A & _).
    + destruct (built_good d N group dtr paths HG HP c HB) as ((_ & _ & V & _) & _). lia.
    + pose proof (built_G2 d N group dtr paths HG HP c HB). lia.
    + unfold gen_allowed_specs in A. intros E. rewrite E in A. discriminate.
  - assert (e' = e) by congruence. subst e'. pose proof (built_len d N group dtr paths HG HP c HB) as HL.
    destruct (specify_list c e HB H (list_prod (range (cv_mult c)) (range (cv_genus c)))) as (c' & B' & SF' & A1 & A2).
    { apply Forall_forall. intros [p k] Hin. apply in_prod_iff in Hin as [X Y]. unfold range in *. apply in_seq in X, Y. cbn. lia. }
    assert (EM : cv_mult e = cv_mult c) by (destruct SF as (_ & _ & _ & _ & F5 & _); unfold cv_mult; rewrite <- (map_length pat_proto (cv_pats e)), F5, map_length; auto).
    assert (HLe : Forall (fun pat => length (pat_specs pat) = cv_genus c) (cv_pats e)). { destruct SF as (_ & _ & _ & _ & _ & F6). apply Forall_forall. intros pat Hin. apply (in_map (fun pat => length (pat_specs pat))) in Hin. rewrite F6 in Hin. apply in_map_iff in Hin as (pat' & <- & Hin). rewrite Forall_forall in HL. auto. }
    assert (HLN : forall x p k, Forall (fun pat => length (pat_specs pat) = cv_genus c) (cv_pats x) -> cv_genus c <= k -> get_spec x p k = None).
    { intros x p k Hx Hk. unfold get_spec. destruct (nth_error (cv_pats x) p) as [pat|] eqn:EP; auto. apply nth_error_None. rewrite Forall_forall in Hx. rewrite (Hx pat); auto. apply nth_error_In with p; auto. }
    assert (EQ : c' = e).
    { apply frame_eq.
      - destruct SF as (S1 & S2 & S3 & S4 & S5 & S6), SF' as (T1 & T2 & T3 & T4 & T5 & T6). repeat split; congruence.
      - intros p k Hp. rewrite EM in Hp. destruct (Nat.lt_ge_cases k (cv_genus c)) as [Hk|Hk]; [apply A1; apply in_prod; apply in_seq; lia|].
        rewrite (HLN e) by auto. apply HLN; auto. destruct SF' as (_ & _ & _ & _ & _ & T6). apply Forall_forall. intros pat Hin. apply (in_map (fun pat => length (pat_specs pat))) in Hin. rewrite T6 in Hin. apply in_map_iff in Hin as (pat' & <- & Hin). rewrite Forall_forall in HL. auto. }
    subst c'. split; auto. split; auto. destruct SF as (S1 & S2 & S3 & S4 & S5 & S6). assert (EG : cv_genus e = cv_genus c) by (unfold cv_genus; congruence).
    split; (split; [reflexivity|]); cbn [cv_with_kind cv_dim cv_div cv_pnum cv_pats]; rewrite ?EG; repeat (split; [auto|]).
    + intros p k Hp Hk. apply H; auto.
    + intros p k Hp Hk. rewrite EM in Hp. destruct (A1 p k) as (_ & s & X1 & X2); [apply in_prod; apply in_seq; lia|]. exists s, [s]. split; [exact X1|]. split; auto. left. auto.
Qed.
End Example.

(** The upper bound of the regular estimate run on a fuzzy curve bounds the dilation of all its curves. *)
Section Upper.
Context (d N : nat) (group : option (list base_map)) (dtr : bool) (paths : list (path (list Qc))).
Context (HG : valid_group d group) (HP : valid_paths d N paths) (c : curve) (HB : built group dtr paths c).
Context (ratio : ratio_func) (rR : list R -> R -> R) (RO : ratio_ok (cv_dim c) (ratio (cv_dim c)) rR).
Context (hq : heap_impl bpair) (is_heap : list (node bpair) -> Prop) (HH : IH_ok hq is_heap).
Let HD : dcls c := built_estimable d N group dtr paths c HG HP HB.
Section UT.
Context (fuelT : nat) (T : list (junction * list curve)) (ET : get_junction_templates fuelT c = Some T).
Notation js := (map fst T).
Notation AJ := (all_juncs c js).
Notation JOK := (js_ok d N group dtr paths HG HP c HB fuelT T ET).
Let JW : forall j, AJ j -> wft (core_of c) (jt j) := juncs_wft c js JOK.
Notation tree_ok := (tree_ok rR c AJ is_heap None true).
Notation covers0 := (covers0 c rR).
Definition all_le (up : Qc) : Prop := forall x, chosen_from c x -> dilation_le rR x (qR up).
Lemma create_keep : exists t, create_tree ratio hq fuelT c None None true None = Some t /\ tree_ok t /\ bh_good_thr t = None /\ covers0 t.
Proof.
  assert (EJR : regular_junctions fuelT c = Some js).
  { unfold regular_junctions. rewrite ET. pose proof (built_kind d N group dtr paths c HG HP HB) as NK. destruct (cv_kind c); auto. exfalso. apply NK. reflexivity. }
  destruct (create_ok ratio rR c HD RO js JOK None I hq is_heap HH None true fuelT EJR None) as (t & E & A1 & A2 & _ & A4). exists t. split; auto. split; auto. split; auto.
  intros x p s u t0 w HX Hp HA HB0 Hst.
  destruct (create_covers ratio rR c HD RO js JOK t x (has_junction x) HX) with (p := p) (s := s) (u := u) (t0 := t0) (w := w) as (j & s' & u' & t' & w' & Hj & Hh & ER); auto.
  - intros j k1 k2 s' u' t' w' Hin HQ. eapply A4; eauto.
  - intros q cs cs' Hq Hc. apply (js_cover d N group dtr paths HG HP c HB fuelT T ET); auto.
  - exists j, s', u', t', w'. split; auto. destruct Hj as [Hj|[_ Hj]]; auto. exists j. split; auto. left. rewrite (autos_x c x HX). exact Hj.
Qed.
Lemma top_le_x t lo top : tree_ok t -> bh_good_thr t = Some lo -> covers0 t -> bh_top t = Some top -> all_le (bp_up top).
Proof.
  intros Ht Eg HCv Etop x HX p s t0 u w Hp HA HB0 Hst. pose proof (dcls_chosen c x HD HX) as VX. apply (graph_pattern x VX) in HA, HB0; auto. destruct (HCv x p s u t0 w HX Hp HA HB0 Hst) as (j & s' & u' & t' & w' & _ & Hh & ER).
  destruct (top_ok rR c AJ hq is_heap HH None true t Ht) as [T1 T2]. destruct (bh_items t) as [|i0 l] eqn:EI; [rewrite (T1 eq_refl) in Etop; discriminate|]. destruct T2 as (top' & Etop' & Hin & HM); [congruence|].
  assert (top' = top) by congruence. subst top'. rewrite <- EI in *. destruct Ht as (_ & Hact & _ & Hok & Hbad). rewrite <- ER. destruct Hh as [(g & Eg' & Hg)|(i & Hi & (Hj & Hx & HQ))].
  - assert (g = lo) by congruence. subst g. specialize (Hact top Hin). unfold activeb in Hact. rewrite Eg in Hact. apply andb_true_iff in Hact as [Hact _]. apply negb_true_iff in Hact. unfold goodb in Hact. apply qleb_false in Hact. apply qR_lt in Hact. lra.
  - destruct Hi as [Hi|Hi]; [|exfalso; specialize (Hbad i Hi); discriminate]. specialize (HM i Hi). apply qR_le in HM. destruct (Hok i (or_introl Hi)) as [_ Hb]. destruct (Hb x Hx) as (B1 & _). destruct (B1 _ _ _ _ HQ) as [_ B2]. subst j. lra.
Qed.
Lemma loop_le tol max_iter max_depth fuel : forall t lo up am n r, tree_ok t -> bh_good_thr t = Some lo -> covers0 t -> all_le up ->
  regular_loop ratio hq fuel None tol max_iter max_depth t lo up am n = Some r -> all_le (snd (fst r)).
Proof.
  induction fuel as [|fuel IH]; intros t lo up am n r I1 I2 I3 I4 E; [discriminate|]. cbn [regular_loop] in E.
  destruct (match tol with Some tl => qleb up (lo * tl)%Qc | None => false end) eqn:ETl.
  { injection E as <-. exact I4. }
  destruct (match max_iter with Some m => _ | None => false end) eqn:EM.
  { injection E as <-. exact I4. }
  destruct (match max_depth with Some m => _ | None => false end) eqn:EP.
  { injection E as <-. exact I4. }
  destruct (divide_tree ratio hq None t) as [t1|] eqn:ED; [|discriminate]. destruct (bh_max t1) as [item|] eqn:EI; [|discriminate].
  assert (NE : bh_items t <> []). { intros E0. unfold divide_tree, bh_pop in ED. destruct I1 as ((Hh & _) & _). unfold bh_items in E0. apply map_eq_nil in E0. rewrite E0 in *. rewrite (proj1 (proj2 (proj2 HH))) in ED. discriminate. }
  destruct (divide_tree_ok ratio rR c HD RO AJ JW None I hq is_heap HH None true t I1 NE) as (t1' & E1' & A1 & A2 & A3 & A4 & _).
  assert (t1' = t1) by congruence. subst t1'.
  assert (C1 : covers0 t1). { intros x p s u t0 w HX Hp HA HB0 Hst. destruct (I3 x p s u t0 w HX Hp HA HB0 Hst) as (j & s' & u' & t' & w' & Hj & Hh & ER). exists j, s', u', t', w'. auto. }
  destruct (qltb lo (bp_lo item)) eqn:EB.
  - apply qltb_ok in EB. destruct (update_tree_ok rR c AJ hq is_heap HH None true t1 (bp_lo item) A1) as (t2 & E2 & B1 & B2 & _ & _ & _ & B6). { rewrite A2, I2. apply Qclt_le_weak; auto. }
    rewrite E2 in E. destruct (bh_top t2) as [top|] eqn:Etop; [|discriminate].
    assert (C2 : covers0 t2). { intros x p s u t0 w HX Hp HA HB0 Hst. destruct (C1 x p s u t0 w HX Hp HA HB0 Hst) as (j & s' & u' & t' & w' & Hj & Hh & ER). exists j, s', u', t', w'. auto. }
    apply IH in E; auto. pose proof (top_le_x t2 _ top B1 B2 C2 Etop) as HT. destruct (qltb (bp_up top) up); auto.
  - destruct (bh_top t1) as [top|] eqn:Etop; [|discriminate]. apply IH in E; auto; [congruence|].
    assert (A2' : bh_good_thr t1 = Some lo) by congruence. pose proof (top_le_x t1 _ top A1 A2' C1 Etop) as HT. destruct (qltb (bp_up top) up); auto.
Qed.
End UT.
Lemma regular_le fuel rti max_iter max_depth lo up am : estimate_dilation_regular ratio hq fuel c rti max_iter None max_depth = Some (lo, up, am) ->
  forall x, chosen_from c x -> dilation_le rR x (qR up).
Proof.
  intros E. unfold estimate_dilation_regular in E. destruct (match rti with None => Some None | Some r => option_map Some (tolerance_of r) end) as [tol|]; [|discriminate].
  destruct (create_tree ratio hq fuel c None None true None) as [t|] eqn:ECT; [|discriminate].
  assert (exists js', regular_junctions fuel c = Some js') as (js' & EJ). { unfold create_tree in ECT. destruct (regular_junctions fuel c); [eauto|discriminate]. }
  apply (js_regular d N group dtr paths HG HP c HB) in EJ as (T & ET & _). destruct (create_keep fuel T ET) as (t' & E' & A1 & A2 & A3). assert (t' = t) by congruence. subst t'.
  destruct (bh_max t) as [item|] eqn:EI; [|discriminate].
  destruct (update_tree_ok rR c (all_juncs c (map fst T)) hq is_heap HH None true t (bp_lo item) A1) as (t1 & E1 & B1 & B2 & _ & _ & _ & B6). { rewrite A2. exact I. }
  rewrite E1 in E. destruct (bh_top t1) as [top|] eqn:Etop; [|discriminate].
  assert (HCV1 : covers0 c rR t1). { intros x p s u t0 w HX Hp HA HB0 Hst. destruct (A3 x p s u t0 w HX Hp HA HB0 Hst) as (j & s' & u' & t' & w' & Hj & Hh & ER). exists j, s', u', t', w'. auto. }
  exact (loop_le fuel T ET tol max_iter max_depth fuel t1 (bp_lo item) (bp_up top) (bp_argmax item) 0 (lo, up, am) B1 B2 HCV1 (top_le_x T t1 _ top B1 B2 HCV1 Etop) E).
Qed.
End Upper.

Lemma dilation_pos rR d rQ c x : ratio_ok d rQ rR -> dcls c -> chosen_from c x -> dilation_ge rR x 0.
Proof.
  intros RO HD HX. pose proof (dcls_chosen c x HD HX) as VX. assert (Hp : cv_pnum x < cv_mult x) by apply VX.
  destruct (graph_total x VX (cv_pnum x) 0 Hp ltac:(lra)) as (u & Hu). destruct (graph_total x VX (cv_pnum x) 1 Hp ltac:(lra)) as (w & Hw).
  exists (cv_pnum x), 0%R, 1%R, u, w. split; auto. split; auto. split; auto. split; [lra|]. apply (ro_nonneg _ _ _ RO). lra.
Qed.
Lemma tolerance_le r tol lo up : (0 < r)%Z -> tolerance_of r = Some tol -> qltb (lo * tol)%Qc up = false -> (qR up * IZR r <= qR lo * IZR (r + 1))%R.
Proof.
  intros Hr ET H. apply qltb_false in H. unfold tolerance_of in ET. assert (Hz : Zq r <> 0%Qc) by (apply qR_neq0; rewrite qR_Zq; apply not_0_IZR; lia).
  unfold frac in ET. destruct (Qc_eq_dec (Zq r) 0%Qc) as [X|_]; [contradiction|]. injection ET as <-. apply qR_le in H. rewrite qR_mul, qR_div, !qR_Zq in H by auto.
  assert (0 < IZR r)%R by (apply IZR_lt; lia). apply Rmult_le_compat_r with (r := IZR r) in H; [|lra]. field_simplify in H; lra.
Qed.
Theorem fuzzy_spec : forall hq, heapq_ok hq -> forall (ratio : ratio_func) (rR : list R -> R -> R)
    d N group no_time_rev paths c fuel solver sched max_iter rel_tol_inv stop start_lo start_up start_curve call cur lo up calls,
  valid_group d group -> valid_paths d N paths -> built group no_time_rev paths c -> ratio_ok d (ratio d) rR -> sat_ok solver ->
  correct_start rR c start_lo start_up start_curve ->
  estimate_dilation_fuzzy ratio hq fuel solver sched max_iter c rel_tol_inv stop start_lo start_up start_curve call = Some (cur, lo, up, calls) ->
  min_dilation_ge rR c (qR lo) /\ min_dilation_le rR c (qR up) /\
  match cur with Some r => possible_within rR c r (qR up) | None => start_up <> None /\ start_curve = None end /\
  ((0 < rel_tol_inv)%Z -> max_iter = None ->
     (qR up * IZR rel_tol_inv <= qR lo * IZR (rel_tol_inv + 1))%R \/ exists s, stop = Some s /\ (s < lo)%Qc).
Proof.
  intros hq HQ ratio rR d N group dtr paths c fuel solver sched max_iter rti stop slo sup scur call cur lo up calls HG HP HB RO HS (CS1 & CS2 & CS3) E.
  unfold estimate_dilation_fuzzy in E.
  destruct (match sup with None => _ | Some u => Some (scur, u) end) as [[cur0 up0]|] eqn:ES; [|discriminate].
  destruct (create_tree ratio hq fuel c None None false None) as [t|] eqn:ECT; [|discriminate]. destruct (ad_load fuel c) as [a|] eqn:EA; [|discriminate]. destruct (tolerance_of rti) as [tol|] eqn:ETol; [|discriminate].
  pose proof (built_estimable d N group dtr paths c HG HP HB) as HD.
  set (P := fun (cur : option curve) (up : Qc) => min_dilation_le rR c (qR up) /\ match cur with Some r => possible_within rR c r (qR up) | None => sup <> None /\ scur = None end).
  assert (P0 : P cur0 up0).
  { destruct sup as [u|].
    - injection ES as <- <-. split; [apply CS2; auto|]. destruct scur as [r|]; [apply CS3; auto|split; [discriminate|auto]].
    - destruct (get_curve_example c) as [e|] eqn:EE; [|discriminate]. destruct (estimate_dilation_regular ratio hq fuel e (Some rti) None None None) as [[[l0 u0] am0]|] eqn:ER; [|discriminate]. injection ES as <- <-.
      destruct (example_built d N group dtr paths HG HP c e HB EE) as (Be & SF & X1 & X2). destruct (heapq_inv hq HQ) as (is_heap & HH).
      assert (ROe : ratio_ok (cv_dim e) (ratio (cv_dim e)) rR) by (rewrite (built_dim d N group dtr paths e HG HP Be); auto).
      pose proof (regular_le d N group dtr paths HG HP e Be ratio rR ROe hq is_heap HH fuel _ _ _ _ _ _ ER _ X2) as HL.
      split; [exists (cv_with_kind e KCurve); auto|]. exists (cv_with_kind e KCurve). split; auto. split; [repeat split|]; auto. }
  assert (L0 : min_dilation_ge rR c (qR (match slo with None => 0%Qc | Some l => l end))).
  { destruct slo as [l|]; [apply CS1; auto|]. intros x HX. change (qR 0%Qc) with (qR (Zq 0)). rewrite qR_Zq. eapply dilation_pos; eauto. }
  clear ES CS1 CS2 CS3. revert P0 L0 E. generalize (match slo with None => 0%Qc | Some l => l end) as lo0. generalize fuel as f. intros f lo0. revert cur0 up0 lo0 call.
  assert (HT : cached_tree ratio hq c (Some t)) by (intros t' X; injection X as <-; eauto). assert (HA : cached_adapter c (Some a)) by (intros a' X; injection X as <-; eauto).
  induction f as [|f IH]; intros cur0 up0 lo0 call P0 L0 E; cbn [fuzzy_loop] in E; destruct (qltb (lo0 * tol)%Qc up0) eqn:EQ; try discriminate.
  - injection E as <- <- <- <-. destruct P0. do 3 (split; auto). intros Hr _. left. eapply tolerance_le; eauto.
  - set (tl := if Qc_eq_bool lo0 0%Qc then (Zq 1 / Zq 2 * up0)%Qc else third 2 1 lo0 up0) in E. set (tu := if Qc_eq_bool lo0 0%Qc then (Zq 2 / Zq 3 * up0)%Qc else third 1 2 lo0 up0) in E. cbv zeta in E.
    match type of E with context [bisect_dilation_fuzzy ?r ?h ?f ?s ?k ?m ?c ?g ?b ?it ?ia ?call] => destruct (bisect_dilation_fuzzy r h f s k m c g b it ia call) as [res call'] eqn:EB end.
    pose proof (bisect_spec hq HQ ratio rR d N group dtr paths c _ solver sched max_iter tu tl (Some t) (Some a) call res call' HG HP HB RO HS HT HA EB) as BS.
    destruct res as [x| | |]; [| | |discriminate].
    + destruct BS as (y & Y1 & Y2 & Y3). assert (Y4 : dilation_le rR y (qR tu)) by (apply (proj1 (dilation_le_pnum rR y 0 (qR tu))); subst x; exact Y3).
      assert (P1 : P (Some x) tu). { split; [exists y; auto|]. exists y. split; auto. split; auto. subst x. repeat split. }
      destruct (match stop with Some s => qltb s lo0 | None => false end) eqn:ESt; [|eapply IH; eauto].
      injection E as <- <- <- <-. destruct P1. do 3 (split; auto). intros _ _. right. destruct stop as [s|]; [|discriminate]. exists s. split; auto. apply qltb_ok; auto.
    + assert (L1 : min_dilation_ge rR c (qR tl)) by exact BS.
      destruct (match stop with Some s => qltb s tl | None => false end) eqn:ESt; [|eapply IH; eauto].
      injection E as <- <- <- <-. destruct P0. do 3 (split; auto). intros _ _. right. destruct stop as [s|]; [|discriminate]. exists s. split; auto. apply qltb_ok; auto.
    + injection E as <- <- <- <-. destruct P0. do 3 (split; auto). intros _ ->. destruct BS as (m & X). discriminate.
  - injection E as <- <- <- <-. destruct P0. do 3 (split; auto). intros Hr _. left. eapply tolerance_le; eauto.
Qed.
