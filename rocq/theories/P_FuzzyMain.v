(** Possible curves keep the paths; a curve is possible for its own forget() (C26). *)
From Verif Require Import Py L_Py L_Qc M_BaseMaps S_BaseMaps L_BaseMaps P_Actions P_GenMaps M_Subsets S_Subsets P_Subsets P_Points
  M_Paths M_Utils M_Curves S_Utils S_Curves S_Paths S_Fuzzy P_CurveAct P_Core P_Bridge P_Paths P_Entrance P_Cont P_Check P_Fuzzy P_FuzzyInit P_FuzzyCurves.
From Coq Require Import Lia.
Local Open Scope nat_scope.

Section Main.
Context (d N : nat) (group : option (list base_map)) (dtr : bool) (paths : list (path (list Qc))).
Context (HG : valid_group d group) (HP : valid_paths d N paths).
Context (c : curve) (EC : init_from_paths paths group dtr = Some c).
Lemma init_attrs : cv_dim c = d /\ cv_div c = N /\ cv_pnum c = 0 /\ cv_mult c = length paths /\ cv_genus c = N ^ d /\
  map pat_proto (cv_pats c) = map pa_proto paths.
Proof.
  destruct (init_ok d N group dtr paths HG HP c EC) as (E1 & E2 & E3 & E4 & _). unfold cv_mult, cv_genus. rewrite E1, E2, E4, map_length, map_map. repeat split; auto.
Qed.
Lemma init_variants : exists vs, all_variants c = Some vs.
Proof.
  destruct init_attrs as (E1 & E2 & E3 & E4 & E5 & _). apply omap_some_all. intros [p k] Hin. apply in_prod_iff in Hin. unfold range in Hin. rewrite !in_seq in Hin. cbn.
  destruct (init_allowed d N group dtr paths HG HP c p k EC) as (R & A & _); try lia. eauto.
Qed.
Lemma init_possible : exists l, gen_possible_curves c = Some l /\ NoDup l /\ count_possible_curves c = Some (length l) /\ forall x, In x l <-> chosen_from c x.
Proof.
  destruct init_variants as (vs & HV). destruct (possible_exact c vs HV) as (l & E & H). exists l. split; auto. split; [|split; [apply (count_exact c vs HV); auto|auto]].
  apply (possible_nodup c vs HV l E). intros p k a Hp Hk Ha. destruct init_attrs as (_ & _ & _ & E4 & E5 & _). rewrite E4 in Hp. rewrite E5 in Hk.
  destruct (init_allowed d N group dtr paths HG HP c p k EC Hp Hk) as (R & A & B & _). congruence.
Qed.
Lemma chosen_fits x p k : chosen_from c x -> p < length paths -> k < N ^ d -> exists s, get_spec x p k = Some (Some s) /\ fits d group dtr paths p k s.
Proof.
  intros (_ & _ & _ & _ & _ & _ & H) Hp Hk. destruct init_attrs as (_ & _ & _ & E4 & E5 & _).
  destruct (H p k) as (s & l & A & B & C); [lia|lia|]. destruct (init_allowed d N group dtr paths HG HP c p k EC Hp Hk) as (R & A' & _ & D).
  exists s. split; auto. apply D. congruence.
Qed.
Lemma chosen_valid_init x : chosen_from c x -> valid_curve x.
Proof.
  intros Hx. destruct init_attrs as (E1 & E2 & E3 & E4 & E5 & _). apply (chosen_valid c); auto.
  - apply (init_valid d N group dtr paths HG HP c EC).
  - intros p k l s Hp Hk El Hs. rewrite E1, E4 in *. rewrite E5 in Hk.
    destruct (init_allowed d N group dtr paths HG HP c p k EC Hp Hk) as (R & A' & _ & D). apply (fits_wf d group dtr paths p k). apply D. congruence.
Qed.
Lemma chosen_paths x : chosen_from c x -> get_paths x = Some paths.
Proof.
  intros Hx. pose proof (chosen_valid_init x Hx) as HC. rewrite (get_paths_eq x HC). destruct init_attrs as (E1 & E2 & E3 & E4 & E5 & E6).
  pose proof Hx as (K1 & K2 & K3 & K4 & K5 & K6 & _).
  assert (EM : cv_mult x = length paths). { unfold cv_mult. rewrite <- (map_length pat_proto), K5, E6, map_length. auto. }
  assert (EG : cv_genus x = N ^ d) by (unfold cv_genus; rewrite K2, K3, E1, E2; auto).
  rewrite E1 in K2. rewrite E2 in K3.
  set (dflt := Pa (Pr 0 0 []) [] (Lk [] []) : path (list Qc)). set (Q := fun p => nth p paths dflt).
  assert (HQ : forall p, p < cv_mult x -> nth_error paths p = Some (Q p)).
  { intros p Hp. rewrite EM in Hp. unfold Q. destruct (nth_error paths p) eqn:E; [|apply nth_error_None in E; lia]. rewrite (nth_error_nth _ _ _ E). auto. }
  assert (HQv : forall p, p < cv_mult x -> valid_ppath d (Q p) /\ valid_proto d N (pa_proto (Q p))).
  { intros p Hp. apply (path_valid d N paths HP). apply HQ in Hp. eapply nth_error_In; eauto. }
  set (K := core_of x). pose proof (valid_curve_fuzzy x HC) as HV.
  assert (HS : forall p k, p < cv_mult x -> k < cv_genus x -> fits d group dtr paths p k (kspec K p k)).
  { intros p k Hp Hk. pose proof (defined_kspec x p k (all_defined x HC p k Hp Hk)) as E. destruct (chosen_fits x p k Hx) as (s & A & B); try lia. fold K in E. congruence. }
  assert (HL : forall p k, p < cv_mult x -> k < cv_genus x -> nth_error (pa_links (Q p)) k = Some (pl_mul (sp_bm (kspec K p k)) (pa_link (Q (sp_pnum (kspec K p k)))))).
  { intros p k Hp Hk. destruct (HS p k Hp Hk) as (pth & l & other & A & B & C & _ & D). rewrite (HQ p Hp) in A. inversion A; subst pth. rewrite B. f_equal.
    rewrite HQ in C. 2:{ destruct (kspec_wf x HC p k Hp Hk) as [_ W]. exact W. } inversion C; subst other. auto. }
  assert (HPR : forall p, p < cv_mult x -> pa_proto (cpath x p) = pa_proto (Q p)).
  { intros p Hp. destruct (nth_pat x HV p Hp) as (pat & E & _). unfold cpath. cbn [pa_proto]. rewrite <- (pat_proto_eq x HC p pat E).
    pose proof (f_equal (fun l => nth_error l p) (eq_trans K5 E6)) as EP. cbn in EP. rewrite !nth_error_map, E, (HQ p Hp) in EP. cbn in EP. congruence. }
  assert (GP : 0 < cv_genus x) by (apply (Gp x HC)).
  assert (HU : forall p, p < cv_mult x -> klink x p = pa_link (Q p)).
  { intros p Hp. change (klink x p) with (pa_link (cpath x p)).
    apply (links_unique d N (cv_mult x)) with (P := cpath x) (sp := fun p (w : bool) => kspec K p (if w then cv_genus x - 1 else 0)); auto.
    - apply HP.
    - intros q Hq. pose proof (cpath_valid x HC q Hq). rewrite K2 in H. exact H.
    - intros q Hq. apply HQv; auto.
    - intros q w Hq. pose proof (kspec_wf x HC q (if w then cv_genus x - 1 else 0) Hq ltac:(destruct w; lia)) as W. rewrite K2 in W. exact W.
    - intros q w Hq. unfold cpath at 1 2. unfold end_num. cbn [pa_links]. rewrite map_length, seq_length. rewrite nth_error_seq_map by (destruct w; lia). reflexivity.
    - intros q w Hq. unfold end_num. rewrite (vp_len _ _ (proj1 (HQv q Hq))). rewrite (valid_proto_cubes d N _ (proj2 (HQv q Hq))). rewrite <- EG. apply HL; auto. destruct w; lia. }
  f_equal. apply nth_error_ext. intros p. destruct (Nat.lt_ge_cases p (cv_mult x)) as [Hp|Hp].
  - unfold range. rewrite nth_error_seq_map by auto. rewrite (HQ p Hp). f_equal. pose proof (HPR p Hp) as EPR. unfold cpath in *. cbn [pa_proto] in EPR. rewrite EPR. rewrite (HU p Hp).
    destruct (Q p) as [qp ql qk] eqn:EQ. cbn [pa_proto pa_link]. f_equal. apply nth_error_ext. intros k.
    pose proof (HQv p Hp) as [V1 V2]. rewrite EQ in V1, V2. pose proof (vp_len _ _ V1) as LL. cbn [pa_links pa_proto] in *. rewrite (valid_proto_cubes d N _ V2), <- EG in LL.
    destruct (Nat.lt_ge_cases k (cv_genus x)) as [Hk|Hk].
    + rewrite nth_error_seq_map by auto. pose proof (HL p k Hp Hk) as A. rewrite EQ in A. cbn [pa_links] in A. transitivity (Some (pl_mul (sp_bm (kspec K p k)) (pa_link (Q (sp_pnum (kspec K p k)))))); [|symmetry; exact A]. unfold flink. f_equal. f_equal. apply HU.
      apply (kspec_wf x HC p k Hp Hk).
    + transitivity (@None plink); [apply nth_error_None; rewrite map_length, seq_length; auto|symmetry; apply nth_error_None; rewrite <- LL in Hk; exact Hk].
  - transitivity (@None (path (list Qc))); [apply nth_error_None; unfold range; rewrite map_length, seq_length; auto|symmetry; apply nth_error_None; lia].
Qed.
Lemma chosen_check x : chosen_from c x -> (forall p, In p paths -> joined_path p) -> check x = Some true.
Proof.
  intros Hx HJ. unfold check. rewrite (chosen_paths x Hx). cbn [obind].
  assert (E : omap (pa_is_continuous point_ops) paths = Some (map (fun _ => true) paths)).
  { apply omap_Some. clear -HJ HP. destruct HP as (_ & _ & _ & HF). clear HP. induction HF as [|p l [Hp _] HF IH]; cbn; constructor.
    - destruct (is_continuous_exact d p Hp) as (r & E & H). rewrite E. f_equal. apply H, HJ. left; auto.
    - apply IH. intros q Hq. apply HJ. right; auto. }
  rewrite E. cbn [option_map]. f_equal. clear. induction paths; cbn; auto.
Qed.
End Main.

Section Forget.
Context (x : curve) (HC : valid_curve x) (group : option (list base_map)) (dtr : bool).
Notation d := (cv_dim x). Notation N := (cv_div x).
Context (HG : valid_group d group) (HU : forall p k s, get_spec x p k = Some (Some s) -> usable d group dtr (sp_bm s)).
Let HV := valid_curve_fuzzy x HC.
Lemma forget_paths_valid : valid_paths d N (map (cpath x) (range (cv_mult x))).
Proof.
  pose proof HC as (H1 & H2 & H3 & _ & _). repeat split; auto.
  - intros E. apply (f_equal (@length _)) in E. rewrite map_length in E. unfold range in E. rewrite seq_length in E. cbn in E. lia.
  - apply Forall_map. apply Forall_forall. intros p Hp. apply in_seq in Hp. split; [apply (cpath_valid x HC); lia|]. unfold cpath. cbn [pa_proto].
    destruct (nth_pat x HV p) as (pat & E & W); [lia|]. rewrite <- (pat_proto_eq x HC p pat E). apply W.
Qed.
Lemma forget_fits p k s : get_spec x p k = Some (Some s) -> fits d group dtr (map (cpath x) (range (cv_mult x))) p k s.
Proof.
  intros E. destruct (nth_spec_wf x HV p k s E) as ([W1 W2] & Hk & Hp).
  pose proof (defined_kspec x p k (all_defined x HC p k Hp Hk)) as E'. assert (s = kspec (core_of x) p k) by congruence. subst s.
  exists (cpath x p), (flink x p k), (cpath x (sp_pnum (kspec (core_of x) p k))). unfold range. rewrite !nth_error_seq_map by auto. repeat split; auto; try (apply (HU p k); auto).
  unfold cpath. cbn [pa_links]. apply (nth_error_seq_map (flink x p)); auto.
Qed.
Lemma forget_chosen : exists f l, forget x group dtr = Some f /\ gen_possible_curves f = Some l /\ In (pattern_curve x 0) l.
Proof.
  unfold forget. rewrite (get_paths_eq x HC). cbn [obind]. pose proof forget_paths_valid as HP.
  assert (LEN : length (map (cpath x) (range (cv_mult x))) = cv_mult x) by (unfold range; rewrite map_length, seq_length; auto).
  assert (EC : exists f, init_from_paths (map (cpath x) (range (cv_mult x))) group dtr = Some f).
  { destruct (init_from_paths _ group dtr) as [f|] eqn:E; [eauto|]. apply (init_none d N group dtr _ HG HP) in E as (p & k & pth & l & A & B & H).
    exfalso. assert (Hp : p < cv_mult x) by (rewrite <- LEN; apply nth_error_Some; congruence).
    unfold range in A. rewrite nth_error_seq_map in A by auto. inversion A; subst pth. unfold cpath in B. cbn [pa_links] in B.
    assert (Hk : k < cv_genus x). { assert (L : k < length (map (flink x p) (seq 0 (cv_genus x)))) by (apply nth_error_Some; intros F0; enough (Some l = None) by discriminate; rewrite <- B; exact F0). rewrite map_length, seq_length in L. auto. }
    apply (H (kspec (core_of x) p k)). apply forget_fits. apply (defined_kspec x p k (all_defined x HC p k Hp Hk)). }
  destruct EC as (f & EC). destruct (init_possible d N group dtr _ HG HP f EC) as (l & E & _ & _ & H). exists f, l. split; auto. split; auto. apply H.
  destruct (init_attrs d N group dtr _ HG HP f EC) as (E1 & E2 & E3 & E4 & E5 & E6). rewrite LEN in E4.
  pose proof HC as (_ & _ & _ & KC & HF). unfold chosen_from, pattern_curve, cv_with_pnum. cbn [cv_kind cv_dim cv_div cv_pnum cv_pats]. repeat split; auto.
  - rewrite E6, map_map. apply nth_error_ext. intros p. rewrite nth_error_map. destruct (nth_error (cv_pats x) p) as [pat|] eqn:F.
    + assert (Hp : p < cv_mult x) by (unfold cv_mult; apply nth_error_Some; congruence). unfold range. rewrite (nth_error_seq_map (fun q => pa_proto (cpath x q))) by auto.
      cbn [option_map]. rewrite (pat_proto_eq x HC p pat F). reflexivity.
    + apply nth_error_None in F. symmetry. apply nth_error_None. unfold range. rewrite map_length, seq_length. exact F.
  - rewrite Forall_forall in *. intros pat Hin. rewrite E5. apply (HF pat Hin).
  - intros p k Hp Hk. rewrite E4 in Hp. rewrite E5 in Hk. pose proof (defined_kspec x p k (all_defined x HC p k Hp Hk)) as ED.
    destruct (init_allowed d N group dtr _ HG HP f p k EC) as (R & A & _ & B); [lia|auto|]. exists (kspec (core_of x) p k), R. split; [exact ED|]. split; auto.
    apply B, forget_fits. exact ED.
Qed.
End Forget.
