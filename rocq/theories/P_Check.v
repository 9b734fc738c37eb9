(** Paths of a curve and the test of continuity (C20). *)
From Verif Require Import Py L_Py L_Qc M_BaseMaps S_BaseMaps L_BaseMaps P_Actions P_GenMaps M_Subsets S_Subsets P_Subsets P_Points P_Facets
  M_Paths M_Utils M_Curves S_Utils L_R P_Utils S_Curves S_Paths P_CurveAct L_Digits P_Core P_Bridge P_Paths P_Entrance P_Cont.
From Coq Require Import Reals Lra Lia.
Local Open Scope nat_scope.

Lemma list_as_map {A} (l : list A) (f : nat -> A) n : length l = n -> (forall k, k < n -> nth_error l k = Some (f k)) -> l = map f (seq 0 n).
Proof.
  revert f n. induction l as [|a l IH]; intros f n HL H; cbn in HL; subst n; auto. cbn [seq map length].
  f_equal; [specialize (H 0 ltac:(cbn; lia)); cbn in H; congruence|]. rewrite <- seq_shift, map_map. apply IH; auto.
  intros k Hk. apply (H (S k)). cbn. lia.
Qed.
Lemma nth_error_seq_map {A} (f : nat -> A) n k : k < n -> nth_error (map f (seq 0 n)) k = Some (f k).
Proof.
  intros Hk. rewrite nth_error_map. destruct (nth_error (seq 0 n) k) as [i|] eqn:E.
  - apply nth_error_nth with (d := 0) in E. rewrite seq_nth in E by auto. cbn in *. subst. auto.
  - apply nth_error_None in E. rewrite seq_length in E. lia.
Qed.

Section Check.
Context (c : curve) (HC : valid_curve c).
Notation K := (core_of c). Notation d := (cv_dim c). Notation N := (cv_div c). Notation G := (cv_genus c). Notation m := (cv_mult c).
Let HV : valid_fuzzy c := valid_curve_fuzzy c HC.
Let HK : core_ok K := full_ok K (core_of_full c HV).
Let HE : ends_def c := curve_ends_def c HC.

Lemma pat_specs_eq p pat : nth_error (cv_pats c) p = Some pat -> pat_specs pat = map (fun k => Some (kspec K p k)) (seq 0 G).
Proof.
  intros E. apply list_as_map; [apply (specs_length c HV p); auto|]. intros k Hk.
  assert (Hp : p < m) by (unfold cv_mult; apply nth_error_Some; congruence).
  pose proof (defined_kspec c p k (all_defined c HC p k Hp Hk)) as H. unfold get_spec in H. rewrite E in H. auto.
Qed.
Lemma pat_cubes_eq p pat : nth_error (cv_pats c) p = Some pat -> pr_cubes (pat_proto pat) = map (fun k => Some (kcube K p k)) (seq 0 G).
Proof.
  intros E. apply list_as_map; [apply (cubes_length c HV p); auto|]. intros k Hk. apply (nth_cube c HV); auto.
Qed.
Lemma pat_proto_eq p pat : nth_error (cv_pats c) p = Some pat -> pat_proto pat = Pr d N (map (fun k => Some (kcube K p k)) (seq 0 G)).
Proof.
  intros E. rewrite <- (pat_cubes_eq p pat E). pose proof HC as (_ & _ & _ & _ & HF). rewrite Forall_forall in HF.
  destruct (HF pat (nth_error_In _ _ E)) as ((E1 & E2 & _) & _). destruct (pat_proto pat); cbn in *. subst; auto.
Qed.
Definition klink (p : nat) : plink :=
  Lk (match get_entrance c (Some p) with Some e => e | None => [] end) (match get_exit c (Some p) with Some e => e | None => [] end).
Lemma klink_is p : p < m -> is_link c p (klink p).
Proof.
  intros Hp. destruct (link_exists c HV HE p Hp) as (l & [H1 H2] & _). unfold klink. rewrite H1, H2. split; auto.
Qed.
Lemma is_link_klink p l : p < m -> is_link c p l -> l = klink p.
Proof. intros Hp [H1 H2]. unfold klink. rewrite H1, H2. destruct l; auto. Qed.
Lemma links_eq : omap (fun p => match get_entrance c (Some p), get_exit c (Some p) with
                       | Some e, Some x => Some (Lk e x) | _, _ => None end) (range m) = Some (map klink (range m)).
Proof.
  apply omap_Some. apply (proj2 (Forall2_nth _ _ _ 0 (klink 0))). split; [rewrite map_length; auto|]. intros i Hi. unfold range in *. rewrite seq_length in Hi.
  rewrite map_nth. rewrite seq_nth by auto. cbn. destruct (klink_is i Hi) as [E1 E2]. unfold klink in *. cbn [entrance exit] in *. rewrite E1, E2. auto.
Qed.
(** the link of a fraction *)
Definition flink (p k : nat) : plink := pl_mul (sp_bm (kspec K p k)) (klink (sp_pnum (kspec K p k))).
Lemma kspec_wf p k : p < m -> k < G -> wf_spec d m (kspec K p k).
Proof. intros Hp Hk. apply (ok_spec K HK); auto. Qed.
Lemma klink_dim p : p < m -> pl_dim d (klink p).
Proof. intros Hp. apply (link_dim c HV HE p); auto using klink_is. Qed.
Lemma flink_dim p k : p < m -> k < G -> pl_dim d (flink p k).
Proof. intros Hp Hk. apply pl_mul_dim. apply kspec_wf; auto. Qed.
Lemma frac_links p pat : p < m -> nth_error (cv_pats c) p = Some pat ->
  omap (fun os => obind os (pl_at (map klink (range m)))) (pat_specs pat) = Some (map (flink p) (seq 0 G)).
Proof.
  intros Hp E. rewrite (pat_specs_eq p pat E). apply omap_Some. apply (proj2 (Forall2_nth _ _ _ None (flink p 0))). rewrite !map_length, seq_length. split; auto.
  intros i Hi. rewrite (map_nth_lt (fun k => Some (kspec K p k))) with (d := 0) by (rewrite seq_length; auto). rewrite map_nth.
  rewrite seq_nth by auto. cbn [obind Nat.add]. unfold pl_at. destruct (kspec_wf p i Hp Hi) as [_ Hm]. unfold range. rewrite nth_error_seq_map by auto. auto.
Qed.
Definition cpath (p : nat) : path (list Qc) := Pa (Pr d N (map (fun k => Some (kcube K p k)) (seq 0 G))) (map (flink p) (seq 0 G)) (klink p).
Lemma Gp : 0 < G. Proof. apply (G_pos c HV). Qed.
Lemma cube_at_kcube p k : p < m -> k < G -> cube_at c p k = Some (Some (kcube K p k)).
Proof.
  intros Hp Hk. unfold cube_at. destruct (nth_pat c HV p Hp) as (pat & E & _). rewrite E. apply (nth_cube c HV p k pat); auto.
Qed.
Lemma mk_cpath p : p < m -> mk_path point_ops (Pr d N (map (fun k => Some (kcube K p k)) (seq 0 G))) (map (flink p) (seq 0 G)) = Some (cpath p).
Proof.
  intros Hp. pose proof Gp as HG. rewrite mk_path_eq with (l0 := flink p 0) (l1 := flink p (G - 1)) (c0 := kcube K p 0) (c1 := kcube K p (G - 1)).
  - cbn [pr_div]. unfold cpath. f_equal. f_equal. pose proof (kspec_wf p 0 Hp HG) as [W0 P0]. pose proof (kspec_wf p (G - 1) Hp ltac:(lia)) as [W1 P1].
    destruct (link_selfsim c HV HE p (klink p) (kcube K p 0) (kcube K p (G - 1)) (kspec K p 0) (kspec K p (G - 1)) (klink (sp_pnum (kspec K p 0))) (klink (sp_pnum (kspec K p (G - 1))))) as [S0 S1];
      try apply klink_is; auto; try (apply cube_at_kcube; auto; lia); try (apply defined_kspec, all_defined; auto; lia).
    assert (HN : 1 <= N) by (pose proof (proj1 (proj2 HV)); lia).
    apply pt_map_to_cube_exact in S0, S1; auto.
    + fold (flink p 0) in S0. fold (flink p (G - 1)) in S1. rewrite S0, S1. destruct (klink p); auto.
    + fold (flink p (G - 1)). rewrite (proj2 (flink_dim p (G - 1) Hp ltac:(lia))). apply (ok_cube K HK); auto. change (kG K) with G. lia.
    + fold (flink p 0). rewrite (proj1 (flink_dim p 0 Hp ltac:(lia))). apply (ok_cube K HK); auto.
  - intros E. apply (f_equal (@length _)) in E. rewrite map_length, seq_length in E. cbn in E. lia.
  - cbn [pr_cubes]. intros E. apply (f_equal (@length _)) in E. rewrite map_length, seq_length in E. cbn in E. lia.
  - apply nth_error_seq_map; auto.
  - rewrite map_length, seq_length. apply nth_error_seq_map; lia.
  - cbn [pr_cubes]. apply (nth_error_seq_map (fun k => Some (kcube K p k))); auto.
  - cbn [pr_cubes]. rewrite map_length, seq_length. apply (nth_error_seq_map (fun k => Some (kcube K p k))); lia.
Qed.
Lemma cpath_valid p : p < m -> valid_ppath d (cpath p).
Proof.
  intros Hp. pose proof Gp. constructor; cbn; auto.
  - pose proof (proj1 (proj2 HV)); lia.
  - rewrite Forall_map. apply Forall_forall. intros k Hk. apply in_seq in Hk. exists (kcube K p k). split; auto. apply (ok_cube K HK); auto. change (kG K) with G. lia.
  - rewrite Forall_map. apply Forall_forall. intros k Hk. apply in_seq in Hk. apply flink_dim; auto; lia.
  - rewrite !map_length. auto.
  - intros E. apply (f_equal (@length _)) in E. rewrite map_length, seq_length in E. cbn in E. lia.
  - apply mk_cpath; auto.
Qed.
Lemma get_paths_eq : get_paths c = Some (map cpath (range m)).
Proof.
  unfold get_paths. rewrite links_eq. apply omap_Some.
  apply (proj2 (Forall2_nth _ _ _ (Pat (Pr 0 0 []) []) (cpath 0))). rewrite map_length. unfold range. rewrite seq_length. split; auto.
  intros i Hi. change (i < m) in Hi. rewrite map_nth, seq_nth by auto. cbn [Nat.add]. destruct (nth_pat c HV i Hi) as (pat & E & _).
  rewrite (nth_error_nth _ _ _ E). change (seq 0 m) with (range m); rewrite (frac_links i pat Hi E). cbn [obind]. rewrite (pat_proto_eq i pat E). apply mk_cpath; auto.
Qed.

(** the exit of a fraction, the entrance of the next one *)
Lemma joined_kcont : kcont K <-> forall p, p < m -> joined_path (cpath p).
Proof.
  assert (HN : 1 <= N) by (pose proof (proj1 (proj2 HV)); lia).
  assert (HU : forall p k x x', p < m -> k + 1 < G -> kgraph K (kspec K p k) 1 x -> kgraph K (kspec K p (k + 1)) 0 x' ->
     (unzoom K (kcube K p k) x = unzoom K (kcube K p (k + 1)) x' <->
      forall y, place_in N (kcube K p k) (exit (flink p k)) y <-> place_in N (kcube K p (k + 1)) (entrance (flink p (k + 1))) y)).
  { intros p k x x' Hp Hk Hx Hx'. pose proof (kspec_wf p k Hp ltac:(lia)) as W. pose proof (kspec_wf p (k + 1) Hp ltac:(lia)) as W'.
    destruct (spec_link_kgraph c HV HE _ _ W (klink_is _ (proj2 W))) as [_ B]. destruct (spec_link_kgraph c HV HE _ _ W' (klink_is _ (proj2 W'))) as [A _].
    fold (flink p k) in B. fold (flink p (k + 1)) in A.
    rewrite (kgraph_end_unique K HK _ 1%R x _ (or_intror eq_refl) Hx B). rewrite (kgraph_end_unique K HK _ 0%R x' _ (or_introl eq_refl) Hx' A).
    destruct (flink_dim p k Hp ltac:(lia)) as [_ D]. destruct (flink_dim p (k + 1) Hp ltac:(lia)) as [D' _].
    assert (Q : length (kcube K p k) = d) by (apply (ok_cube K HK); auto; change (kG K) with G; lia).
    assert (Q' : length (kcube K p (k + 1)) = d) by (apply (ok_cube K HK); auto; change (kG K) with G; lia).
    rewrite !unzoom_map by auto. rewrite <- map_to_cube_eq_place by (auto; lia). split; [apply map_qR_inj|congruence]. }
  split.
  - intros H p Hp i q l q' l' y E1 E2 E3 E4. cbn [cpath pa_proto pa_links pr_cubes pr_div] in *.
    assert (Hi : S i < G) by (rewrite <- (seq_length G 0), <- (map_length (flink p)); apply nth_error_Some; intros Z0; pose proof (eq_trans (eq_sym Z0) E4) as Z1; discriminate Z1).
    rewrite nth_error_seq_map in E1, E3 by lia. pose proof (eq_trans (eq_sym (nth_error_seq_map (flink p) G i ltac:(lia))) E2) as E2'.
    pose proof (eq_trans (eq_sym (nth_error_seq_map (flink p) G (S i) ltac:(lia))) E4) as E4'. clear E2 E4. rename E2' into E2. rename E4' into E4. assert (Q1 : q = kcube K p i) by congruence. assert (Q2 : q' = kcube K p (S i)) by congruence.
    assert (Q3 : l = flink p i) by (injection E2; auto). assert (Q4 : l' = flink p (S i)) by (injection E4; auto). clear E1 E2 E3 E4. subst q q' l l'.
    replace (S i) with (i + 1) in * by lia.
    destruct (kgraph_total K HK (kspec K p i) 1) as (x & Hx); [apply kspec_wf; auto; lia|lra|].
    destruct (kgraph_total K HK (kspec K p (i + 1)) 0) as (x' & Hx'); [apply kspec_wf; auto; lia|lra|].
    apply (HU p i x x'); auto.
  - intros H p k x x' Hp Hk Hx Hx'. change (kG K) with G in Hk. apply HU; auto. intros y. apply (H p Hp k); cbn [cpath pa_proto pa_links pr_cubes pr_div];
      rewrite ?nth_error_seq_map by lia; auto. + replace (S k) with (k + 1) by lia. auto. + replace (S k) with (k + 1) by lia. auto.
Qed.
Lemma check_exact : exists r, check c = Some r /\ (r = true <-> kcont K).
Proof.
  unfold check. rewrite get_paths_eq. cbn [obind].
  assert (H : exists rs, omap (pa_is_continuous point_ops) (map cpath (range m)) = Some rs /\
     Forall2 (fun p r => r = true <-> joined_path (cpath p)) (range m) rs).
  { assert (HA : Forall (fun p => p < m) (range m)) by (apply Forall_forall; intros p Hp; apply in_seq in Hp; lia).
    induction HA as [|p l Hp _ IH]; [exists []; split; auto|]. destruct IH as (rs & E & F). cbn [map omap].
    destruct (is_continuous_exact d (cpath p) (cpath_valid p Hp)) as (r & Er & Hr). exists (r :: rs). rewrite Er, E. split; auto. }
  destruct H as (rs & E & F). rewrite E. cbn [option_map]. eexists. split; [reflexivity|]. rewrite joined_kcont.
  assert (E1 : forallb (fun b => b) rs = true <-> forall p, In p (range m) -> joined_path (cpath p)).
  { clear E. induction F as [|p r l rs Hr F IH]; cbn; [tauto|]. rewrite andb_true_iff, Hr, IH. split.
    - intros [H1 H2] q [<-|Hq]; auto.
    - intros H; auto. }
  rewrite E1. split; intros H p Hp; apply H; [apply in_seq; lia|apply in_seq in Hp; lia].
Qed.

Lemma kcont_joined : kcont K <-> joined_curve c.
Proof.
  assert (W : forall p, p < m -> wfS K (Sp (id_map d) p)) by (intros; apply (wfS_id c); auto).
  assert (HN : (2 <= IZR (Z.of_nat N))%R) by (apply (RN_ge2 K HK)).
  assert (HU : forall q x q' x', length q = d -> length q' = d ->
    (unzoom K q x = unzoom K q' x' <-> forall j, j < d -> (IZR (nth j q 0%Z) + nth j x 0 = IZR (nth j q' 0%Z) + nth j x' 0)%R)).
  { intros q x q' x' Hq Hq'. split.
    - intros E j Hj. apply (f_equal (fun l => nth j l 0%R)) in E. rewrite !nth_unzoom in E by auto.
      apply (f_equal (fun r => (r * IZR (Z.of_nat N))%R)) in E. change (kN K) with N in E. unfold Rdiv in E. rewrite !Rmult_assoc, Rinv_l in E by lra. lra.
    - intros E. apply nth_ext with 0%R 0%R; [rewrite !unzoom_length; auto|]. rewrite unzoom_length. intros j Hj. rewrite !nth_unzoom by auto. rewrite Rplus_comm, E by auto.
      f_equal. ring. }
  split.
  - intros H p k q f q' f' x x' j Hp E1 E2 Hx Hx' Hj. rewrite (pattern_curve_eq c HC) in E1, E2.
    assert (Hk : S k < G). { destruct (le_lt_dec G (S k)) as [L|L]; auto. rewrite (fraction_ge c HV) in E2 by (auto; apply W; auto). discriminate. }
    rewrite (fraction_reg c HC) in E1, E2 by (auto; try lia; apply W; auto). injection E1 as <- <-. injection E2 as <- <-.
    rewrite kstep_id with (s := kspec K p k) in Hx by (auto; apply defined_kspec, all_defined; auto; lia).
    rewrite kstep_id with (s := kspec K p (S k)) in Hx' by (auto; apply defined_kspec, all_defined; auto; lia).
    rewrite !kcb_id by (auto; lia).
    apply (graph_kgraph c HC) in Hx; [|apply kspec_wf; auto; lia]. apply (graph_kgraph c HC) in Hx'; [|apply kspec_wf; auto; lia].
    apply HU with (q := kcube K p k) (q' := kcube K p (S k)); auto; try (apply (ok_cube K HK); auto; change (kG K) with G; lia).
    replace (S k) with (k + 1) in * by lia. apply H; auto.
  - intros H p k x x' Hp Hk Hx Hx'. change (kG K) with G in Hk. change (km K) with m in Hp. apply HU; try (apply (ok_cube K HK); auto; change (kG K) with G; lia).
    intros j Hj. replace (k + 1) with (S k) in * by lia.
    pose proof (fraction_reg c HC (Sp (id_map d) p) k (W p Hp) ltac:(lia)) as F. pose proof (fraction_reg c HC (Sp (id_map d) p) (S k) (W p Hp) ltac:(lia)) as F'.
    rewrite kstep_id with (s := kspec K p k), kcb_id in F by (auto; try lia; apply defined_kspec, all_defined; auto; lia).
    rewrite kstep_id with (s := kspec K p (S k)), kcb_id in F' by (auto; try lia; apply defined_kspec, all_defined; auto; lia).
    rewrite <- (pattern_curve_eq c HC) in F, F'. apply (H p k _ _ _ _ x x' j Hp F F'); auto.
    + apply (graph_kgraph c HC); auto. apply kspec_wf; auto; lia.
    + apply (graph_kgraph c HC); auto. apply kspec_wf; auto; lia.
Qed.
Lemma check_joined : exists r, check c = Some r /\ (r = true <-> joined_curve c).
Proof. destruct check_exact as (r & E & H). exists r. split; auto. rewrite H. apply kcont_joined. Qed.
Lemma check_kcont : check c = Some true -> kcont K.
Proof. intros E. destruct check_exact as (r & E' & H). apply H. congruence. Qed.
Lemma check_depth n : check c = Some true -> joined_at_depth c n.
Proof.
  intros E p cs cs' cubes f cubes' f' x x' j Hp L L' HT E1 E2 Hx Hx' Hj. apply check_kcont in E.
  assert (W : wfS K (Sp (id_map d) p)) by (apply (wfS_id c); auto). rewrite (pattern_curve_eq c HC) in E1, E2.
  pose proof (walk_some c HC cs _ _ W E1) as Wc. pose proof (walk_some c HC cs' _ _ W E2) as Wc'.
  rewrite (walk_eq c HC) in E1, E2 by auto. injection E1 as <- <-. injection E2 as <- <-.
  apply (graph_kgraph c HC) in Hx; [|apply (kst_wf K HK); auto]. apply (graph_kgraph c HC) in Hx'; [|apply (kst_wf K HK); auto].
  pose proof (kcont_deep K HK E cs cs' _ x x' W Wc Wc' ltac:(congruence) HT Hx Hx') as EU.
  apply (f_equal (fun l => nth j l 0%R)) in EU. rewrite !(nth_unzooms K HK) in EU by auto. rewrite L, L' in EU.
  pose proof (RNp K HK n) as HP. apply (f_equal (fun r => (r * IZR (Z.of_nat (kN K)) ^ n)%R)) in EU. unfold Rdiv in EU. rewrite !Rmult_assoc, Rinv_l in EU by lra.
  unfold kX in EU. change (kN K) with N in EU. lra.
Qed.
Lemma graph_range p t x : p < m -> graph (pattern_curve c p) t x -> (0 <= t <= 1)%R /\ in_unit_cube d x.
Proof. intros Hp H. apply (graph_pattern c HC) in H; auto. exact (kgraph_range K _ _ _ H). Qed.
Lemma graph_total p t : p < m -> (0 <= t <= 1)%R -> exists x, graph (pattern_curve c p) t x.
Proof.
  intros Hp Ht. destruct (kgraph_total K HK (Sp (id_map d) p) t) as (x & Hx); auto; [apply (wfS_id c); auto|].
  exists x. apply (graph_pattern c HC); auto.
Qed.
Lemma graph_onto p x : p < m -> in_unit_cube d x -> exists t, graph (pattern_curve c p) t x.
Proof.
  intros Hp [HL Hx]. destruct (kgraph_surj K (core_of_full c HV) (Sp (id_map d) p) x) as (t & Ht); auto; [apply (wfS_id c); auto|].
  exists t. apply (graph_pattern c HC); auto.
Qed.
Lemma graph_single p t x y : check c = Some true -> p < m -> graph (pattern_curve c p) t x -> graph (pattern_curve c p) t y -> x = y.
Proof.
  intros E Hp Hx Hy. apply check_kcont in E. apply (graph_pattern c HC) in Hx, Hy; auto. eapply (kunique K HK E); eauto. apply (wfS_id c); auto.
Qed.
Lemma graph_continuous p eps : check c = Some true -> p < m -> (0 < eps)%R -> exists del, (0 < del)%R /\
  forall t t' x x' j, (Rabs (t - t') < del)%R -> graph (pattern_curve c p) t x -> graph (pattern_curve c p) t' x' -> j < d ->
    (Rabs (nth j x 0 - nth j x' 0) < eps)%R.
Proof.
  intros E Hp He. apply check_kcont in E. destruct (kcontinuous K HK E (Sp (id_map d) p) eps) as (del & Hd & H); auto; [apply (wfS_id c); auto|].
  exists del. split; auto. intros t t' x x' j Ht Hx Hx' Hj. apply (graph_pattern c HC) in Hx, Hx'; auto. eapply H; eauto.
Qed.
Lemma graph_modulus p n t t' x x' j : check c = Some true -> p < m -> (Rabs (t - t') * IZR (Z.of_nat G) ^ n < 1)%R ->
  graph (pattern_curve c p) t x -> graph (pattern_curve c p) t' x' -> j < d -> (Rabs (nth j x 0 - nth j x' 0) * IZR (Z.of_nat N) ^ n <= 2)%R.
Proof.
  intros E Hp Ht Hx Hx' Hj. apply check_kcont in E. apply (graph_pattern c HC) in Hx, Hx'; auto.
  apply (kmodulus K HK E (Sp (id_map d) p) n t t'); auto. apply (wfS_id c); auto.
Qed.
End Check.
