(** Point paths: continuity and the action of base maps (C14). *)
From Verif Require Import Py L_Py L_Qc M_BaseMaps S_BaseMaps L_BaseMaps P_Actions M_Subsets S_Subsets P_Subsets P_Points
  M_Paths M_Curves S_Curves S_Paths P_CurveAct P_Bridge.
Local Open Scope nat_scope.

Lemma nth_pt_shift sh p j : j < length p -> nth j (pt_shift sh p) 0%Qc = (nth j p 0 + nth j sh 0)%Qc.
Proof.
  intros Hj. unfold pt_shift. assert (E : nth_error (enumerate p) j = Some (j, nth j p 0%Qc)).
  { rewrite enumerate_nth_error, (nth_error_nth' p 0%Qc) by auto. auto. }
  erewrite nth_error_nth; [reflexivity|]. rewrite nth_error_map, E. reflexivity.
Qed.
Lemma pt_shift_length sh p : length (pt_shift sh p) = length p.
Proof. unfold pt_shift. rewrite map_length. unfold enumerate. rewrite combine_length, seq_length. lia. Qed.
Lemma pt_map_length N c p : length (pt_map_to_cube N c p) = length p.
Proof. unfold pt_map_to_cube, pt_scale. rewrite map_length. apply pt_shift_length. Qed.
Lemma nth_pt_map N c p j : j < length p -> length c = length p ->
  nth j (pt_map_to_cube N c p) 0%Qc = ((nth j p 0 + Zq (nth j c 0%Z)) * / Nq N)%Qc.
Proof.
  intros Hj HL. unfold pt_map_to_cube, pt_scale. rewrite map_nth_lt with (d := 0%Qc) by (rewrite pt_shift_length; auto).
  rewrite nth_pt_shift by auto. rewrite (map_nth_lt Zq) with (d := 0%Z) by lia. reflexivity.
Qed.
Lemma nth_pt_mul d b p j : wf_bm d b -> j < d -> nth j (pt_mul b p) 0%Qc =
  (let kf := nth j (coords b) (0%nat, false) in if snd kf then 1 - nth (fst kf) p 0 else nth (fst kf) p 0)%Qc.
Proof. intros Hb Hj. unfold pt_mul, apply_x. rewrite nth_act by (rewrite (wf_length d); auto). reflexivity. Qed.
Lemma nth_apply_cube d b N q j : wf_bm d b -> j < d -> nth j (apply_cube b N q) 0%Z =
  (let kf := nth j (coords b) (0%nat, false) in if snd kf then N - nth (fst kf) q 0 - 1 else nth (fst kf) q 0)%Z.
Proof. intros Hb Hj. unfold apply_cube. rewrite nth_act by (rewrite (wf_length d); auto). reflexivity. Qed.
Lemma list_ext_nth {A} (x y : list A) dflt : length x = length y -> (forall j, j < length x -> nth j x dflt = nth j y dflt) -> x = y.
Proof. intros. apply nth_ext with dflt dflt; auto. Qed.

Lemma pt_map_mul d b N c p : wf_bm d b -> 1 <= N -> length c = d -> length p = d ->
  pt_map_to_cube N (apply_cube b (Z.of_nat N) c) (pt_mul b p) = pt_mul b (pt_map_to_cube N c p).
Proof.
  intros Hb HN Hc Hp. pose proof (pt_mul_length d b p Hb) as HL. apply list_ext_nth with 0%Qc.
  - rewrite pt_map_length, HL, (pt_mul_length d); auto.
  - rewrite pt_map_length, HL. intros j Hj. rewrite nth_pt_map by (rewrite ?(length_apply_cube d), ?HL; auto).
    rewrite !(nth_pt_mul d), (nth_apply_cube d) by auto. pose proof (wf_nth_lt d b j Hb Hj) as Hk.
    destruct (nth j (coords b) (0, false)) as [k []]; cbn [fst snd] in *.
    + rewrite nth_pt_map by lia. pose proof (Nq_neq0 N HN) as H0.
      replace (Z.of_nat N - nth k c 0 - 1)%Z with (Z.of_nat N + - (nth k c 0) + - (1))%Z by ring.
      rewrite !Zq_add, !Zq_opp. change (Zq (Z.of_nat N)) with (Nq N). change (Zq 1) with 1%Qc. field; auto.
    + rewrite nth_pt_map by lia. reflexivity.
Qed.

Lemma map_to_cube_eq_place N c p c' p' : 1 <= N -> length c = length p -> length c' = length p' ->
  (pt_map_to_cube N c p = pt_map_to_cube N c' p' <-> (forall y, place_in N c p y <-> place_in N c' p' y)).
Proof.
  intros HN H1 H2. split.
  - intros E y. rewrite <- !pt_map_to_cube_exact by auto. rewrite E. reflexivity.
  - intros H. symmetry. apply (pt_map_to_cube_exact N HN c' p' H2). apply H. apply (pt_map_to_cube_exact N HN c p H1). auto.
Qed.

(** the shift test of is_continuous *)
Lemma shift_test d N c p c' p' : 1 <= N -> length c = d -> length p = d -> length c' = d -> length p' = d ->
  (p = pt_shift (map Zq (map (fun cp => (fst cp - snd cp)%Z) (combine c' c))) p' <-> pt_map_to_cube N c p = pt_map_to_cube N c' p').
Proof.
  intros HN Hc Hp Hc' Hp'. pose proof (Nq_neq0 N HN) as H0.
  assert (ES : forall j, j < d -> nth j (map Zq (map (fun cp => (fst cp - snd cp)%Z) (combine c' c))) 0%Qc = (Zq (nth j c' 0%Z) - Zq (nth j c 0%Z))%Qc).
  { intros j Hj. rewrite map_nth_lt with (d := 0%Z) by (rewrite map_length, combine_length; lia).
    rewrite map_nth_lt with (d := (0%Z, 0%Z)) by (rewrite combine_length; lia).
    rewrite combine_nth by lia. cbn [fst snd]. unfold Z.sub. rewrite Zq_add, Zq_opp. ring. }
  split.
  - intros E. apply list_ext_nth with 0%Qc; rewrite !pt_map_length; [lia|]. intros j Hj. rewrite !nth_pt_map by lia.
    rewrite E. rewrite nth_pt_shift by lia. rewrite ES by lia. f_equal. ring.
  - intros E. apply list_ext_nth with 0%Qc; rewrite ?pt_shift_length; [lia|]. intros j Hj. rewrite nth_pt_shift, ES by lia.
    apply (f_equal (fun l => nth j l 0%Qc)) in E. rewrite !nth_pt_map in E by lia.
    apply (f_equal (fun u => (u * Nq N)%Qc)) in E.
    replace ((nth j p 0 + Zq (nth j c 0%Z)) * / Nq N * Nq N)%Qc with (nth j p 0 + Zq (nth j c 0%Z))%Qc in E by (field; auto).
    replace ((nth j p' 0 + Zq (nth j c' 0%Z)) * / Nq N * Nq N)%Qc with (nth j p' 0 + Zq (nth j c' 0%Z))%Qc in E by (field; auto).
    replace (nth j p 0%Qc) with ((nth j p 0 + Zq (nth j c 0%Z)) - Zq (nth j c 0%Z))%Qc by ring. rewrite E. ring.
Qed.

(** is_continuous as a statement about consecutive fractions *)
Definition steps_ok (N : nat) (cs : list (list Z)) (ls : list plink) : Prop :=
  forall i c l c' l', nth_error cs i = Some c -> nth_error ls i = Some l -> nth_error cs (S i) = Some c' -> nth_error ls (S i) = Some l' ->
    pt_map_to_cube N c (exit l) = pt_map_to_cube N c' (entrance l').
Lemma steps_ok_cons N c c' cs l l' ls : steps_ok N (c :: c' :: cs) (l :: l' :: ls) <->
  pt_map_to_cube N c (exit l) = pt_map_to_cube N c' (entrance l') /\ steps_ok N (c' :: cs) (l' :: ls).
Proof.
  split.
  - intros H. split; [apply (H 0); auto|]. intros i. apply (H (S i)).
  - intros [H1 H2] [|i]; [|apply (H2 i)]. cbn. intros c1 l1 c2 l2 E1 E2 E3 E4. inversion E1; inversion E2; inversion E3; inversion E4; subst. auto.
Qed.
Lemma continuous_loop_exact d N cs : forall c l ls, 1 <= N -> length c = d -> pl_dim d l -> Forall (fun q => length q = d) cs -> Forall (pl_dim d) ls ->
  length ls = length cs ->
  exists r, continuous_loop point_ops (Some c) l (combine (map Some cs) ls) = Some r /\ (r = true <-> steps_ok N (c :: cs) (l :: ls)).
Proof.
  induction cs as [|c' cs IH]; intros c l [|l' ls] HN Hc Hl HCs HLs HLen; try discriminate.
  - exists true. split; auto. split; auto. intros _ [|i]; cbn; intros; discriminate.
  - inversion HCs; inversion HLs; subst. destruct (IH c' l' ls) as (r & Er & Hr); auto.
    cbn [map combine continuous_loop so_shift so_intersects point_ops].
    destruct (pt_eqb_ok (exit l) (pt_shift (map Zq (map (fun cp => (fst cp - snd cp)%Z) (combine c' c))) (entrance l'))) as [E1 E2].
    destruct (pt_eqb (exit l) _) eqn:EQ.
    + exists r. split; auto. rewrite Hr, steps_ok_cons. rewrite (shift_test (length c) N) in E1; auto; try (apply Hl); try (apply H5). tauto.
    + exists false. split; auto. split; [discriminate|]. rewrite steps_ok_cons. intros [H _].
      rewrite <- (shift_test (length c) N) in H; auto; try (apply Hl); try (apply H5).
Qed.

Lemma cubes_some d p : Forall (fun oc => exists q, oc = Some q /\ length q = d) (pr_cubes p) ->
  exists cs, pr_cubes p = map Some cs /\ Forall (fun q => length q = d) cs.
Proof.
  generalize (pr_cubes p). induction l as [|oc l IH]; intros H; [exists []; auto|].
  inversion H as [|? ? (q & -> & Hq) H']; subst. destruct (IH H') as (cs & -> & HF). exists (q :: cs). auto.
Qed.
Lemma is_continuous_exact d p : valid_ppath d p -> exists r, pa_is_continuous point_ops p = Some r /\ (r = true <-> joined_path p).
Proof.
  intros [H1 H2 H3 H4 H5 H6 H7]. destruct (cubes_some d _ H3) as (cs & E & Hcs). unfold pa_is_continuous, joined_path. rewrite E in *.
  rewrite map_length in H5. destruct (pa_links p) as [|l ls]; [congruence|]. destruct cs as [|c cs]; [discriminate|].
  inversion Hcs; inversion H4; subst. destruct (continuous_loop_exact (pr_dim (pa_proto p)) (pr_div (pa_proto p)) cs c l ls) as (r & Er & Hr); auto.
  cbn [map]. exists r. split; auto. rewrite Hr. change (Some c :: map Some cs) with (map Some (c :: cs)). unfold steps_ok.
  assert (EN : forall i q, nth_error (map Some (c :: cs)) i = Some (Some q) <-> nth_error (c :: cs) i = Some q).
  { intros i q. rewrite nth_error_map. destruct (nth_error (c :: cs) i); cbn; split; intros Hq; inversion Hq; auto. }
  assert (EL : forall i q, nth_error (c :: cs) i = Some q -> length q = pr_dim (pa_proto p)).
  { intros i q Hi. apply nth_error_In in Hi. rewrite Forall_forall in Hcs. auto. }
  assert (EP : forall i q, nth_error (l :: ls) i = Some q -> pl_dim (pr_dim (pa_proto p)) q).
  { intros i q Hi. apply nth_error_In in Hi. rewrite Forall_forall in H4. auto. }
  split.
  - intros H i c1 l1 c2 l2 y E1 E2 E3 E4. apply EN in E1, E3. revert y. apply map_to_cube_eq_place; auto.
    + rewrite (EL i); auto. symmetry. apply (EP i); auto.
    + rewrite (EL (S i)); auto. symmetry. apply (EP (S i)); auto.
    + eapply H; eauto.
  - intros H i c1 l1 c2 l2 E1 E2 E3 E4. apply map_to_cube_eq_place; auto.
    + rewrite (EL i); auto. symmetry. apply (EP i); auto.
    + rewrite (EL (S i)); auto. symmetry. apply (EP (S i)); auto.
    + intros y. apply (H i); auto; apply EN; auto.
Qed.

(** the action *)
Definition pa_image (b : base_map) (p : path (list Qc)) : path (list Qc) :=
  Pa (pr_mul b (pa_proto p)) (map (pl_mul b) (if time_rev b then rev (pa_links p) else pa_links p)) (pl_mul b (pa_link p)).
Lemma pyget_0 {A} (l : list A) : pyget l 0 = nth_error l 0.
Proof. reflexivity. Qed.
Lemma pyget_m1 {A} (l : list A) : l <> [] -> pyget l (-1) = nth_error l (length l - 1).
Proof.
  intros H. unfold pyget. change (0 <=? -1)%Z with false. cbn iota. destruct l as [|a l]; [congruence|]. set (m := a :: l).
  assert (0 < length m) by (cbn; lia).
  destruct (0 <=? Z.of_nat (length m) + -1)%Z eqn:E; [|lia]. f_equal. lia.
Qed.
Lemma mk_path_eq p links l0 l1 c0 c1 : links <> [] -> pr_cubes p <> [] ->
  nth_error links 0 = Some l0 -> nth_error links (length links - 1) = Some l1 ->
  nth_error (pr_cubes p) 0 = Some (Some c0) -> nth_error (pr_cubes p) (length (pr_cubes p) - 1) = Some (Some c1) ->
  mk_path point_ops p links = Some (Pa p links (Lk (pt_map_to_cube (pr_div p) c0 (entrance l0)) (pt_map_to_cube (pr_div p) c1 (exit l1)))).
Proof.
  intros Hl Hc E0 E1 F0 F1. unfold mk_path, pr_cube. rewrite pyget_0, pyget_m1, E0, E1 by auto. rewrite pyget_0, pyget_m1, F0, F1 by auto. reflexivity.
Qed.
Lemma ppath_ends d p : valid_ppath d p -> exists l0 l1 c0 c1,
  nth_error (pa_links p) 0 = Some l0 /\ nth_error (pa_links p) (length (pa_links p) - 1) = Some l1 /\
  nth_error (pr_cubes (pa_proto p)) 0 = Some (Some c0) /\ nth_error (pr_cubes (pa_proto p)) (length (pr_cubes (pa_proto p)) - 1) = Some (Some c1) /\
  pl_dim d l0 /\ pl_dim d l1 /\ length c0 = d /\ length c1 = d /\
  pa_link p = Lk (pt_map_to_cube (pr_div (pa_proto p)) c0 (entrance l0)) (pt_map_to_cube (pr_div (pa_proto p)) c1 (exit l1)).
Proof.
  intros [H1 H2 H3 H4 H5 H6 H7]. destruct (cubes_some d _ H3) as (cs & E & Hcs).
  assert (HL : length cs = length (pa_links p)) by (rewrite H5, E, map_length; auto).
  assert (HP : 0 < length (pa_links p)) by (destruct (pa_links p); [congruence|cbn; lia]).
  destruct (nth_error (pa_links p) 0) as [l0|] eqn:L0; [|apply nth_error_None in L0; lia].
  destruct (nth_error (pa_links p) (length (pa_links p) - 1)) as [l1|] eqn:L1; [|apply nth_error_None in L1; lia].
  destruct (nth_error cs 0) as [c0|] eqn:C0; [|apply nth_error_None in C0; lia].
  destruct (nth_error cs (length cs - 1)) as [c1|] eqn:C1; [|apply nth_error_None in C1; lia].
  assert (F0 : nth_error (pr_cubes (pa_proto p)) 0 = Some (Some c0)) by (rewrite E, nth_error_map, C0; auto).
  assert (F1 : nth_error (pr_cubes (pa_proto p)) (length (pr_cubes (pa_proto p)) - 1) = Some (Some c1)) by (rewrite E, map_length, nth_error_map, C1; auto).
  exists l0, l1, c0, c1. rewrite Forall_forall in H4, Hcs. repeat split; auto.
  - apply (H4 l0). eapply nth_error_In; eauto.
  - apply (H4 l0). eapply nth_error_In; eauto.
  - apply (H4 l1). eapply nth_error_In; eauto.
  - apply (H4 l1). eapply nth_error_In; eauto.
  - apply Hcs. eapply nth_error_In; eauto.
  - apply Hcs. eapply nth_error_In; eauto.
  - rewrite (mk_path_eq _ _ l0 l1 c0 c1) in H7; auto.
    + inversion H7. reflexivity.
    + rewrite E. destruct cs; [cbn in HL; lia|discriminate].
Qed.
Lemma pa_mul_eq d b p : wf_bm d b -> valid_ppath d p -> pa_mul point_ops b p = Some (pa_image b p) /\ valid_ppath d (pa_image b p).
Proof.
  intros Hb HV. pose proof HV as [H1 H2 H3 H4 H5 H6 H7]. destruct (ppath_ends d p HV) as (l0 & l1 & c0 & c1 & L0 & L1 & F0 & F1 & D0 & D1 & W0 & W1 & EL).
  assert (HP : 0 < length (pa_links p)) by (destruct (pa_links p); [congruence|cbn; lia]).
  assert (A : pa_mul point_ops b p = Some (pa_image b p)).
  { unfold pa_mul, pa_image. set (N := Z.of_nat (pr_div (pa_proto p))).
    rewrite (mk_path_eq _ _ (pl_mul b (if time_rev b then l1 else l0)) (pl_mul b (if time_rev b then l0 else l1))
       (apply_cube b N (if time_rev b then c1 else c0)) (apply_cube b N (if time_rev b then c0 else c1))).
    - f_equal. f_equal. rewrite EL. cbn [pr_mul pr_div]. unfold N, pl_mul, lk_mul. destruct D0, D1. destruct (time_rev b); cbn [entrance exit]; rewrite !(pt_map_mul d); auto.
    - intros E. apply map_eq_nil in E. destruct (time_rev b); [apply (f_equal (@rev _)) in E; rewrite rev_involutive in E|]; auto.
    - cbn. intros E. apply map_eq_nil in E. destruct (time_rev b); [apply (f_equal (@rev _)) in E; rewrite rev_involutive in E|]; rewrite E in H5; cbn in H5, HP; lia.
    - rewrite nth_error_map. destruct (time_rev b); [rewrite nth_error_rev by auto; rewrite Nat.sub_0_r, L1|rewrite L0]; auto.
    - rewrite map_length, nth_error_map. destruct (time_rev b); [rewrite rev_length, nth_error_rev by lia|rewrite L1]; auto.
      replace (length (pa_links p) - 1 - (length (pa_links p) - 1)) with 0 by lia. rewrite L0. auto.
    - cbn [pr_mul pr_cubes]. rewrite nth_error_map. destruct (time_rev b); [rewrite nth_error_rev by lia; rewrite Nat.sub_0_r, F1|rewrite F0]; auto.
    - cbn [pr_mul pr_cubes]. rewrite map_length, nth_error_map. destruct (time_rev b); [rewrite rev_length, nth_error_rev by lia|rewrite F1]; auto.
      replace (length (pr_cubes (pa_proto p)) - 1 - (length (pr_cubes (pa_proto p)) - 1)) with 0 by lia. rewrite F0. auto. }
  split; auto. constructor; cbn; auto.
  - rewrite Forall_map. assert (HR : Forall (fun oc : option (list Z) => exists q, oc = Some q /\ length q = d) (if time_rev b then rev (pr_cubes (pa_proto p)) else pr_cubes (pa_proto p)))
      by (destruct (time_rev b); auto; apply Forall_rev; auto).
    eapply Forall_impl; [|exact HR]. intros oc (q & -> & Hq). eexists; split; [reflexivity|]. apply length_apply_cube; auto.
  - rewrite Forall_map. apply Forall_forall. intros; apply pl_mul_dim; auto.
  - rewrite !map_length. destruct (time_rev b); rewrite ?rev_length; auto.
  - intros E. apply map_eq_nil in E. destruct (time_rev b); [apply (f_equal (@rev _)) in E; rewrite rev_involutive in E|]; auto.
Qed.
Lemma pr_cubes_len d p : valid_ppath d p -> cubes_len d (pa_proto p).
Proof. intros [H1 H2 H3 H4 H5 H6 H7]. unfold cubes_len. eapply Forall_impl; [|exact H3]. intros oc (q & -> & Hq) q' E. inversion E; subst; auto. Qed.
Lemma ppath_link_dim d p : valid_ppath d p -> pl_dim d (pa_link p).
Proof.
  intros HV. destruct (ppath_ends d p HV) as (l0 & l1 & c0 & c1 & L0 & L1 & F0 & F1 & D0 & D1 & W0 & W1 & EL).
  rewrite EL. split; cbn; rewrite pt_map_length; [apply D0|apply D1].
Qed.
Lemma pa_image_mul d a b p : wf_bm d a -> wf_bm d b -> valid_ppath d p -> pa_image (bm_mul a b) p = pa_image a (pa_image b p).
Proof.
  intros Ha Hb HV. pose proof HV as [H1 H2 H3 H4 H5 H6 H7]. unfold pa_image; cbn [pa_proto pa_links pa_link]. f_equal.
  - apply (pr_mul_mul d); auto. apply pr_cubes_len; auto.
  - rewrite mul_time_rev.
    assert (E : forall l, Forall (pl_dim d) l -> map (pl_mul (bm_mul a b)) l = map (pl_mul a) (map (pl_mul b) l)).
    { intros l Hl. rewrite map_map. apply map_ext_in. intros x Hx. rewrite Forall_forall in Hl. apply (pl_mul_mul d); auto; apply Hl; auto. }
    destruct (time_rev a), (time_rev b); cbn; rewrite <- ?map_rev, ?rev_involutive; apply E; auto; apply Forall_rev; auto.
  - destruct (ppath_link_dim d p HV). apply (pl_mul_mul d); auto.
Qed.
Lemma pa_image_id d p : valid_ppath d p -> pa_image (id_map d) p = p.
Proof.
  intros HV. pose proof HV as [H1 H2 H3 H4 H5 H6 H7]. pose proof (pr_cubes_len d p HV) as HC. destruct (ppath_link_dim d p HV) as [L1 L2]. destruct p as [pr ls l]; unfold pa_image; cbn [pa_proto pa_links pa_link time_rev id_map] in *; fold (id_map d).
  rewrite pr_mul_id by auto. rewrite pl_mul_id by auto. f_equal.
  rewrite <- (map_id ls) at 2. apply map_ext_in. intros x Hx. rewrite Forall_forall in H4. destruct (H4 x Hx). apply pl_mul_id; auto.
Qed.
(** C14 *)
Lemma path_action d a b p : wf_bm d a -> wf_bm d b -> valid_ppath d p ->
  exists bp, pa_mul point_ops b p = Some bp /\ valid_ppath d bp /\ pa_link bp = pl_mul b (pa_link p) /\
    pa_mul point_ops (bm_mul a b) p = pa_mul point_ops a bp /\ pa_mul point_ops (id_map d) p = Some p /\
    obind (pa_inv point_ops p) (pa_inv point_ops) = Some p.
Proof.
  intros Ha Hb HV. destruct (pa_mul_eq d b p Hb HV) as [E1 E2]. exists (pa_image b p). split; auto. split; auto. split; auto.
  destruct (pa_mul_eq d a _ Ha E2) as [E3 _]. destruct (pa_mul_eq d (bm_mul a b) p (wf_mul d a b Ha Hb) HV) as [E4 _].
  split; [rewrite E3, E4, (pa_image_mul d); auto|]. split.
  - destruct (pa_mul_eq d (id_map d) p (wf_id d) HV) as [E5 _]. rewrite E5, pa_image_id; auto.
  - pose proof (wf_rev d _ (wf_id d)) as W. unfold pa_inv at 1. rewrite (vp_dim d p HV). destruct (pa_mul_eq d (bm_rev (id_map d)) p W HV) as [E5 V5].
    rewrite E5. cbn [obind]. unfold pa_inv. cbn [pa_image pa_proto pr_mul pr_dim]. rewrite (vp_dim d p HV).
    destruct (pa_mul_eq d (bm_rev (id_map d)) _ W V5) as [E6 _]. rewrite E6. rewrite <- (pa_image_mul d) by auto.
    rewrite rev_mul_l, rev_mul_r, rev_rev, (mul_id_l d) by apply wf_id. rewrite pa_image_id; auto.
Qed.
Lemma joined_steps d p : valid_ppath d p -> exists cs, pr_cubes (pa_proto p) = map Some cs /\ Forall (fun q => length q = d) cs /\ (joined_path p <-> steps_ok (pr_div (pa_proto p)) cs (pa_links p)).
Proof.
  intros [H1 H2 H3 H4 H5 H6 H7]. destruct (cubes_some d _ H3) as (cs & E & Hcs). exists cs. split; auto. split; auto. unfold joined_path, steps_ok. rewrite E.
  assert (EN : forall i q, nth_error (map Some cs) i = Some (Some q) <-> nth_error cs i = Some q).
  { intros i q. rewrite nth_error_map. destruct (nth_error cs i); cbn; split; intros Hq; inversion Hq; auto. }
  assert (EL : forall i q, nth_error cs i = Some q -> length q = d).
  { intros i q Hi. apply nth_error_In in Hi. rewrite Forall_forall in Hcs. auto. }
  assert (EP : forall i q, nth_error (pa_links p) i = Some q -> pl_dim d q).
  { intros i q Hi. apply nth_error_In in Hi. rewrite Forall_forall in H4. auto. }
  split; intros H i c1 l1 c2 l2.
  - intros E1 E2 E3 E4. apply map_to_cube_eq_place; auto.
    + rewrite (EL i); auto. symmetry. apply (EP i); auto.
    + rewrite (EL (S i)); auto. symmetry. apply (EP (S i)); auto.
    + intros y. apply (H i); auto; apply EN; auto.
  - intros y E1 E2 E3 E4. apply EN in E1, E3. revert y. apply map_to_cube_eq_place; auto.
    + rewrite (EL i); auto. symmetry. apply (EP i); auto.
    + rewrite (EL (S i)); auto. symmetry. apply (EP (S i)); auto.
    + eapply H; eauto.
Qed.
Lemma steps_ok_mul d N b cs ls : wf_bm d b -> 1 <= N -> Forall (fun q => length q = d) cs -> Forall (pl_dim d) ls -> length cs = length ls ->
  steps_ok N cs ls -> steps_ok N (map (apply_cube b (Z.of_nat N)) (if time_rev b then rev cs else cs)) (map (pl_mul b) (if time_rev b then rev ls else ls)).
Proof.
  intros Hb HN Hcs Hls HL H i c l c' l' E1 E2 E3 E4. rewrite nth_error_map in E1, E2, E3, E4.
  assert (Hi : S i < length ls).
  { destruct (nth_error (if time_rev b then rev ls else ls) (S i)) eqn:E; [|discriminate].
    assert (S i < length (if time_rev b then rev ls else ls)) by (apply nth_error_Some; congruence). destruct (time_rev b); rewrite ?rev_length in *; auto. }
  rewrite Forall_forall in Hcs, Hls.
  destruct (time_rev b) eqn:T.
  - rewrite !nth_error_rev in * by lia.
    replace (length cs - 1 - i) with (S (length cs - 1 - S i)) in E1 by lia. replace (length ls - 1 - i) with (S (length ls - 1 - S i)) in E2 by lia.
    rewrite HL in E1, E3. set (k := length ls - 1 - S i) in *.
    destruct (nth_error cs (S k)) as [q|] eqn:Q1; [|discriminate]. destruct (nth_error ls (S k)) as [m|] eqn:Q2; [|discriminate].
    destruct (nth_error cs k) as [q'|] eqn:Q3; [|discriminate]. destruct (nth_error ls k) as [m'|] eqn:Q4; [|discriminate].
    cbn [option_map] in *. injection E1 as <-. injection E2 as <-. injection E3 as <-. injection E4 as <-.
    unfold pl_mul, lk_mul. rewrite T. cbn [entrance exit]. rewrite !(pt_map_mul d); auto.
    + f_equal. symmetry. eapply H; eauto.
    + apply Hcs. eapply nth_error_In; eauto.
    + apply Hls. eapply nth_error_In; eauto.
    + apply Hcs. eapply nth_error_In; eauto.
    + apply Hls. eapply nth_error_In; eauto.
  - destruct (nth_error cs (S i)) as [q|] eqn:Q1; [|discriminate]. destruct (nth_error ls (S i)) as [m|] eqn:Q2; [|discriminate].
    destruct (nth_error cs i) as [q'|] eqn:Q3; [|discriminate]. destruct (nth_error ls i) as [m'|] eqn:Q4; [|discriminate].
    cbn [option_map] in *. injection E1 as <-. injection E2 as <-. injection E3 as <-. injection E4 as <-.
    unfold pl_mul, lk_mul. rewrite T. cbn [entrance exit]. rewrite !(pt_map_mul d); auto.
    + f_equal. eapply H; eauto.
    + apply Hcs. eapply nth_error_In; eauto.
    + apply Hls. eapply nth_error_In; eauto.
    + apply Hcs. eapply nth_error_In; eauto.
    + apply Hls. eapply nth_error_In; eauto.
Qed.
Lemma joined_mul d b p : wf_bm d b -> valid_ppath d p -> joined_path p -> joined_path (pa_image b p).
Proof.
  intros Hb HV HJ. destruct (pa_mul_eq d b p Hb HV) as [_ HV']. destruct (joined_steps d p HV) as (cs & E & Hcs & HS). apply HS in HJ.
  destruct (joined_steps d _ HV') as (cs' & E' & Hcs' & HS'). apply HS'. cbn in E'.
  assert (EC : cs' = map (apply_cube b (Z.of_nat (pr_div (pa_proto p)))) (if time_rev b then rev cs else cs)).
  { rewrite E in E'. assert (forall l l' : list (list Z), map Some l = map Some l' -> l = l').
    { induction l; intros [|] EE; try discriminate; auto. cbn in EE. inversion EE; subst. f_equal; auto. }
    apply H. rewrite <- E'. destruct (time_rev b); [rewrite <- map_rev|]; rewrite !map_map; reflexivity. }
  rewrite EC. pose proof HV as [H1 H2 H3 H4 H5 H6 H7]. refine (steps_ok_mul d (pr_div (pa_proto p)) b cs (pa_links p) Hb H2 Hcs H4 _ HJ). rewrite E, map_length in H5. symmetry. exact H5.
Qed.
Lemma continuous_preserved d b p bp : wf_bm d b -> valid_ppath d p -> pa_mul point_ops b p = Some bp ->
  exists r, pa_is_continuous point_ops p = Some r /\ pa_is_continuous point_ops bp = Some r.
Proof.
  intros Hb HV E. destruct (pa_mul_eq d b p Hb HV) as [E1 HV']. rewrite E1 in E. injection E as <-.
  destruct (is_continuous_exact d p HV) as (r & Er & Hr). destruct (is_continuous_exact d _ HV') as (r' & Er' & Hr').
  exists r. split; auto. rewrite Er'. f_equal.
  assert (joined_path p <-> joined_path (pa_image b p)).
  { split; [apply (joined_mul d); auto|]. intros HJ. rewrite <- (pa_image_id d p) by auto. rewrite <- (mul_inv_l d b) by auto.
    rewrite (pa_image_mul d) by auto using wf_inv. apply (joined_mul d); auto using wf_inv. }
  destruct r, r'; auto; [apply Hr', H, Hr; auto|symmetry; apply Hr, H, Hr'; auto].
Qed.
Lemma link_action d a b l : wf_bm d a -> wf_bm d b -> pl_dim d l ->
  pl_mul (bm_mul a b) l = pl_mul a (pl_mul b l) /\ pl_mul (id_map d) l = l /\ lk_inv (lk_inv l) = l /\
  lk_inv l = pl_mul (bm_rev (id_map d)) l.
Proof.
  intros Ha Hb [H1 H2]. split; [apply (pl_mul_mul d); auto|]. split; [apply pl_mul_id; auto|]. split; [destruct l; auto|].
  pose proof (pl_mul_id d l H1 H2) as E. unfold pl_mul, lk_mul in *. destruct l as [e x]. cbn [entrance exit] in *.
  change (time_rev (bm_rev (id_map d))) with true. change (time_rev (id_map d)) with false in E. unfold lk_inv; cbn [entrance exit]. 
  change (pt_mul (bm_rev (id_map d))) with (pt_mul (id_map d)). inversion E as [[E1 E2]]. rewrite !E1, !E2. auto.
Qed.
