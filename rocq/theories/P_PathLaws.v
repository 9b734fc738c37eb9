(** Points and facet sets meet the laws used by the path generator. *)
From Verif Require Import Py L_Py L_Qc L_BaseMaps M_BaseMaps M_Subsets M_Paths M_PathTree M_PathGen S_BaseMaps S_Subsets S_PathGen S_PathTree
  P_GenMaps P_Actions P_Subsets P_Points P_Facets P_Paths P_PathTree P_PathGlue P_PathGrow P_PathGen P_PathNext P_PathChain P_PathYield P_PathAll.
Local Open Scope nat_scope.

Lemma start_cube1 b c : apply_cube_start b c 1 = apply_cube b 1 c. Proof. reflexivity. Qed.
Lemma start_zero_inv d b c : wf_bm d b -> length c = d -> Forall (fun z => z = 0%Z) (apply_cube_start b c 1) -> Forall (fun z => z = 0%Z) c.
Proof.
  intros W HL H. rewrite Forall_forall in *. intros z Hz. apply In_nth with (d := 0%Z) in Hz. destruct Hz as (k & Hk & <-).
  destruct (wf_nth_surj d b k W ltac:(lia)) as (i & Hi & Ei).
  assert (HE : nth i (apply_cube_start b c 1) 0%Z = 0%Z).
  { apply H. apply nth_In. unfold apply_cube_start. rewrite length_act, (wf_length d); auto. }
  unfold apply_cube_start in HE. rewrite (nth_act _ _ 0%Z) in HE by (rewrite (wf_length d); auto). destruct (nth i (coords b) (0, false)) as [k' f]. cbn [fst snd] in *. subst k'.
  destruct f; lia.
Qed.

Definition unit_point (d : nat) (p : list Qc) : Prop := length p = d /\ in_cube01 1 p.
Lemma shift_place N c c' s t y : 1 <= N -> place_in N c s y -> (place_in N c' t y <-> place_in 1 (zsub c c') t s /\ length c' = length c).
Proof.
  intros HN. rewrite !place_in_nth. intros (L1 & L2 & H). assert (LZ : length (zsub c c') = Nat.min (length c) (length c')) by (unfold zsub; rewrite map_length, combine_length; auto).
  assert (HZ : forall j, j < length c -> length c = length c' -> nth j (zsub c c') 0%Z = (nth j c' 0 - nth j c 0)%Z).
  { intros j Hj HL. unfold zsub. rewrite (nth_indep _ 0%Z ((fun cc : Z * Z => (snd cc - fst cc)%Z) (0%Z, 0%Z))) by (rewrite map_length, combine_length; lia).
    rewrite (map_nth (fun cc : Z * Z => (snd cc - fst cc)%Z)), combine_nth by auto. auto. }
  split.
  - intros (L3 & L4 & H'). split; [|lia]. split; [lia|]. split; [lia|]. intros j Hj. rewrite HZ by lia.
    specialize (H j ltac:(lia)). specialize (H' j ltac:(lia)). change (Nq 1) with 1%Qc.
    assert (nth j s 0 + Zq (nth j c 0%Z) = nth j t 0 + Zq (nth j c' 0%Z))%Qc by congruence. rewrite Zq_sub. qclra.
  - intros ((L3 & L4 & H') & L5). split; [lia|]. split; [lia|]. intros j Hj. specialize (H j ltac:(lia)). specialize (H' j ltac:(lia)). rewrite HZ in H' by lia.
    rewrite H. change (Nq 1) with 1%Qc in H'. rewrite Zq_sub in H'. qclra.
Qed.

Lemma pt_V d b s : wf_bm d b -> unit_point d s -> unit_point d (pt_mul b s).
Proof. intros W (H1 & H2). split; [apply pt_mul_length; auto|]. unfold pt_mul. apply (apply_x_in d); auto. Qed.
Lemma pt_mul_inj d b s t : wf_bm d b -> length s = d -> length t = d -> pt_mul b s = pt_mul b t -> s = t.
Proof. intros W H1 H2 E. rewrite <- (pt_mul_inv d b s), <- (pt_mul_inv d b t) by auto. congruence. Qed.
Lemma eqb_refl_ok {A} (e : A -> A -> bool) : eqb_ok e -> forall x, e x x = true.
Proof. intros H x. apply H. auto. Qed.
Lemma point_laws d N : 1 <= N -> laws point_ops true d N (unit_point d) is_point.
Proof.
  intros HN. constructor; cbn [so_eqb so_cmp so_mul so_std so_intersects so_neighbours so_divide so_map_to_cube point_ops].
  - exact pt_eqb_ok.
  - exact pt_cmp_ok.
  - intros. apply pt_V; auto.
  - intros a b s Wa Wb (HL & _). apply (pt_mul_mul d); auto.
  - intros s (HL & _). apply pt_mul_id; auto.
  - intros. apply pt_mul_rev.
  - intros s (HL & HI). destruct (pt_std_image s) as (b & W & TR & E). rewrite HL in W. split; [rewrite <- E; apply pt_V; auto; split; auto|].
    exists (bm_inv b). split; [apply wf_inv; auto|]. split; [auto|]. rewrite <- E. apply (pt_mul_inv d); auto.
  - auto.
  - intros b s t W (HL & _) (HL' & _). apply eq_iff_eq_true. rewrite (pt_eqb_ok (pt_mul b s) (pt_mul b t)), (pt_eqb_ok s t). split; [apply (pt_mul_inj d); auto|congruence].
  - intros s (HL & HI). destruct (pt_neighbours_exact s) as (H1 & H2). split; auto. intros c t Hin. apply H2 in Hin. destruct Hin as (A & B & C).
    pose proof (place_in_length _ _ _ _ C) as (L1 & L2). split; [congruence|]. split; auto. split; [congruence|].
    apply (place_in_cube 1 ltac:(lia) c t s C). auto.
  - intros b s c t W (HL & HI) Hin. apply pt_neighbours_exact in Hin. apply pt_neighbours_exact. destruct Hin as (A & B & C).
    pose proof (place_in_length _ _ _ _ C) as (L1 & L2). pose proof (place_mul d 1 b c t s W ltac:(lia) ltac:(congruence) C) as P. split; [|split].
    + intros Z. apply A. apply (start_zero_inv d b); auto. congruence.
    + rewrite start_cube1. apply (place_in_cube 1 ltac:(lia) _ _ _ P). apply (pt_V d b t W). split; [congruence|]. apply (place_in_cube 1 ltac:(lia) c t s C); auto.
    + exact P.
  - intros c c' s t (HL & HI) (HL' & HI') Lc Lc' NE. change (map _ (combine c c')) with (zsub c c'). unfold touch, is_point. split.
    + intros (t' & Hin & E). apply (pt_eqb_ok t t') in E. subst t'. apply pt_neighbours_exact in Hin. destruct Hin as (A & B & C).
      exists s, t, (pt_map_to_cube N c s). split; auto. split; auto.
      assert (P : place_in N c s (pt_map_to_cube N c s)) by (apply (pt_map_to_cube_exact N HN); [congruence|reflexivity]).
      split; auto. apply (shift_place N c c' s t _ HN P). split; auto. congruence.
    + intros (x & x' & y & -> & -> & P & P'). apply (shift_place N c c' s t y HN P) in P'. destruct P' as (P' & _). exists t. split; [|apply (eqb_refl_ok _ pt_eqb_ok)].
      apply pt_neighbours_exact. split; [rewrite zsub_zero by congruence; auto|]. split; auto. apply (place_in_cube 1 ltac:(lia) _ _ _ P'). auto.
  - intros s (HL & HI). exists (pt_divide N s). destruct (pt_divide_exact N s HN) as (H1 & H2). split; auto. split; auto. split.
    + intros c t Hin. apply H2 in Hin. destruct Hin as (A & B & C). pose proof (place_in_length _ _ _ _ C) as (L1 & L2). split; split; auto; try congruence.
      apply (place_in_cube N HN c t s C). auto.
    + intros c t (LC & GC) (LT & IT). unfold meets, is_point. split.
      * intros (t' & Hin & E). apply (pt_eqb_ok t t') in E. subst t'. apply H2 in Hin. exists t, s. tauto.
      * intros (x & y & -> & P & ->). exists t. split; [|apply (eqb_refl_ok _ pt_eqb_ok)]. apply H2. split; auto. split; auto. apply (place_in_cube N HN c t s P). auto.
  - eauto.
  - intros c t r (HL & HI) (LC & GC) [= <-].
    assert (P : place_in N c t (pt_map_to_cube N c t)) by (apply (pt_map_to_cube_exact N HN); [congruence|reflexivity]).
    split; [destruct (place_in_length _ _ _ _ P); congruence|]. apply place_in_nth in P. destruct P as (P1 & P2 & P3).
    unfold in_cube01 in *. rewrite Forall_forall in *. intros v Hv. apply In_nth with (d := 0%Qc) in Hv. destruct Hv as (j & Hj & <-).
    specialize (P3 j ltac:(lia)). assert (J1 : j < length t) by lia. assert (J2 : j < length c) by lia.
    specialize (HI (nth j t 0%Qc) (nth_In _ _ J1)). specialize (GC (nth j c 0%Z) (nth_In _ _ J2)).
    destruct GC as (GA & GB). assert (GB' : (nth j c 0 + 1 <= Z.of_nat N)%Z) by lia. apply Zq_le in GA, GB'. rewrite Zq_add in GB'. change (Zq (Z.of_nat N)) with (Nq N) in GB'.
    rewrite Zq_0 in GA. rewrite Zq_1 in GB'. pose proof (Nq_pos N HN) as HP. revert GA GB' HI P3 HP. generalize (nth j (pt_map_to_cube N c t) 0%Qc) (nth j t 0%Qc) (Zq (nth j c 0%Z)) (Nq N).
    intros a u v n GA GB0 (H0 & H1) E HP. split.
    + apply Qcnot_lt_le. intros HA. assert (a * n < 0)%Qc by qcnra. qclra.
    + apply Qcnot_lt_le. intros HA. assert (n < a * n)%Qc by qcnra. qclra.
  - intros b c t r W (HL & _) (LC & _) [= <-]. f_equal. apply (pt_map_mul d); auto.
  - unfold is_point. intros. congruence.
Qed.

Definition facet_of (d N : nat) (s : facet_set) : Prop := valid_facet s /\ fs_dim s = d /\ fs_div s = N.
Lemma fop_mul d N b s : wf_bm d b -> facet_of d N s -> exists s', so_mul facet_ops b s = s' /\ fs_mul b s = Some s' /\ facet_of d N s' /\
  length (fs_cubes s') = length (fs_cubes s) /\ forall x, length x = d -> (in_facet s' (pt_mul b x) <-> in_facet s x).
Proof.
  intros W (HV & HD & HN). destruct (fs_mul_spec d b s W HV HD) as (s' & E & A & B & C & D & F). exists s'. cbn. rewrite E. unfold facet_of. rewrite C. auto 8.
Qed.
Lemma in_facet_length d N s x : facet_of d N s -> in_facet s x -> length x = d.
Proof. intros (_ & <- & _) (H & _). auto. Qed.
(** coordinates of a point of a facet set *)
Lemma in_facet_coord s x j : valid_facet s -> in_facet s x -> j < fs_dim s -> j <> fst (fs_facet s) -> (0 < nth j x 0)%Qc /\ (nth j x 0 < 1)%Qc.
Proof.
  intros HV (H1 & H2 & H3) Hj NE. pose proof HV as (HN & Hfc & Hfv & Hc). pose proof (abs_lt (fs_dim s) _ j Hfc Hj NE) as HA.
  specialize (H3 _ HA). rewrite facet_coord_skip, (skip_abs _ _ NE) in H3. apply (oi_unit (fs_div s)) in H3; auto. apply (valid_col s); auto.
Qed.
Lemma in_facet_cube s x : valid_facet s -> in_facet s x -> in_cube01 1 x.
Proof.
  intros HV HI. unfold in_cube01. rewrite Forall_forall. intros v Hv. apply In_nth with (d := 0%Qc) in Hv. destruct Hv as (j & Hj & <-).
  pose proof HI as (H1 & H2 & H3). pose proof HV as (HN & Hfc & Hfv & Hc). rewrite H1 in Hj. destruct (Nat.eq_dec j (fst (fs_facet s))) as [->|NE].
  - rewrite H2. destruct Hfv as [-> | ->]; split; rewrite ?Zq_0, ?Zq_1; try apply Qcle_refl; qclra.
  - destruct (in_facet_coord s x j HV HI Hj NE) as (A & B). split; apply Qclt_le_weak; auto.
Qed.
(** a point of a facet set placed on a facet set: the cube and the point are determined *)
Lemma placed_facet d N s t c x y : facet_of d N s -> facet_of d N t -> length c = d -> in_facet t x -> place_in N c x y -> in_facet s y ->
  fst (fs_facet t) = fst (fs_facet s).
Proof.
  intros (VS & DS & NS) (VT & DT & NT) LC HX HP HY. destruct (Nat.eq_dec (fst (fs_facet t)) (fst (fs_facet s))) as [E|NE]; auto. exfalso.
  pose proof VS as (HN & Hfc & Hfv & _). set (j := fst (fs_facet s)) in *.
  destruct (in_facet_coord t x j VT HX ltac:(lia) ltac:(congruence)) as (A & B). apply place_in_nth in HP. destruct HP as (P1 & P2 & P3).
  specialize (P3 j ltac:(lia)). destruct HY as (Y1 & Y2 & _). fold j in Y2. rewrite Y2 in P3.
  assert (HZ : exists z, nth j x 0%Qc = Zq z).
  { exists (snd (fs_facet s) * Z.of_nat N - nth j c 0%Z)%Z. rewrite Zq_sub, Zq_mul. change (Zq (Z.of_nat N)) with (Nq N). rewrite P3. ring. }
  destruct HZ as (z & HZ). rewrite HZ in A, B. rewrite <- Zq_0 in A. rewrite <- Zq_1 in B. apply (proj1 (Zq_lt _ _)) in A, B. lia.
Qed.
Lemma placed_unique d N s t t' c c' x x' y : facet_of d N s -> facet_of d N t -> facet_of d N t' -> grid_cube d N c -> grid_cube d N c' ->
  in_facet t x -> place_in N c x y -> in_facet t' x' -> place_in N c' x' y -> in_facet s y -> c = c' /\ x = x'.
Proof.
  intros FS' FT FT' (LC & GC) (LC' & GC') HX HP HX' HP' HY. pose proof (placed_facet d N s t c x y FS' FT LC HX HP HY) as E1.
  pose proof (placed_facet d N s t' c' x' y FS' FT' LC' HX' HP' HY) as E2. destruct FS' as (VS & DS & NS), FT as (VT & DT & NT), FT' as (VT' & DT' & NT').
  apply place_in_nth in HP, HP'. destruct HP as (P1 & P2 & P3), HP' as (P1' & P2' & P3').
  assert (HC : c = c').
  { apply list_ext_nth with 0%Z; [congruence|]. intros j Hj. specialize (P3 j ltac:(lia)). specialize (P3' j ltac:(lia)). rewrite P3 in P3'.
    destruct (Nat.eq_dec j (fst (fs_facet s))) as [EJ|NE].
    - pose proof HX as (_ & X2 & _). pose proof HX' as (_ & X2' & _). pose proof HY as (_ & Y2 & _). rewrite E1, <- EJ in X2. rewrite E2, <- EJ in X2'. rewrite <- EJ in Y2.
      rewrite X2, Y2 in P3. rewrite X2, X2' in P3'. change (Nq N) with (Zq (Z.of_nat N)) in P3. rewrite <- ?Zq_mul, <- ?Zq_add in P3. rewrite <- !Zq_add in P3'.
      apply (proj1 (Zq_inj _ _)) in P3, P3'. rewrite Forall_forall in GC, GC'. pose proof (GC _ (nth_In c 0%Z Hj)). assert (Hj' : j < length c') by lia. pose proof (GC' _ (nth_In c' 0%Z Hj')).
      destruct VS as (_ & _ & [F1|F1] & _), VT as (_ & _ & [F2|F2] & _), VT' as (_ & _ & [F3|F3] & _); rewrite F1, F2 in P3; rewrite F2, F3 in P3'; lia.
    - destruct (in_facet_coord t x j VT HX ltac:(lia) ltac:(congruence)) as (A & B). destruct (in_facet_coord t' x' j VT' HX' ltac:(lia) ltac:(congruence)) as (A' & B').
      assert (U1 : (Zq (nth j c 0%Z) < Zq (nth j c' 0%Z) + 1)%Qc) by qclra. assert (U2 : (Zq (nth j c' 0%Z) < Zq (nth j c 0%Z) + 1)%Qc) by qclra.
      rewrite <- Zq_1, <- Zq_add in U1, U2. apply (proj1 (Zq_lt _ _)) in U1, U2. lia. }
  split; auto. subst c'. apply list_ext_nth with 0%Qc; [congruence|]. intros j Hj. specialize (P3 j ltac:(lia)). specialize (P3' j ltac:(lia)). qclra.
Qed.
Lemma placed_off_grid d N s t c x y : facet_of d N s -> facet_of d N t -> length c = d -> in_facet t x -> place_in N c x y -> in_facet s y -> off_grid s y.
Proof.
  intros FS' FT LC HX HP HY m z Hm E. pose proof (placed_facet d N s t c x y FS' FT LC HX HP HY) as E1.
  destruct FS' as (VS & DS & NS), FT as (VT & DT & NT). rewrite facet_coord_skip in E. pose proof VS as (HN & Hfc & _).
  pose proof (skip_ne (fst (fs_facet s)) m) as NE. pose proof (skip_lt (fs_dim s) (fst (fs_facet s)) m Hfc Hm) as HL. set (j := skip (fst (fs_facet s)) m) in *.
  destruct (in_facet_coord t x j VT HX ltac:(lia) ltac:(congruence)) as (A & B). apply place_in_nth in HP. destruct HP as (P1 & P2 & P3).
  specialize (P3 j ltac:(lia)). rewrite NS in E. rewrite E in P3. assert (U1 : (Zq (nth j c 0%Z) < Zq z)%Qc) by qclra. assert (U2 : (Zq z < Zq (nth j c 0%Z) + 1)%Qc) by qclra.
  rewrite <- Zq_1, <- Zq_add in U2. apply (proj1 (Zq_lt _ _)) in U1, U2. lia.
Qed.
Lemma facet_inter d N s t : facet_of d N s -> facet_of d N t -> (fs_intersects s t = true <-> exists x, in_facet s x /\ in_facet t x).
Proof. intros (A & B & C) (A' & B' & C'). apply fs_intersects_exact; congruence. Qed.
Lemma facet_same d N s t x : facet_of d N s -> facet_of d N t -> length (fs_cubes s) = length (fs_cubes t) -> in_facet s x -> in_facet t x -> s = t.
Proof. intros FS1 FT HL H1 H2. apply fs_ext; auto; [destruct FS1 as (?&?&?), FT as (?&?&?); congruence..|]. apply (facet_inter d N); eauto. Qed.
Lemma facet_map d N c t r : facet_of d N t -> grid_cube d N c -> fs_map_to_cube N c t = Some r ->
  facet_of d N r /\ length (fs_cubes r) = S (length (fs_cubes t)) /\ forall x y, place_in N c x y -> (in_facet r y <-> in_facet t x).
Proof.
  intros (A & B & C) G E. assert (HL : length (fs_cubes r) = S (length (fs_cubes t))).
  { unfold fs_map_to_cube in E. destruct (Nat.eqb _ _); [|discriminate]. destruct (nth_error _ _); [|discriminate]. destruct (Z.eqb _ _); [|discriminate]. injection E as <-. reflexivity. }
  subst d N. pose proof (fs_map_to_cube_spec t c A G) as H. rewrite E in H. destruct H as (H1 & H2 & H3 & H4 & H5). split; [split; auto|]. auto.
Qed.
Lemma facet_map_some d N c t s x y : facet_of d N s -> facet_of d N t -> grid_cube d N c -> in_facet t x -> place_in N c x y -> in_facet s y ->
  exists r, fs_map_to_cube N c t = Some r.
Proof.
  intros FS' FT (LC & GC) HX HP HY. pose proof (placed_facet d N s t c x y FS' FT LC HX HP HY) as E1. destruct FS' as (VS & DS & NS). destruct FT as (VT & DT & NT). subst N.
  pose proof (fs_map_to_cube_spec t c VT) as H. rewrite <- NT. destruct (fs_map_to_cube (fs_div t) c t) as [r|] eqn:E; [eauto|]. exfalso. apply H.
  { rewrite DT, NT. split; auto. }
  pose proof VS as (HN & Hfc & Hfv & _). set (j := fst (fs_facet s)) in *. apply place_in_nth in HP. destruct HP as (P1 & P2 & P3). specialize (P3 j ltac:(lia)).
  destruct HX as (_ & X2 & _), HY as (_ & Y2 & _). fold j in Y2. rewrite E1 in X2 |- *. rewrite X2, Y2 in P3. unfold fs_edge.
  change (Nq (fs_div s)) with (Zq (Z.of_nat (fs_div s))) in P3. rewrite <- ?Zq_mul, <- ?Zq_add in P3. apply (proj1 (Zq_inj _ _)) in P3. rewrite Forall_forall in GC.
  assert (Hj : j < length c) by lia. pose proof (GC _ (nth_In c 0%Z Hj)). rewrite NT. destruct VT as (_ & _ & [F2|F2] & _); rewrite F2 in *; cbn [Z.eqb]; destruct Hfv as [F1|F1]; rewrite F1 in P3; lia.
Qed.
Lemma fs_eqb_ok' : eqb_ok fs_eqb.
Proof.
  intros [a b f l] [a' b' f' l']. unfold fs_eqb; cbn. rewrite !andb_true_iff, !Nat.eqb_eq, (facet_eqb_ok f f'), (list_eqb_ok _ z_list_eqb_ok l l').
  split; [intros (((-> & ->) & ->) & ->); auto|intros E; injection E as -> -> -> ->; auto].
Qed.
Lemma facet_nb d N s : facet_of d N s -> exists c s', fs_neighbours s = [(c, s')] /\ length c = d /\ ~ Forall (fun z => z = 0%Z) c /\ facet_of d N s' /\
  length (fs_cubes s') = length (fs_cubes s) /\ (forall x y, place_in 1 c x y -> (in_facet s y <-> in_facet s' x)) /\
  (forall c' y, in_facet s y -> in_cube 1 c' y -> ~ Forall (fun z => z = 0%Z) c' -> c' = c).
Proof.
  intros (A & B & C). destruct (fs_neighbours_spec s A) as (c & s' & E & H1 & H2 & H3 & H4 & H5 & H6 & H7). exists c, s'. split; auto. split; [congruence|]. split; auto.
  split; [split; [auto|split; congruence]|]. split; auto. unfold fs_neighbours in E. injection E as _ <-. reflexivity.
Qed.
Lemma facet_laws d N : 1 <= N -> laws facet_ops false d N (facet_of d N) in_facet.
Proof.
  intros HN.
  assert (HM : forall b s, wf_bm d b -> facet_of d N s -> exists s', so_mul facet_ops b s = s' /\ fs_mul b s = Some s' /\ facet_of d N s' /\
     length (fs_cubes s') = length (fs_cubes s) /\ forall x, length x = d -> (in_facet s' (pt_mul b x) <-> in_facet s x)) by (intros; apply fop_mul; auto).
  constructor; cbn [so_eqb so_cmp so_std so_intersects so_neighbours so_divide so_map_to_cube facet_ops].
  - exact fs_eqb_ok'.
  - exact fs_cmp_ok.
  - intros b s W F. destruct (HM b s W F) as (s' & -> & _ & F' & _). auto.
  - intros a b s Wa Wb F. destruct (HM b s Wb F) as (s' & -> & E & F' & _). destruct (HM a s' Wa F') as (s2 & -> & E2 & _).
    cbn [so_mul facet_ops]. rewrite (fs_mul_mul d a b s s'), E2; auto; apply F.
  - intros s F. cbn [so_mul facet_ops]. rewrite (fs_mul_id d s); auto; apply F.
  - reflexivity.
  - intros s F. pose proof F as (A & B & C). destruct (fs_std_spec s A) as (m & -> & (b & W & TR & E) & _). rewrite B in W.
    destruct (HM b s W F) as (s' & E1 & E2 & F' & _). rewrite E in E2. injection E2 as <-. split; auto. exists (bm_inv b). split; [apply wf_inv; auto|]. split; [auto|].
    cbn [so_mul facet_ops]. rewrite <- (fs_mul_mul d (bm_inv b) b s m); auto; [|apply wf_inv; auto]. rewrite (mul_inv_l d) by auto. rewrite (fs_mul_id d s); auto.
  - discriminate.
  - intros b s t W F F'. destruct (HM b s W F) as (s1 & -> & _ & F1 & _ & P1). destruct (HM b t W F') as (t1 & -> & _ & F2 & _ & P2).
    apply eq_iff_eq_true. rewrite (facet_inter d N) by auto. rewrite (facet_inter d N) by auto. split.
    + intros (x & H1 & H2). pose proof (in_facet_length _ _ _ _ F1 H1) as HL. exists (pt_mul (bm_inv b) x).
      assert (HE : pt_mul b (pt_mul (bm_inv b) x) = x).
      { rewrite <- (pt_mul_mul d) by (auto; apply wf_inv; auto). rewrite (mul_inv_r d) by auto. apply pt_mul_id; auto. }
      assert (HL' : length (pt_mul (bm_inv b) x) = d) by (apply pt_mul_length, wf_inv; auto). rewrite <- (P1 _ HL'), <- (P2 _ HL'), HE. auto.
    + intros (x & H1 & H2). pose proof (in_facet_length _ _ _ _ F H1) as HL. exists (pt_mul b x). rewrite (P1 _ HL), (P2 _ HL). auto.
  - intros s F. destruct (facet_nb d N s F) as (c & s' & -> & H1 & H2 & H3 & _). split; [repeat constructor; auto|]. intros c' t [E|[]]. injection E as <- <-. auto.
  - intros b s c t W F Hin. destruct (facet_nb d N s F) as (c0 & s' & E & H1 & H2 & H3 & H4 & H5 & H6). rewrite E in Hin. destruct Hin as [Hin|[]]. injection Hin as <- <-.
    destruct (HM b s W F) as (s1 & -> & _ & F1 & L1 & P1). destruct (HM b s' W H3) as (t1 & -> & _ & F2 & L2 & P2).
    destruct (facet_nb d N s1 F1) as (c1 & s2 & -> & K1 & K2 & K3 & K4 & K5 & K6). destruct (in_facet_exists s' (proj1 H3)) as (x & Hx).
    pose proof (in_facet_length _ _ _ _ H3 Hx) as HLx.
    set (y := pt_map_to_cube 1 c0 x). assert (HP : place_in 1 c0 x y) by (apply (pt_map_to_cube_exact 1 ltac:(lia)); [congruence|reflexivity]).
    assert (Hy : in_facet s y) by (apply (H5 x y HP); auto). pose proof (in_facet_length _ _ _ _ F Hy) as HLy.
    pose proof (place_mul d 1 b c0 x y W ltac:(lia) H1 HP) as HPb. change (apply_cube b (Z.of_nat 1) c0) with (apply_cube_start b c0 1) in HPb.
    assert (HB : apply_cube_start b c0 1 = c1).
    { apply (K6 _ (pt_mul b y)); [apply P1; auto| |intros Z; apply H2, (start_zero_inv d b); auto]. apply (place_in_cube 1 ltac:(lia) _ _ _ HPb). apply (in_facet_cube t1); [apply F2|]. apply P2; auto. }
    rewrite HB in HPb |- *. left. f_equal. apply (facet_same d N _ _ (pt_mul b x)); auto; [congruence| |apply P2; auto]. apply (K5 _ _ HPb). apply P1; auto.
  - intros c c' s t F F' LC LC' NE. change (map _ (combine c c')) with (zsub c c'). destruct (facet_nb d N s F) as (c0 & s' & -> & H1 & H2 & H3 & H4 & H5 & H6). unfold touch. split.
    + intros (t' & [E|[]] & HI). injection E as -> ->. apply (facet_inter d N) in HI; auto. destruct HI as (x & HX & HX').
      assert (LX : length x = d) by (eapply in_facet_length; [exact F'|auto]).
      set (z := pt_map_to_cube 1 (zsub c c') x). assert (HP : place_in 1 (zsub c c') x z) by (apply (pt_map_to_cube_exact 1 ltac:(lia)); [congruence|reflexivity]).
      assert (HZ : in_facet s z) by (apply (H5 _ _ HP); auto). exists z, x, (pt_map_to_cube N c z). split; auto. split; auto.
      assert (HPN : place_in N c z (pt_map_to_cube N c z)) by (apply (pt_map_to_cube_exact N HN); [rewrite (in_facet_length d N s z); auto|reflexivity]).
      split; auto. apply (shift_place N c c' z x _ HN HPN). split; auto. congruence.
    + intros (x & x' & y & HX & HX' & P & P'). apply (shift_place N c c' x x' y HN P) in P'. destruct P' as (P' & _).
      assert (EC : zsub c c' = c0).
      { apply (H6 _ x); auto; [|rewrite zsub_zero by congruence; auto]. apply (place_in_cube 1 ltac:(lia) _ _ _ P'). apply (in_facet_cube t); auto. apply F'. }
      exists s'. split; [left; congruence|]. apply (facet_inter d N); auto. exists x'. split; auto. rewrite EC in P'. apply (H5 _ _ P'). auto.
  - intros s F. pose proof F as (A & B & C). destruct (fs_divide_spec s A) as (l & E & H1 & H2 & H3). rewrite C in *. rewrite B in *. exists l. split; auto. split; auto.
    assert (HG : forall c t, In (c, t) l -> grid_cube d N c /\ facet_of d N t) by (intros c t Hin; destruct (H2 c t Hin) as (? & ? & ? & ?); split; auto; split; auto).
    split; auto. intros c t G F'. unfold meets. split.
    + intros (t' & Hin & HI). destruct (HG _ _ Hin) as (_ & Ft'). apply (facet_inter d N) in HI; auto. destruct HI as (x & HX & HX').
      exists x, (pt_map_to_cube N c x). assert (HP : place_in N c x (pt_map_to_cube N c x)).
      { apply (pt_map_to_cube_exact N HN); [rewrite (in_facet_length d N t x); auto; apply G|reflexivity]. }
      split; auto. split; auto. apply (H3 (pt_map_to_cube N c x)). eauto 6.
    + intros (x & y & HX & HP & HY). assert (HO : off_grid s y) by (apply (placed_off_grid d N s t c x y); auto; apply G).
      destruct (proj2 (H3 y) (conj HY (fun _ => HO))) as (c' & t' & x' & Hin & HP' & HX'). destruct (HG _ _ Hin) as (G' & F'').
      destruct (placed_unique d N s t t' c c' x x' y) as (-> & ->); auto. exists t'. split; auto. apply (facet_inter d N); eauto.
  - intros c t s F F' G (x & y & HX & HP & HY). apply (facet_map_some d N c t s x y); auto.
  - intros c t r F G E. apply (facet_map d N c t r); auto.
  - intros b c t r W F G E. destruct (facet_map d N c t r F G E) as (FR & LR & PR). destruct (in_facet_exists t (proj1 F)) as (x & HX).
    pose proof (in_facet_length d N t x F HX) as LX. set (y := pt_map_to_cube N c x).
    assert (HP : place_in N c x y) by (apply (pt_map_to_cube_exact N HN); [rewrite LX; apply G|reflexivity]).
    assert (HY : in_facet r y) by (apply (PR x y); auto). pose proof (in_facet_length d N r y FR HY) as LY.
    pose proof (place_mul d N b c x y W HN (proj1 G) HP) as HPb. destruct (HM b t W F) as (t1 & -> & _ & F1 & L1 & P1). destruct (HM b r W FR) as (r1 & -> & _ & F2 & L2 & P2).
    pose proof (grid_apply d N b c W G) as GB.
    destruct (facet_map_some d N (apply_cube b (Z.of_nat N) c) t1 r1 (pt_mul b x) (pt_mul b y)) as (r2 & E2); auto; [apply P1; auto|apply P2; auto|].
    rewrite E2. f_equal. destruct (facet_map d N _ _ _ F1 GB E2) as (FR2 & LR2 & PR2). apply (facet_same d N _ _ (pt_mul b y)); auto; [lia|apply (PR2 _ _ HPb), P1; auto|apply P2; auto].
  - intros b s x W F HX. destruct (HM b s W F) as (s1 & -> & _ & F1 & L1 & P1). apply (P1 x); auto. apply (in_facet_length d N s); auto.
Qed.
