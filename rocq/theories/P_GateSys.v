(** Curves as systems of chains of cubes and specs with gates; change of the patterns by base maps and permutations. *)
From Verif Require Import Py L_Py L_Qc L_BaseMaps M_BaseMaps M_Subsets M_Paths M_Curves M_PathTree M_PathGen M_Utils S_BaseMaps S_Subsets S_Paths S_Utils S_Curves S_PathGen S_PathTree
  P_GenMaps P_Actions P_Points P_Subsets P_Facets P_Paths P_Core P_CurveAct P_Bridge P_Entrance P_FuzzyCurves P_Check P_PathGen P_PathChain P_PathYield P_PathAll P_PathLaws P_PathTuples T_PathGen P_GateEqs.
From Coq Require Import Reals Lra Permutation.
Local Open Scope nat_scope.

Section Zl.
Context {T : Type} (O : subset_ops T) (pt : bool) (d N m : nat) (V : T -> Prop) (mem : T -> list Qc -> Prop) (LW : laws O pt d N V mem).
Notation mul := (so_mul O).
(** the chain of cubes and links of a pattern *)
Definition zl (L : nat -> link T) (z : list (list Z * spec)) : list (list Z * link T) :=
  map (fun cs => (fst cs, lk_mul mul (sp_bm (snd cs)) (L (sp_pnum (snd cs))))) z.
Definition Vl (l : link T) : Prop := V (entrance l) /\ V (exit l).
(** pattern i of the new system is pattern (s i) of the old one, changed by (b i); t is the inverse of s *)
Definition tr_spec (t : nat -> nat) (b : nat -> base_map) (b0 : base_map) (s : spec) : spec :=
  Sp (bm_mul (bm_mul b0 (sp_bm s)) (bm_inv (b (t (sp_pnum s))))) (t (sp_pnum s)).
Definition tr_z (t : nat -> nat) (b : nat -> base_map) (b0 : base_map) (z : list (list Z * spec)) : list (list Z * spec) :=
  map (fun cs => (apply_cube b0 (Z.of_nat N) (fst cs), tr_spec t b b0 (snd cs))) (if time_rev b0 then rev z else z).
Definition tr_l (s : nat -> nat) (b : nat -> base_map) (L : nat -> link T) (i : nat) : link T := lk_mul mul (b i) (L (s i)).
Definition perm_on (s t : nat -> nat) : Prop := (forall i, i < m -> s i < m /\ t (s i) = i) /\ (forall i, i < m -> t i < m /\ s (t i) = i).

Lemma tr_spec_wf s t b b0 x : perm_on s t -> (forall i, i < m -> wf_bm d (b i)) -> wf_bm d b0 -> wf_spec d m x -> wf_spec d m (tr_spec t b b0 x).
Proof. intros [_ P2] HB H0 [W P]. split; cbn; [|apply P2; auto]. apply wf_mul; [apply wf_mul; auto|apply wf_inv, HB, P2; auto]. Qed.
Lemma tr_zl s t b b0 L z : perm_on s t -> (forall i, i < m -> wf_bm d (b i)) -> wf_bm d b0 -> (forall p, p < m -> Vl (L p)) ->
  Forall (fun cs => wf_spec d m (snd cs)) z -> zl (tr_l s b L) (tr_z t b b0 z) = zmul O N b0 (zl L z).
Proof.
  intros [P1 P2] HB H0 HL HZ. unfold zl, tr_z, zmul. rewrite map_map.
  replace (if time_rev b0 then rev _ else _) with (map (fun cs : list Z * spec => (fst cs, lk_mul mul (sp_bm (snd cs)) (L (sp_pnum (snd cs))))) (if time_rev b0 then rev z else z)) by (destruct (time_rev b0); rewrite ?map_rev; auto).
  rewrite map_map. apply map_ext_in. intros [c x] Hx. cbn [fst snd]. f_equal. assert (W : wf_spec d m x).
  { rewrite Forall_forall in HZ. apply (HZ (c, x)). destruct (time_rev b0); auto. apply in_rev; auto. }
  destruct W as [W P]. cbn [sp_bm sp_pnum tr_spec]. unfold tr_l. destruct (P2 _ P) as [T1 T2]. rewrite T2. set (q := sp_pnum x) in *. pose proof (HB _ T1) as WQ. destruct (HL q P) as [V1 V2].
  rewrite <- !(lk_mul_mul O pt d N V mem LW) by (auto using wf_mul, wf_inv). f_equal. rewrite (mul_assoc d) by (auto using wf_mul, wf_inv). rewrite (mul_inv_l d) by auto. rewrite (mul_id_r d); auto using wf_mul.
Qed.
Lemma tr_links s t b L x : perm_on s t -> (forall i, i < m -> wf_bm d (b i)) -> (forall p, p < m -> Vl (L p)) ->
  image_of mul d (map L (range m)) x -> image_of mul d (map (tr_l s b L) (range m)) x.
Proof.
  intros [P1 P2] HB HL (l0 & a & Hl & Wa & ->). apply in_map_iff in Hl. destruct Hl as (q & <- & Hq). apply in_seq in Hq. assert (Hq' : q < m) by lia. destruct (P2 q Hq') as [T1 T2].
  pose proof (HB _ T1) as WQ. destruct (HL q Hq') as [V1 V2]. exists (tr_l s b L (t q)), (bm_mul a (bm_inv (b (t q)))). split; [apply in_map, in_seq; lia|]. split; [apply wf_mul; auto using wf_inv|].
  change (lk_mul mul a (L q) = lk_mul mul (bm_mul a (bm_inv (b (t q)))) (tr_l s b L (t q))). unfold tr_l. rewrite T2.
  rewrite <- (lk_mul_mul O pt d N V mem LW) by (auto using wf_mul, wf_inv). f_equal. rewrite (mul_assoc d) by (auto using wf_inv). rewrite (mul_inv_l d), (mul_id_r d); auto.
Qed.
Lemma good_chain_links links links' mc z : (forall x, image_of mul d links x -> image_of mul d links' x) ->
  good_chain mem mul d N links mc z -> good_chain mem mul d N links' mc z.
Proof. intros H [A B C D]. constructor; auto. eapply Forall_impl; [|exact C]. cbn. auto. Qed.

(** chains of all patterns *)
Definition chains_ok (Zs : nat -> list (list Z * spec)) (L : nat -> link T) : Prop := forall p, p < m ->
  Forall (fun cs => wf_spec d m (snd cs)) (Zs p) /\ Vl (L p) /\
  good_chain mem mul d N (map L (range m)) None (zl L (Zs p)) /\ good_ends mem N (L p) (zl L (Zs p)).
Context (H2 : 2 <= N ^ d).
Lemma chains_V Zs L : chains_ok Zs L -> Forall (fun l => V (entrance l) /\ V (exit l)) (map L (range m)).
Proof. intros H. rewrite Forall_map, Forall_forall. intros p Hp. apply in_seq in Hp. apply H. lia. Qed.
Lemma tr_ok s t b Zs L : perm_on s t -> (forall i, i < m -> wf_bm d (b i)) -> chains_ok Zs L ->
  chains_ok (fun i => tr_z t b (b i) (Zs (s i))) (tr_l s b L).
Proof.
  intros HP HB HC i Hi. pose proof HP as [P1 P2]. destruct (P1 i Hi) as [S1 S2]. destruct (HC (s i) S1) as (C1 & C2 & C3 & C4).
  assert (HL : forall p, p < m -> Vl (L p)) by (intros; apply HC; auto). pose proof (HB i Hi) as WB. pose proof (chains_V Zs L HC) as HVl.
  split; [|split; [|rewrite tr_zl with (s := s) by auto; split]].
  - unfold tr_z. rewrite Forall_map. cbn [snd]. rewrite Forall_forall in C1 |- *. intros x Hx. eapply tr_spec_wf; eauto. apply C1. destruct (time_rev (b i)); auto. apply in_rev; auto.
  - destruct C2 as [V1 V2]. unfold Vl, tr_l, lk_mul. destruct (time_rev (b i)); cbn; split; apply (lw_V _ _ _ _ _ _ LW); auto.
  - apply good_chain_links with (links := map L (range m)); [intros x; apply (tr_links s t); auto|]. apply (chain_mul O pt d N V mem LW (map L (range m)) HVl None H2); auto.
  - unfold tr_l. apply (ends_mul O pt d N V mem LW (map L (range m)) HVl None H2 (b i)); auto; apply C2.
Qed.
(** a path for every pattern *)
Lemma chains_path Zs L : chains_ok Zs L -> forall p, p < m -> exists q, mkp O d N (zl L (Zs p)) = Some q /\ wanted O d N mem (map L (range m)) None (L p) q.
Proof.
  intros HC p Hp. destruct (HC p Hp) as (C1 & (V1 & V2) & C3 & C4). destruct (chain_path O pt d N V mem LW (map L (range m)) (chains_V Zs L HC) None (zl L (Zs p)) (L p) V1 V2 C3 C4) as [_ (q & Hq)].
  exists q. split; auto. apply mkp_path_of in Hq. destruct Hq as (Q1 & Q2). split; auto. exists (zl L (Zs p)). auto.
Qed.
End Zl.

(** sets that contain the points of a system *)
Section Lift.
Context {T : Type} (O : subset_ops T) (pt : bool) (d N m : nat) (V : T -> Prop) (mem : T -> list Qc -> Prop) (LW : laws O pt d N V mem) (H2 : 2 <= N ^ d).
Context (Zs : nat -> list (list Z * spec)) (g : nat -> plink) (HG : chains_ok point_ops d N m (unit_point d) is_point Zs g).
Definition has_link (l : link T) (x : plink) : Prop := mem (entrance l) (entrance x) /\ mem (exit l) (exit x).
Lemma has_mul b l x : wf_bm d b -> Vl V l -> has_link l x -> has_link (lk_mul (so_mul O) b l) (lk_mul pt_mul b x).
Proof. intros W [V1 V2] [H1 H3]. unfold has_link, lk_mul. destruct (time_rev b); cbn; split; apply (lw_mem _ _ _ _ _ _ LW); auto. Qed.
Lemma lift_ok L : (forall p, p < m -> Vl V (L p) /\ has_link (L p) (g p)) -> chains_ok O d N m V mem Zs L.
Proof.
  intros HL p Hp. destruct (HG p Hp) as (C1 & C2 & C3 & C4). split; auto. split; [apply HL; auto|].
  assert (HM : forall c s, In (c, s) (Zs p) -> has_link (lk_mul (so_mul O) (sp_bm s) (L (sp_pnum s))) (lk_mul pt_mul (sp_bm s) (g (sp_pnum s)))).
  { intros c s Hs. rewrite Forall_forall in C1. destruct (C1 _ Hs) as [W P]. cbn [snd] in *. destruct (HL _ P). apply has_mul; auto. }
  assert (EF : map fst (zl O L (Zs p)) = map fst (zl point_ops g (Zs p))) by (unfold zl; rewrite !map_map; auto).
  split.
  - destruct C3 as [A1 A2 A3 A4]. constructor.
    + rewrite EF. auto.
    + intros c. rewrite EF. auto.
    + unfold zl. rewrite Forall_map, Forall_forall. intros [c s] Hs. cbn [snd]. rewrite Forall_forall in C1. destruct (C1 _ Hs) as [W P]. cbn [snd] in *.
      exists (L (sp_pnum s)), (sp_bm s). split; [apply in_map, in_seq; lia|]. split; auto.
    + intros i c l c' l' E1 E2. split; [|exact I]. unfold zl in E1, E2, A4. rewrite nth_error_map in E1, E2.
      destruct (nth_error (Zs p) i) as [[c0 s0]|] eqn:F1; [|discriminate]. destruct (nth_error (Zs p) (S i)) as [[c1 s1]|] eqn:F2; [|discriminate].
      cbn in E1, E2. injection E1 as <- <-. injection E2 as <- <-.
      destruct (A4 i c0 (lk_mul pt_mul (sp_bm s0) (g (sp_pnum s0))) c1 (lk_mul pt_mul (sp_bm s1) (g (sp_pnum s1)))) as ((x & x' & y & X1 & X2 & X3 & X4) & _); [rewrite nth_error_map, F1; auto|rewrite nth_error_map, F2; auto|].
      unfold is_point in X1, X2. subst x x'. apply nth_error_In in F1, F2. exists (exit (lk_mul pt_mul (sp_bm s0) (g (sp_pnum s0)))), (entrance (lk_mul pt_mul (sp_bm s1) (g (sp_pnum s1)))), y.
      split; [apply (HM c0 s0 F1)|]. split; [apply (HM c1 s1 F2)|auto].
  - destruct C4 as ((c0 & l0 & E0 & x0 & y0 & M0 & M0' & M0'') & (c1 & l1 & E1 & x1 & y1 & M1 & M1' & M1'')). unfold is_point in *. subst x0 x1 y0 y1.
    unfold zl in E0, E1 |- *. unfold good_ends. rewrite <- map_rev in E1. rewrite <- map_rev. rewrite hd_map in E0, E1. rewrite !hd_map.
    destruct (hd_error (Zs p)) as [[a0 s0]|] eqn:F0; [|discriminate]. destruct (hd_error (rev (Zs p))) as [[a1 s1]|] eqn:F1; [|discriminate]. cbn in E0, E1. injection E0 as <- <-. injection E1 as <- <-.
    apply hd_In in F0. apply hd_In in F1. apply in_rev in F1. destruct (HL p Hp) as (_ & L1 & L2). cbn [option_map fst snd]. split; (eexists _, _; split; [reflexivity|]).
    + exists (entrance (lk_mul pt_mul (sp_bm s0) (g (sp_pnum s0)))), (entrance (g p)). split; [apply (HM a0 s0 F0)|auto].
    + exists (exit (lk_mul pt_mul (sp_bm s1) (g (sp_pnum s1)))), (exit (g p)). split; [apply (HM a1 s1 F1)|auto].
Qed.
End Lift.

(** The system of a curve. *)
Section Curve.
Context (c : curve) (HC : valid_curve c) (HK : check c = Some true).
Notation d := (cv_dim c). Notation N := (cv_div c). Notation G := (cv_genus c). Notation m := (cv_mult c).
Definition curve_z (p : nat) : list (list Z * spec) := map (fun k => (kcube (core_of c) p k, kspec (core_of c) p k)) (seq 0 G).
Lemma G2 : 2 <= N ^ d. Proof. destruct HC as (A & B & _). apply (G_ge2 d N 1); auto. Qed.
Lemma curve_sys : chains_ok point_ops d N m (unit_point d) is_point curve_z (klink c).
Proof.
  pose proof (valid_curve_fuzzy c HC) as HV. pose proof (curve_ends_def c HC) as HE. pose proof (full_ok _ (core_of_full c HV)) as KO.
  assert (HU : forall p, p < m -> Vl (unit_point d) (klink c p)).
  { intros p Hp. pose proof (klink_is c HC p Hp) as HL. pose proof (klink_dim c HC p Hp) as [D1 D2]. destruct (link_unit c p (klink c p) HV HE Hp HL). split; split; auto. }
  assert (HUL : unit_links d (map (klink c) (range m))). { unfold unit_links. rewrite Forall_map, Forall_forall. intros p Hp. apply in_seq in Hp. apply HU. lia. }
  pose proof G2 as HG2. assert (HN : 1 <= N) by (destruct HC as (_ & B & _); lia).
  intros p Hp.
  assert (EZ : zl point_ops (klink c) (curve_z p) = map (fun k => (kcube (core_of c) p k, flink c p k)) (seq 0 G)).
  { unfold zl, curve_z. rewrite map_map. apply map_ext. intros k. reflexivity. }
  assert (HGC : good_chain is_point pt_mul d N (map (klink c) (range m)) None (zl point_ops (klink c) (curve_z p))).
  { rewrite EZ. destruct (nth_pat c HV p Hp) as (pat & EP & _). pose proof (pat_cubes_eq c HC p pat EP) as EC.
    destruct HC as (_ & _ & _ & _ & HF). rewrite Forall_forall in HF. destruct (HF pat (nth_error_In _ _ EP)) as ((_ & _ & cs & Q1 & Q2 & Q3) & _). rewrite Q1 in EC.
    assert (ECS : cs = map (fun k => kcube (core_of c) p k) (seq 0 G)).
    { apply (f_equal (map (fun o : option (list Z) => match o with Some x => x | None => [] end))) in EC. rewrite !map_map in EC. rewrite map_id in EC. exact EC. }
    assert (EM : map fst (map (fun k => (kcube (core_of c) p k, flink c p k)) (seq 0 G)) = cs) by (rewrite map_map; symmetry; exact ECS).
    constructor.
    - clear - Q2 EM. rewrite <- EM in Q2. exact Q2.
    - intros q. specialize (Q3 q). clear - Q3 EM. rewrite <- EM in Q3. symmetry. exact Q3.
    - rewrite Forall_map, Forall_forall. intros k Hk. apply in_seq in Hk. cbn [snd]. destruct (kspec_wf c HC p k Hp ltac:(lia)) as [W P].
      exists (klink c (sp_pnum (kspec (core_of c) p k))), (sp_bm (kspec (core_of c) p k)). split; [apply in_map, in_seq; lia|]. split; auto.
    - intros i q l q' l' E1 E2. split; [|exact I].
      assert (Hi : S i < G) by (rewrite <- (seq_length G 0), <- (map_length (fun k => (kcube (core_of c) p k, flink c p k))); apply nth_error_Some; intros Z0; pose proof (eq_trans (eq_sym Z0) E2) as Z1; discriminate Z1).
      pose proof (eq_trans (eq_sym (nth_error_seq_map (fun k => (kcube (core_of c) p k, flink c p k)) G i ltac:(lia))) E1) as E1'. pose proof (eq_trans (eq_sym (nth_error_seq_map (fun k => (kcube (core_of c) p k, flink c p k)) G (S i) ltac:(lia))) E2) as E2'.
      injection E1' as <- <-. injection E2' as <- <-. clear E1 E2.
      pose proof (proj1 (joined_kcont c HC) (check_kcont c HC HK) p Hp) as HJ.
      assert (HD : pl_dim d (flink c p i)) by (apply flink_dim; auto; lia).
      assert (HQ : length (kcube (core_of c) p i) = d) by (apply (ok_cube _ KO); auto; change (kG (core_of c)) with G; lia).
      set (y := pt_map_to_cube N (kcube (core_of c) p i) (exit (flink c p i))).
      assert (HY : place_in N (kcube (core_of c) p i) (exit (flink c p i)) y) by (apply pt_map_to_cube_exact; auto; destruct HD; congruence).
      exists (exit (flink c p i)), (entrance (flink c p (S i))), y. split; [reflexivity|]. split; [reflexivity|]. split; auto.
      apply (HJ i (kcube (core_of c) p i) (flink c p i) (kcube (core_of c) p (S i)) (flink c p (S i)) y); cbn [cpath pa_proto pa_links pr_cubes pr_div]; auto.
      + rewrite nth_error_seq_map by lia. auto.
      + apply nth_error_seq_map; lia.
      + rewrite nth_error_seq_map by lia. auto.
      + apply nth_error_seq_map; lia. }
  split; [|split; [apply HU; auto|split; auto]].
  - unfold curve_z. rewrite Forall_map, Forall_forall. intros k Hk. apply in_seq in Hk. apply kspec_wf; auto. lia.
  - assert (HUK : unit_links d [klink c p]) by (constructor; [apply HU; auto|constructor]).
    assert (PP : point_path d N (map (klink c) (range m)) None (klink c p) (cpath c p)).
    { split; [apply mk_cpath; auto|]. split; [|reflexivity]. exists (zl point_ops (klink c) (curve_z p)). split; auto. rewrite EZ. split; cbn [cpath pa_proto pa_links]; rewrite map_map; auto. }
    apply (wanted_point d N _ None (klink c p) (cpath c p) HG2 HUL HUK) in PP. destruct PP as (_ & z & (PZ1 & PZ2) & _ & EN).
    assert (z = zl point_ops (klink c) (curve_z p)) as <-; auto. rewrite EZ. cbn [cpath pa_proto pa_links] in PZ1, PZ2. injection PZ1 as PZ1.
    clear - PZ1 PZ2. revert z PZ1 PZ2. induction (seq 0 G) as [|k l IH]; intros [|[a b] z] P1 P2; cbn in *; try discriminate; auto. injection P1 as <- P1. injection P2 as <- P2. f_equal. apply IH; auto.
Qed.
End Curve.
