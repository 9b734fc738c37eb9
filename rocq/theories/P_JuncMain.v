(** Completeness, genuineness, depth and termination of gen_regular_junctions (C22-C24). *)
From Verif Require Import Py L_Py L_Qc M_BaseMaps S_BaseMaps L_BaseMaps P_Actions P_GenMaps M_Subsets S_Subsets P_Subsets P_Points P_Facets
  M_Paths M_Utils M_Curves S_Utils L_R P_Utils S_Curves S_Junctions P_CurveAct L_Digits P_Core P_Bridge P_Paths P_Entrance P_Cont P_Check P_Subdiv P_Junctions P_JuncLoop.
From Coq Require Import Reals Lra Lia.
Local Open Scope nat_scope.

Section Main.
Context (c : curve) (HC : valid_curve c).
Let HV : valid_fuzzy c := valid_curve_fuzzy c HC.
Notation K := (core_of c). Notation d := (cv_dim c). Notation N := (cv_div c). Notation G := (cv_genus c). Notation m := (cv_mult c).
Let HF : core_full K := core_of_full c HV.
Let HK : core_ok K := full_ok K HF.
Lemma ends_ok : ends_def c.
Proof. intros p Hp. pose proof (G_pos c HV). split; apply (all_defined c HC); auto; lia. Qed.

(** the specification's pairs are the core's pairs *)
Lemma neighbours_kpair p cs1 cs2 X1 X2 v : neighbours c p cs1 cs2 X1 X2 v <-> p < m /\ consec K cs1 cs2 /\ (X1, X2, v) = kpair K p cs1 cs2.
Proof.
  unfold neighbours. split.
  - intros (Hp & HL & HT & q1 & q2 & W1 & D1 & W2 & D2 & Lv & Hv).
    rewrite (fpattern_curve_eq c HV) in W1, W2. pose proof (wfS_idp K p Hp) as HI.
    assert (C1 : wfc K cs1) by (apply (walk_some c HC cs1 _ _ HI W1)). assert (C2 : wfc K cs2) by (apply (walk_some c HC cs2 _ _ HI W2)).
    split; auto. split; [split; auto; split; auto|].
    rewrite (walk_eq c HC) in W1, W2 by auto. unfold get_deep_spec in D1, D2. rewrite (deep_spec_from c HC) in D1, D2 by auto.
    apply (f_equal (option_map fst)) in W1, W2. cbn [option_map fst] in W1, W2. unfold kpair.
    assert (E1 : X1 = kst K (Sp (id_map (kd K)) p) cs1) by (cbn [kd core_of]; congruence).
    assert (E2 : X2 = kst K (Sp (id_map (kd K)) p) cs2) by (cbn [kd core_of]; congruence). rewrite E1, E2. f_equal.
    apply nth_ext with 0%Z 0%Z; [rewrite vdiff_length; auto|]. rewrite Lv. intros j Hj. rewrite nth_vdiff by auto. rewrite Hv by auto. unfold kX. cbn [kd kN core_of].
    assert (Q1 : q1 = kcubes K (Sp (id_map d) p) cs1) by congruence. assert (Q2 : q2 = kcubes K (Sp (id_map d) p) cs2) by congruence. rewrite Q1, Q2. auto.
  - intros (Hp & (C1 & C2 & HL & HT) & E). unfold kpair in E. split; auto. split; auto. split; auto. pose proof (wfS_idp K p Hp) as HI.
    exists (kcubes K (Sp (id_map d) p) cs1), (kcubes K (Sp (id_map d) p) cs2). rewrite (fpattern_curve_eq c HV). rewrite !(walk_eq c HC) by auto.
    unfold get_deep_spec. rewrite !(deep_spec_from c HC) by auto. injection E as -> -> ->. split; auto. split; auto. split; auto. split; auto. split; [apply vdiff_length|].
    intros j Hj. rewrite nth_vdiff by auto. auto.
Qed.
Lemma isometric_jeq X1 X2 v Y1 Y2 w : isometric d X1 X2 v Y1 Y2 w <-> jeq d (X1, X2, v) (Y1, Y2, w).
Proof.
  unfold isometric, jeq, jact. split; intros (g & Hg & H); exists g; (split; auto); destruct (time_rev g); try (destruct H as (-> & -> & ->); auto); injection H as -> -> ->; auto.
Qed.

(** genuine junctions *)
Definition genuine (j : junction) : Prop :=
  normal d j /\ exists p cs cs', p < m /\ consec K cs cs' /\ j_depth j = Some (length cs) /\ jeq d (kpair K p cs cs') (jt j).
Lemma genuine_wf j : genuine j -> wft K (jt j).
Proof. intros (_ & p & cs & cs' & Hp & Hc & _ & He). apply (jeq_wf K (kpair K p cs cs')); auto. apply (kpair_wf K HK); auto. Qed.
Lemma genuine_der j : genuine j -> exists dj, get_derived_junction c j = Some dj /\ genuine dj.
Proof.
  intros Hj. pose proof (genuine_wf j Hj) as Hw. rewrite (derived_eq c HV ends_ok) by auto. eexists. split; [reflexivity|].
  pose proof (kder_wf K HK _ Hw) as Hw'. split; [apply (reg_of_normal K); auto|]. destruct Hj as (_ & p & cs & cs' & Hp & Hc & Hd & He).
  exists p, (cs ++ [kG K - 1]), (cs' ++ [0]). split; auto. split; [apply (consec_next K HK); auto|]. split.
  - rewrite reg_of_depth, Hd, app_length. cbn. f_equal. lia.
  - rewrite (kpair_next K) by auto. pose proof (kpair_wf K HK p cs cs' Hp Hc). apply (jeq_trans K) with (kder K (jt j)).
    + apply (kder_wf K HK); auto.
    + apply (kder_jeq K HK); auto.
    + apply (reg_of_jeq K); auto.
Qed.
Definition base_list : list junction := map (fun pk => reg_of (kbase K (fst pk) (snd pk)) (Some 1)) (list_prod (range m) (range (G - 1))).
Lemma in_pk p k : In (p, k) (list_prod (range m) (range (G - 1))) <-> p < m /\ k + 1 < G.
Proof. rewrite in_prod_iff. unfold range. rewrite !in_seq. lia. Qed.
Lemma gen_base_eq : gen_base_junctions c = Some (dedup junc_eqb base_list).
Proof.
  unfold gen_base_junctions, base_list. rewrite (omap_ext_in _ (fun pk => Some (reg_of (kbase K (fst pk) (snd pk)) (Some 1)))).
  - rewrite omap_some_map. reflexivity.
  - intros [p k] Hin. apply in_pk in Hin as [Hp Hk]. cbn [fst snd]. apply (base_eq c HV); auto; apply (all_defined c HC); auto; lia.
Qed.
Lemma base_genuine j : In j base_list -> genuine j.
Proof.
  intros Hin. apply in_map_iff in Hin as ([p k] & <- & Hin). apply in_pk in Hin as [Hp Hk]. cbn [fst snd]. pose proof (kbase_wf K HK p k Hp Hk) as Hw.
  split; [apply (reg_of_normal K); auto|]. exists p, [k], [k + 1]. split; auto. split; [apply (consec_base K [] k); auto; constructor|].
  split; [apply reg_of_depth|]. rewrite (kpair_one K HK) by auto. apply (reg_of_jeq K); auto.
Qed.
Lemma base_dedup : Forall genuine (dedup junc_eqb base_list) /\ NoDup (keys (dedup junc_eqb base_list)) /\
  forall p k, p < m -> k + 1 < G -> In (jkey (reg_of (kbase K p k) (Some 1))) (keys (dedup junc_eqb base_list)).
Proof.
  destruct (dedup_aux_key jkey junc_eqb junc_eqb_key base_list []) as (H1 & H2 & H3 & _). fold (dedup junc_eqb base_list) in *.
  split; [apply Forall_forall; intros j Hj; apply base_genuine; auto|]. split; auto. intros p k Hp Hk. destruct (H2 (reg_of (kbase K p k) (Some 1))) as [[]|H]; auto.
  apply in_map_iff. exists (p, k). split; auto. apply in_pk; auto.
Qed.

Lemma gen_spec fuel : let r := gen_regular_junctions fuel c in
  Forall genuine (fst r) /\ NoDup (keys (fst r)) /\ snd r <> GRaise /\
  (snd r = GDone -> forall p cs cs', p < m -> consec K cs cs' -> exists j, In j (fst r) /\ jeq d (kpair K p cs cs') (jt j)).
Proof.
  unfold gen_regular_junctions. rewrite gen_base_eq. destruct base_dedup as (B1 & B2 & B3).
  destruct (from_base_spec c genuine genuine_der fuel _ B1 B2) as (H1 & H2 & H3 & H4 & H5).
  set (r := gen_junctions_from_base fuel c (dedup junc_eqb base_list)) in *. cbv zeta. split; auto. split; auto. split; auto. intros HD p cs cs' Hp Hc.
  destruct (pair_classes K HK (fun t => exists j, In j (fst r) /\ jt j = t)) with (p := p) (cs := cs) (cs' := cs') as (t & (j & Hj & <-) & Ht); auto; [| |eauto].
  - intros q k Hq Hk. specialize (B3 q k Hq Hk). apply in_map_iff in B3 as (j & Ej & Hj). exists (jt j). split; [exists j; split; auto|].
    apply (f_equal fst) in Ej. change (jt j = jt (reg_of (kbase K q k) (Some 1))) in Ej. rewrite Ej. apply (reg_of_jeq K), (kbase_wf K HK); auto.
  - intros t (j & Hj & <-) Hw. rewrite Forall_forall in H1. pose proof (derived_eq c HV ends_ok j Hw) as Ed. specialize (H5 HD j _ Hj Ed).
    apply in_map_iff in H5 as (i & Ei & Hi). exists (jt i). split; [exists i; auto|]. apply (f_equal fst) in Ei.
    change (jt i = jt (reg_of (kder K (jt j)) (option_map S (j_depth j)))) in Ei. rewrite Ei. apply (reg_of_jeq K), (kder_wf K HK); auto.
Qed.

(** continuous curves *)
Definition dxs : list (list Z) := lprod_rep [-1; 0; 1]%Z d.
Definition all_specs : list spec := flat_map (fun b => map (Sp b) (range m)) (gen_base_maps d None).
Definition universe : list (spec * spec * list Z * Z) :=
  map (fun x => (x, 1%Z)) (list_prod (list_prod all_specs all_specs) dxs).
Lemma in_all_specs X : wfS K X -> In X all_specs.
Proof.
  intros [Hb Hp]. apply in_flat_map. exists (sp_bm X). split; [apply In_gen_base_maps; auto|]. apply in_map_iff. exists (sp_pnum X). split; [destruct X; auto|].
  unfold range. apply in_seq. cbn in Hp. lia.
Qed.
Lemma kX_inj' p cs cs' : p < m -> wfc K cs -> wfc K cs' -> length cs = length cs' ->
  (forall j, j < d -> kX K (Sp (id_map d) p) cs j = kX K (Sp (id_map d) p) cs' j) -> cs = cs'.
Proof. intros Hp W W' L E. apply (kX_inj K HF 1 ltac:(lia) cs cs' (Sp (id_map d) p)); auto. apply (wfS_idp K); auto. Qed.
(** the three facts about a junction of a continuous curve *)
Definition good_dx (j : junction) : Prop :=
  Forall (fun z => (-1 <= z <= 1)%Z) (j_dx j) /\ exists i, i < d /\ nth i (j_dx j) 0%Z <> 0%Z.
Lemma act_zero g v : wf_bm d g -> length v = d -> (forall i, i < d -> nth i (apply_vec g v) 0%Z = 0%Z) -> forall i, i < d -> nth i v 0%Z = 0%Z.
Proof.
  intros Hg Hv Hz i Hi. assert (E : v = apply_vec (bm_inv g) (apply_vec g v)) by (symmetry; apply (action_vec d g g v); auto).
  rewrite E. unfold apply_vec at 1. pose proof (wf_inv d g Hg) as Hgi. rewrite nth_act by (rewrite (wf_length d); auto). rewrite Hz by (apply (wf_nth_lt d); auto).
  destruct (snd (nth i (coords (bm_inv g)) (0%nat, false))); auto.
Qed.
Lemma genuine_nonzero j : genuine j -> exists i, i < d /\ nth i (j_dx j) 0%Z <> 0%Z.
Proof.
  intros Hj. pose proof (genuine_wf j Hj) as Hw. destruct Hj as (_ & p & cs & cs' & Hp & Hc & _ & g & Hg & He).
  destruct (existsb (fun i => negb (nth i (j_dx j) 0 =? 0)%Z) (seq 0 d)) eqn:Ex.
  - apply existsb_exists in Ex as (i & Hi & H). apply in_seq in Hi. apply negb_true_iff, Z.eqb_neq in H. exists i. split; auto. lia.
  - exfalso. assert (Hz : forall i, i < d -> nth i (j_dx j) 0%Z = 0%Z).
    { intros i Hi. destruct (Z.eq_dec (nth i (j_dx j) 0%Z) 0) as [|Hn]; auto. rewrite <- not_true_iff_false in Ex. exfalso. apply Ex, existsb_exists.
      exists i. split; [apply in_seq; lia|]. apply negb_true_iff, Z.eqb_neq. auto. }
    assert (Hd : forall i, i < d -> nth i (vdiff K (kX K (Sp (id_map d) p) cs') (kX K (Sp (id_map d) p) cs)) 0%Z = 0%Z).
    { unfold jt, kpair, jact in He. cbn [kd core_of] in He. destruct (time_rev g).
      - injection He as _ _ He. rewrite He in Hz. intros i Hi. assert (H := fun HL => act_zero g _ Hg HL Hz i Hi). specialize (H ltac:(rewrite map_length; apply (vdiff_length K))).
        rewrite map_nth_lt with (d := 0%Z) in H by (rewrite vdiff_length; auto). lia.
      - injection He as _ _ He. rewrite He in Hz. apply (act_zero g); auto. apply (vdiff_length K). }
    destruct Hc as (W & W' & L & T). assert (cs = cs').
    { apply (kX_inj' p); auto. intros i Hi. specialize (Hd i Hi). rewrite nth_vdiff in Hd by auto. lia. }
    subst cs'. lia.
Qed.
Context (HCK : check c = Some true).
Let HKC : kcont K := check_kcont c HC HCK.
Lemma genuine_meets j : genuine j -> kmeets K (jt j).
Proof.
  intros (_ & p & cs & cs' & Hp & Hc & _ & g & Hg & ->). apply (kmeets_jact K HK); auto; [apply (kpair_wf K HK); auto|]. apply (kmeets_pair K HK); auto.
Qed.
Lemma kgraph_range X t x : wfS K X -> kgraph K X t x -> (0 <= t <= 1)%R /\ forall j, j < d -> (0 <= nth j x 0 <= 1)%R.
Proof.
  intros HX (HL & dl & Hd & H). specialize (H 0). destruct H as (Ht & _ & Hx). unfold time_in in Ht. cbn in Ht. split; [lra|]. intros j Hj. specialize (Hx j Hj). unfold place_of in Hx. cbn in Hx. lra.
Qed.
Lemma genuine_good j : genuine j -> good_dx j.
Proof.
  intros Hj. split; [|apply genuine_nonzero; auto]. pose proof (genuine_wf j Hj) as (HX & HY & Hv). pose proof (genuine_meets j Hj) as HM.
  destruct (kgraph_total K HK (j_spec1 j) 1 HX ltac:(lra)) as [x Hx]. destruct (kgraph_total K HK (j_spec2 j) 0 HY ltac:(lra)) as [y Hy].
  apply Forall_nth. intros i z Hi. rewrite (nth_indep _ z 0%Z) by auto. assert (Hi' : i < d) by (change d with (kd K); lia). specialize (HM x y Hx Hy i Hi').
  destruct (kgraph_range _ _ _ HX Hx) as [_ Rx]. destruct (kgraph_range _ _ _ HY Hy) as [_ Ry]. specialize (Rx i Hi'). specialize (Ry i Hi').
  assert (IZR (nth i (j_dx j) 0%Z) <= 1)%R by lra. assert (-1 <= IZR (nth i (j_dx j) 0%Z))%R by lra. apply le_IZR in H. apply le_IZR in H0. lia.
Qed.
Lemma genuine_universe j : genuine j -> In (jkey j) universe.
Proof.
  intros Hj. pose proof (genuine_wf j Hj) as (HX & HY & Hv). destruct (genuine_good j Hj) as [Hg _]. pose proof (proj1 Hj) as (_ & _ & _ & Hdt).
  rewrite jkey_jt by auto. unfold universe. apply in_map_iff. exists (jt j). split; auto. unfold jt. rewrite !in_prod_iff. split; [split; apply in_all_specs; auto|].
  unfold dxs. apply In_lprod_rep. split; auto. eapply Forall_impl; [|apply Hg]. cbn. intros z Hz. lia.
Qed.
Lemma gen_ends : exists fuel0 js, forall fuel, fuel0 <= fuel -> gen_regular_junctions fuel c = (js, GDone).
Proof.
  set (base := dedup junc_eqb base_list). destruct base_dedup as (B1 & B2 & _). fold base in B1, B2.
  set (f0 := length base + length universe). exists f0, (fst (gen_regular_junctions f0 c)). intros fuel Hf.
  unfold gen_regular_junctions. rewrite gen_base_eq. fold base. unfold gen_junctions_from_base. cbn [fst].
  assert (HP' : Forall genuine (rev base)) by (apply Forall_forall; intros x Hx; apply in_rev in Hx; rewrite Forall_forall in B1; auto).
  assert (ND' : NoDup (keys (rev base))) by (unfold keys; rewrite map_rev; apply NoDup_rev; auto).
  assert (ED : snd (derive_loop f0 c (rev base) (rev base)) = GDone).
  { apply (loop_ends c genuine genuine_der universe genuine_universe); auto. rewrite rev_length. unfold f0. lia. }
  rewrite (loop_mono c f0 fuel) by (auto; rewrite ED; discriminate). rewrite ED. auto.
Qed.
End Main.
