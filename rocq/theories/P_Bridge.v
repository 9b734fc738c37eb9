(** From curve objects to the functional core: lookups, fractions, deep specs, graphs. *)
From Verif Require Import Py L_Py L_Qc M_BaseMaps S_BaseMaps L_BaseMaps P_Actions M_Subsets S_Subsets P_Subsets P_Facets
  M_Paths M_Curves S_Utils S_Curves P_CurveAct L_Digits P_Core.
From Coq Require Import Reals Permutation.
Local Open Scope nat_scope.

Lemma nth_error_rev {A} (l : list A) k : k < length l -> nth_error (rev l) k = nth_error l (length l - 1 - k).
Proof.
  intros H. destruct l as [|a l0]; [cbn in H; lia|]. set (l := a :: l0) in *.
  rewrite (nth_error_nth' (rev l) a) by (rewrite rev_length; auto).
  rewrite rev_nth by auto. rewrite (nth_error_nth' l a) by lia. f_equal. f_equal. lia.
Qed.
Lemma nth_error_ge {A} (l : list A) k : length l <= k -> nth_error l k = None.
Proof. apply nth_error_None. Qed.

Lemma valid_proto_cubes d N p : valid_proto d N p -> length (pr_cubes p) = N ^ d.
Proof.
  intros (_ & _ & cs & E & ND & Hg). rewrite E, map_length.
  assert (P : Permutation cs (lprod_rep (zrange N) d)).
  { apply NoDup_Permutation; auto.
    - apply NoDup_lprod_rep. apply NoDup_map_inj; [intros; lia|apply seq_NoDup].
    - intros q. rewrite Hg, In_grid. reflexivity. }
  rewrite (Permutation_length P), length_lprod_rep. f_equal. unfold zrange. rewrite map_length, seq_length. auto.
Qed.

Definition dflt_cube (d : nat) : list Z := repeat 0%Z d.
Definition core_of (c : curve) : core :=
  Core (cv_dim c) (cv_div c) (cv_mult c)
    (fun p k => match nth_error (cv_pats c) p with
                | Some pat => match nth_error (pr_cubes (pat_proto pat)) k with Some (Some q) => q | _ => dflt_cube (cv_dim c) end
                | None => dflt_cube (cv_dim c) end)
    (fun p k => match get_spec c p k with Some (Some s) => s | _ => Sp (id_map (cv_dim c)) 0 end).

Section Bridge.
Context (c : curve) (HV : valid_fuzzy c).
Notation K := (core_of c). Notation d := (cv_dim c). Notation N := (cv_div c). Notation G := (cv_genus c).

Lemma kG_genus : kG K = G. Proof. reflexivity. Qed.
Lemma nth_pat p : p < cv_mult c -> exists pat, nth_error (cv_pats c) p = Some pat /\ valid_fuzzy_pattern d N (cv_mult c) pat.
Proof.
  intros Hp. destruct HV as (_ & _ & _ & _ & HF). destruct (nth_error (cv_pats c) p) as [pat|] eqn:E.
  - exists pat. split; auto. rewrite Forall_forall in HF. apply HF. eapply nth_error_In; eauto.
  - apply nth_error_None in E. unfold cv_mult in Hp. lia.
Qed.
Lemma nth_cube p k pat : nth_error (cv_pats c) p = Some pat -> k < G ->
  nth_error (pr_cubes (pat_proto pat)) k = Some (Some (kcube K p k)) /\ grid_cube d N (kcube K p k).
Proof.
  intros Ep Hk. destruct HV as (_ & _ & _ & _ & HF). rewrite Forall_forall in HF. pose proof (HF pat (nth_error_In _ _ Ep)) as (Hpr & _ & _).
  pose proof (valid_proto_cubes _ _ _ Hpr) as HL. destruct Hpr as (_ & _ & cs & E & ND & Hg). cbn. rewrite Ep.
  rewrite E in *. rewrite map_length in HL. unfold cv_genus in Hk. rewrite nth_error_map. destruct (nth_error cs k) as [q|] eqn:Eq; cbn.
  - split; auto. apply Hg. eapply nth_error_In; eauto.
  - apply nth_error_None in Eq. lia.
Qed.
Lemma nth_spec_wf p k s : get_spec c p k = Some (Some s) -> wf_spec d (cv_mult c) s /\ k < G /\ p < cv_mult c.
Proof.
  unfold get_spec. destruct (nth_error (cv_pats c) p) as [pat|] eqn:E; [|discriminate]. intros Es.
  destruct HV as (_ & _ & _ & _ & HF). rewrite Forall_forall in HF. pose proof (HF pat (nth_error_In _ _ E)) as (_ & HL & HS).
  split; [|split].
  - rewrite Forall_forall in HS. apply (HS (Some s)); auto. eapply nth_error_In; eauto.
  - assert (k < length (pat_specs pat)) by (apply nth_error_Some; congruence). unfold cv_genus. lia.
  - unfold cv_mult. apply nth_error_Some. congruence.
Qed.
Lemma core_of_full : core_full K.
Proof.
  pose proof HV as (H1 & H2 & H3 & _ & HF).
  assert (OK : core_ok K).
  { constructor; auto.
    - intros p k Hp Hk. destruct (nth_pat p Hp) as (pat & E & _). apply (nth_cube p k pat); auto.
    - intros p k Hp Hk. cbn. destruct (get_spec c p k) as [[s|]|] eqn:E.
      + apply (nth_spec_wf p k s); auto.
      + split; cbn; [apply wf_id|lia].
      + split; cbn; [apply wf_id|lia]. }
  constructor; auto.
  - intros p k k' Hp Hk Hk' E. destruct (nth_pat p Hp) as (pat & Ep & (_ & _ & cs & Ec & ND & Hg) & _).
    destruct (nth_cube p k pat Ep Hk) as [E1 _]. destruct (nth_cube p k' pat Ep Hk') as [E2 _].
    rewrite Ec, nth_error_map in E1, E2. destruct (nth_error cs k) eqn:Q1; [|discriminate]. destruct (nth_error cs k') eqn:Q2; [|discriminate].
    cbn [option_map] in E1, E2. inversion E1; inversion E2; subst. rewrite NoDup_nth_error in ND. apply ND; [|congruence].
    apply nth_error_Some. congruence.
  - intros p q Hp Hq. destruct (nth_pat p Hp) as (pat & Ep & Hv & _). pose proof (valid_proto_cubes _ _ _ Hv) as HL. destruct Hv as (_ & _ & cs & Ec & ND & Hg).
    apply Hg in Hq. apply In_nth_error in Hq as [k Hk]. exists k. assert (k < G).
    { unfold cv_genus. rewrite <- HL, Ec, map_length. apply nth_error_Some. congruence. }
    split; auto. destruct (nth_cube p k pat Ep H) as [E1 _]. rewrite Ec, nth_error_map, Hk in E1. cbn [option_map] in E1. congruence.
Qed.
Let HK := full_ok K core_of_full.

Lemma specs_length p pat : nth_error (cv_pats c) p = Some pat -> length (pat_specs pat) = G.
Proof. intros E. destruct HV as (_ & _ & _ & _ & HF). rewrite Forall_forall in HF. apply (HF pat (nth_error_In _ _ E)). Qed.
Lemma cubes_length p pat : nth_error (cv_pats c) p = Some pat -> length (pr_cubes (pat_proto pat)) = G.
Proof. intros E. destruct HV as (_ & _ & _ & _ & HF). rewrite Forall_forall in HF. destruct (HF pat (nth_error_In _ _ E)) as (H & _). apply valid_proto_cubes in H. auto. Qed.
Lemma G_pos : 0 < G.
Proof. pose proof (kG_ge2 K HK). rewrite kG_genus in H. lia. Qed.

Definition defined_at (p k : nat) : Prop := exists s, get_spec c p k = Some (Some s).
Lemma defined_kspec p k : defined_at p k -> get_spec c p k = Some (Some (kspec K p k)).
Proof. intros [s E]. cbn. rewrite E. auto. Qed.

(** the cubes and specs of a transformed pattern *)
Lemma pat_mul_cube X pat k : wf_spec d (cv_mult c) X -> nth_error (cv_pats c) (sp_pnum X) = Some pat -> k < G ->
  nth_error (pr_cubes (pr_mul (sp_bm X) (pat_proto pat))) k = Some (Some (kcb K X k)).
Proof.
  intros [HX1 HX2] Ep Hk. unfold pr_mul; cbn [pr_cubes]. rewrite nth_error_map.
  assert (EN : pr_div (pat_proto pat) = N).
  { destruct HV as (_ & _ & _ & _ & HF). rewrite Forall_forall in HF. apply (HF pat (nth_error_In _ _ Ep)). }
  rewrite EN. unfold kcb, kflip. rewrite kG_genus. destruct (time_rev (sp_bm X)).
  - rewrite nth_error_rev; rewrite (cubes_length _ _ Ep); auto. destruct (nth_cube _ (G - 1 - k) _ Ep ltac:(lia)) as [E _]. rewrite E. reflexivity.
  - destruct (nth_cube _ k _ Ep ltac:(lia)) as [E _]. rewrite E. reflexivity.
Qed.
Lemma pat_mul_spec X pat k : nth_error (cv_pats c) (sp_pnum X) = Some pat -> k < G -> defined_at (sp_pnum X) (kflip K (sp_bm X) k) ->
  nth_error (pat_specs (pat_mul (sp_bm X) pat)) k = Some (Some (sp_conj (kspec K (sp_pnum X) (kflip K (sp_bm X) k)) (cube_map (sp_bm X)))).
Proof.
  intros Ep Hk HD. apply defined_kspec in HD. unfold get_spec in HD. rewrite Ep in HD. unfold pat_mul; cbn [pat_specs]. rewrite nth_error_map.
  assert (E : nth_error (if time_rev (sp_bm X) then rev (pat_specs pat) else pat_specs pat) k = Some (Some (kspec K (sp_pnum X) (kflip K (sp_bm X) k)))).
  { unfold kflip in *. rewrite kG_genus in *. destruct (time_rev (sp_bm X)); auto. rewrite nth_error_rev; rewrite (specs_length _ _ Ep); auto. }
  rewrite E. reflexivity.
Qed.
Lemma conj_cube_mul b s : wf_bm d b -> wf_bm d s -> bm_mul (bm_conj s (cube_map b)) b = bm_mul b s.
Proof.
  intros Hb Hs. unfold bm_conj. rewrite !(mul_assoc d) by auto using wf_cube_map, wf_inv, wf_mul.
  assert (E : bm_mul (bm_inv (cube_map b)) b = if time_rev b then bm_rev (id_map d) else id_map d).
  { destruct (time_rev b) eqn:T.
    - rewrite <- (cube_map_true b T) at 2. rewrite rev_mul_r, (mul_inv_l d) by auto using wf_cube_map. auto.
    - rewrite (cube_map_false b T), (mul_inv_l d); auto. }
  rewrite E. destruct (time_rev b) eqn:T.
  - rewrite !rev_mul_r, (mul_id_r d) by auto. rewrite <- rev_mul_l, cube_map_true; auto.
  - rewrite (mul_id_r d) by auto. rewrite cube_map_false; auto.
Qed.
Lemma fraction_eq X k : wf_spec d (cv_mult c) X -> k < G -> defined_at (sp_pnum X) (kflip K (sp_bm X) k) ->
  fraction (cv_mul_sp X c) k = Some (kcb K X k, cv_mul_sp (kstep K X k) c).
Proof.
  intros HX Hk HD. destruct (nth_pat (sp_pnum X) (proj2 HX)) as (pat & Ep & Hpat). unfold fraction, cv_pattern.
  assert (EP : nth_error (cv_pats (cv_mul_sp X c)) (cv_pnum (cv_mul_sp X c)) = Some (pat_mul (sp_bm X) pat)).
  { unfold cv_mul_sp. rewrite cv_pnum_mul, cv_mul_eq; cbn. rewrite nth_error_map, Ep. auto. }
  rewrite EP. change (pat_proto (pat_mul (sp_bm X) pat)) with (pr_mul (sp_bm X) (pat_proto pat)).
  rewrite (pat_mul_cube X pat k) by auto. rewrite (pat_mul_spec X pat k) by auto. f_equal. f_equal.
  assert (HW : wf_spec d (cv_mult c) (kspec K (sp_pnum X) (kflip K (sp_bm X) k))).
  { apply (ok_spec K HK); [apply HX|apply kflip_lt; auto]. }
  destruct HX as [HX1 HX2]. destruct HW as [HW1 HW2].
  unfold cv_mul_sp at 1 2. rewrite cv_mul_mul.
  - cbn [sp_bm sp_pnum sp_conj]. rewrite conj_cube_mul by auto. reflexivity.
  - cbn [sp_bm sp_conj]. apply wf_conj; auto using wf_cube_map.
  - auto.
  - apply valid_fuzzy_shape; auto.
Qed.
Lemma fraction_ge X k : wf_spec d (cv_mult c) X -> G <= k -> fraction (cv_mul_sp X c) k = None.
Proof.
  intros HX Hk. destruct (nth_pat (sp_pnum X) (proj2 HX)) as (pat & Ep & Hpat). unfold fraction, cv_pattern.
  assert (EP : nth_error (cv_pats (cv_mul_sp X c)) (cv_pnum (cv_mul_sp X c)) = Some (pat_mul (sp_bm X) pat)).
  { unfold cv_mul_sp. rewrite cv_pnum_mul, cv_mul_eq; cbn. rewrite nth_error_map, Ep. auto. }
  rewrite EP. rewrite nth_error_ge; auto. cbn. rewrite map_length. destruct (time_rev (sp_bm X)); rewrite ?rev_length, (cubes_length _ _ Ep); auto.
Qed.
Lemma compose_eq X k : wf_spec d (cv_mult c) X -> k < G -> defined_at (sp_pnum X) (kflip K (sp_bm X) k) ->
  compose_specs c X (Z.of_nat k) = Some (kstep K X k).
Proof.
  intros HX Hk HD. destruct (nth_pat (sp_pnum X) (proj2 HX)) as (pat & Ep & Hpat). unfold compose_specs. rewrite Ep.
  apply defined_kspec in HD. unfold get_spec in HD. rewrite Ep in HD.
  assert (EI : apply_cnum (sp_bm X) (Z.of_nat G) (Z.of_nat k) = Z.of_nat (kflip K (sp_bm X) k)).
  { unfold apply_cnum, kflip. rewrite kG_genus. destruct (time_rev (sp_bm X)); lia. }
  rewrite EI. unfold pyget. rewrite (proj2 (Z.leb_le _ _)) by lia. rewrite Nat2Z.id. rewrite HD. reflexivity.
Qed.
Lemma proto_of_eq X k : wf_spec d (cv_mult c) X -> k < G ->
  exists p, proto_of c X = Some p /\ nth_error (pr_cubes p) k = Some (Some (kcb K X k)).
Proof.
  intros HX Hk. destruct (nth_pat (sp_pnum X) (proj2 HX)) as (pat & Ep & Hpat). unfold proto_of. rewrite Ep.
  eexists; split; auto. apply pat_mul_cube; auto.
Qed.

Lemma fraction_some X k r : wf_spec d (cv_mult c) X -> fraction (cv_mul_sp X c) k = Some r ->
  k < G /\ defined_at (sp_pnum X) (kflip K (sp_bm X) k) /\ r = (kcb K X k, cv_mul_sp (kstep K X k) c).
Proof.
  intros HX E. destruct (le_lt_dec G k) as [Hk|Hk]; [rewrite fraction_ge in E by auto; discriminate|]. split; auto.
  assert (HD : defined_at (sp_pnum X) (kflip K (sp_bm X) k)).
  { destruct (nth_pat (sp_pnum X) (proj2 HX)) as (pat & Ep & Hpat). unfold fraction, cv_pattern in E.
    assert (EP : nth_error (cv_pats (cv_mul_sp X c)) (cv_pnum (cv_mul_sp X c)) = Some (pat_mul (sp_bm X) pat)).
    { unfold cv_mul_sp. rewrite cv_pnum_mul, cv_mul_eq; cbn. rewrite nth_error_map, Ep. auto. }
    rewrite EP in E. destruct (nth_error (pr_cubes _) k) as [[q|]|]; try discriminate.
    unfold pat_mul in E; cbn [pat_specs] in E. rewrite nth_error_map in E. unfold defined_at, get_spec. rewrite Ep.
    assert (EE : nth_error (if time_rev (sp_bm X) then rev (pat_specs pat) else pat_specs pat) k = nth_error (pat_specs pat) (kflip K (sp_bm X) k)).
    { unfold kflip. rewrite kG_genus. destruct (time_rev (sp_bm X)); auto. rewrite nth_error_rev; rewrite (specs_length _ _ Ep); auto. }
    rewrite EE in E. destruct (nth_error (pat_specs pat) _) as [[s|]|]; try discriminate. exists s; auto. }
  split; auto. rewrite fraction_eq in E by auto. congruence.
Qed.
(** the specs met along the way are defined *)
Fixpoint defined_along (X : spec) (cs : list nat) : Prop :=
  match cs with [] => True | k :: cs' => defined_at (sp_pnum X) (kflip K (sp_bm X) k) /\ defined_along (kstep K X k) cs' end.
Lemma walk_def cs : forall X, wfS K X -> wfc K cs -> defined_along X cs ->
  walk (cv_mul_sp X c) cs = Some (kcubes K X cs, cv_mul_sp (kst K X cs) c).
Proof.
  induction cs as [|k cs IH]; intros X HX Hc HD; cbn [walk kcubes kst]; auto. inversion Hc; subst. destruct HD as [HD1 HD2].
  rewrite fraction_eq by auto. rewrite IH; auto. apply kstep_wf; auto.
Qed.
Lemma walk_inv cs : forall X r, wfS K X -> walk (cv_mul_sp X c) cs = Some r ->
  wfc K cs /\ defined_along X cs /\ r = (kcubes K X cs, cv_mul_sp (kst K X cs) c).
Proof.
  induction cs as [|k cs IH]; intros X r HX; cbn [walk]; [intros E; inversion E; repeat constructor|]. intros E.
  destruct (fraction (cv_mul_sp X c) k) as [[q c']|] eqn:EF; [|discriminate]. apply fraction_some in EF as (Hk & HD & E2); auto.
  inversion E2; subst q c'. destruct (walk (cv_mul_sp (kstep K X k) c) cs) as [[q' c'']|] eqn:EW; [|discriminate].
  inversion E; subst r. destruct (IH _ _ (kstep_wf K HK X k HX Hk) EW) as (H1 & H2 & H3). inversion H3; subst. cbn [kcubes kst defined_along].
  split; [constructor; auto|]. split; auto.
Qed.
Lemma graph_fuzzy X t x : wfS K X ->
  (graph (cv_mul_sp X c) t x <-> length x = kd K /\ exists delta, (forall n, delta n < kG K) /\ (forall n, defined_along X (prefix delta n)) /\ forall n, kin K X (prefix delta n) t x).
Proof.
  intros HX. unfold graph, cv_genus.
  assert (Ed : cv_dim (cv_mul_sp X c) = d) by apply cv_dim_mul. assert (EN : cv_div (cv_mul_sp X c) = N) by apply cv_div_mul. rewrite Ed, EN. split.
  - intros (dl & H). destruct (H 0) as (q0 & c0 & _ & _ & HL & _). split; auto. exists dl.
    assert (Hd : forall n, wfc K (prefix dl n) /\ defined_along X (prefix dl n) /\ kin K X (prefix dl n) t x).
    { intros n. destruct (H n) as (q & c' & E & Ht & Hx). destruct (walk_inv _ _ _ HX E) as (H1 & H2 & H3). inversion H3; subst. split; auto. split; auto. split; auto. }
    split; [|split; intros n; apply Hd].
    intros n. destruct (Hd (S n)) as [H1 _]. rewrite prefix_S in H1. apply Forall_app in H1 as [_ H1]. inversion H1; auto.
  - intros (HL & dl & Hd & HD & H). exists dl. intros n. exists (kcubes K X (prefix dl n)), (cv_mul_sp (kst K X (prefix dl n)) c). split; [|exact (H n)].
    apply walk_def; auto. apply prefix_wfc; auto.
Qed.
Lemma graph_sub X t x : wfS K X -> graph (cv_mul_sp X c) t x -> kgraph K X t x.
Proof. intros HX H. apply graph_fuzzy in H as (HL & dl & H1 & H2 & H3); auto. split; auto. exists dl; auto. Qed.
Lemma fwfS_id p : p < cv_mult c -> wfS K (Sp (id_map d) p).
Proof. intros. split; auto. apply wf_id. Qed.
Lemma fpattern_curve_eq p : pattern_curve c p = cv_mul_sp (Sp (id_map d) p) c.
Proof. unfold cv_mul_sp; cbn [sp_bm sp_pnum]. rewrite cv_mul_id; auto. apply valid_fuzzy_shape; auto. Qed.
End Bridge.

Section Regular.
Context (c : curve) (HC : valid_curve c).
Let HV : valid_fuzzy c := valid_curve_fuzzy c HC.
Notation K := (core_of c). Notation d := (cv_dim c). Notation N := (cv_div c). Notation G := (cv_genus c).
Let HK : core_ok K := full_ok K (core_of_full c HV).

Lemma all_defined p k : p < cv_mult c -> k < G -> defined_at c p k.
Proof.
  intros Hp Hk. pose proof HC as (_ & _ & _ & _ & HF). unfold defined_at, get_spec.
  destruct (nth_error (cv_pats c) p) as [pat|] eqn:E.
  - rewrite Forall_forall in HF. destruct (HF pat (nth_error_In _ _ E)) as (_ & HL & HS).
    destruct (nth_error (pat_specs pat) k) as [os|] eqn:Es.
    + rewrite Forall_forall in HS. destruct (HS os (nth_error_In _ _ Es)) as (s & -> & _). exists s; auto.
    + apply nth_error_None in Es. unfold cv_genus in Hk. lia.
  - apply nth_error_None in E. unfold cv_mult in Hp. lia.
Qed.
Lemma fraction_reg X k : wf_spec d (cv_mult c) X -> k < G ->
  fraction (cv_mul_sp X c) k = Some (kcb K X k, cv_mul_sp (kstep K X k) c).
Proof. intros HX Hk. apply fraction_eq; auto. apply all_defined; [apply HX|]. apply (kflip_lt K); auto. Qed.
Lemma compose_reg X k : wf_spec d (cv_mult c) X -> k < G -> compose_specs c X (Z.of_nat k) = Some (kstep K X k).
Proof. intros HX Hk. apply compose_eq; auto. apply all_defined; [apply HX|]. apply (kflip_lt K); auto. Qed.

Lemma walk_eq cs : forall X, wfS K X -> wfc K cs -> walk (cv_mul_sp X c) cs = Some (kcubes K X cs, cv_mul_sp (kst K X cs) c).
Proof.
  induction cs as [|k cs IH]; intros X HX Hc; cbn [walk kcubes kst]; auto. inversion Hc; subst.
  rewrite fraction_reg by auto. rewrite IH; auto. apply kstep_wf; auto.
Qed.
Lemma walk_some cs : forall X r, wfS K X -> walk (cv_mul_sp X c) cs = Some r -> wfc K cs.
Proof.
  induction cs as [|k cs IH]; intros X r HX; cbn [walk]; [constructor|]. intros E.
  destruct (le_lt_dec G k) as [Hk|Hk]; [rewrite fraction_ge in E by auto; discriminate|].
  rewrite fraction_reg in E by auto. constructor; auto. destruct (walk (cv_mul_sp (kstep K X k) c) cs) as [r'|] eqn:E'; [|discriminate].
  eapply IH; [|eauto]. apply kstep_wf; auto.
Qed.
Lemma deep_spec_from cs : forall X, wfS K X -> wfc K cs ->
  fold_left (fun s cnum => obind s (fun s => compose_specs c s cnum)) (map Z.of_nat cs) (Some X) = Some (kst K X cs).
Proof.
  induction cs as [|k cs IH]; intros X HX Hc; cbn [map fold_left kst]; auto. inversion Hc; subst.
  unfold obind at 2. rewrite compose_reg by auto. apply IH; auto. apply kstep_wf; auto.
Qed.
Lemma wfS_id p : p < cv_mult c -> wfS K (Sp (id_map d) p).
Proof. intros. split; auto. apply wf_id. Qed.
Lemma pattern_curve_eq p : pattern_curve c p = cv_mul_sp (Sp (id_map d) p) c.
Proof. unfold cv_mul_sp; cbn [sp_bm sp_pnum]. rewrite cv_mul_id; auto. apply valid_fuzzy_shape; auto. Qed.

(** C16 *)
Lemma deep_spec_walk p cnums : p < cv_mult c -> Forall (fun k => k < G) cnums ->
  exists X cubes, get_deep_spec c p (map Z.of_nat cnums) = Some X /\ wf_spec d (cv_mult c) X /\
    walk (pattern_curve c p) cnums = Some (cubes, cv_mul_sp X c).
Proof.
  intros Hp Hc. exists (kst K (Sp (id_map d) p) cnums), (kcubes K (Sp (id_map d) p) cnums). split; [|split].
  - unfold get_deep_spec. apply deep_spec_from; auto using wfS_id.
  - apply kst_wf; auto using wfS_id.
  - rewrite pattern_curve_eq. apply walk_eq; auto using wfS_id.
Qed.
Lemma deep_spec_step X k : wf_spec d (cv_mult c) X -> k < G ->
  exists Y cube, compose_specs c X (Z.of_nat k) = Some Y /\ fraction (cv_mul_sp X c) k = Some (cube, cv_mul_sp Y c).
Proof. intros HX Hk. do 2 eexists. split; [apply compose_reg; auto|apply fraction_reg; auto]. Qed.

(** the graph *)
Lemma graph_kgraph X t x : wfS K X -> (graph (cv_mul_sp X c) t x <-> kgraph K X t x).
Proof.
  intros HX. unfold graph, kgraph. unfold cv_genus.
  assert (Ed : cv_dim (cv_mul_sp X c) = d) by apply cv_dim_mul. assert (EN : cv_div (cv_mul_sp X c) = N) by apply cv_div_mul. rewrite Ed, EN. split.
  - intros (dl & H). destruct (H 0) as (q0 & c0 & _ & _ & HL & _). split; auto. exists dl.
    assert (Hd : forall n, wfc K (prefix dl n)) by (intros n; destruct (H n) as (q & c' & E & _); eapply walk_some; eauto).
    split.
    + intros n. specialize (Hd (S n)). rewrite prefix_S in Hd. apply Forall_app in Hd as [_ Hd]. inversion Hd; auto.
    + intros n. destruct (H n) as (q & c' & E & Ht & Hx). rewrite walk_eq in E by auto. inversion E; subst. split; auto.
  - intros (HL & dl & Hd & H). exists dl. intros n. exists (kcubes K X (prefix dl n)), (cv_mul_sp (kst K X (prefix dl n)) c). split; [|exact (H n)].
    apply walk_eq; auto. apply prefix_wfc; auto.
Qed.
Lemma graph_pattern p t x : p < cv_mult c -> (graph (pattern_curve c p) t x <-> kgraph K (Sp (id_map d) p) t x).
Proof. intros Hp. rewrite pattern_curve_eq. apply graph_kgraph, wfS_id; auto. Qed.
End Regular.
