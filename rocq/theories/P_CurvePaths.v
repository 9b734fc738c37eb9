(** The paths of the image of a curve under a base map; curves related by a gauge are images. *)
From Verif Require Import Py L_Py L_Qc M_BaseMaps S_BaseMaps L_BaseMaps P_Actions P_GenMaps M_Subsets S_Subsets P_Subsets P_Points
  M_Paths M_Utils M_Curves S_Utils S_Curves S_Paths S_Ratio S_Dilation P_CurveAct P_Core P_Bridge P_Paths P_Entrance P_Check P_Gauge.
From Coq Require Import Lia.
Local Open Scope nat_scope.

Lemma nth_error_ext {A} (l1 l2 : list A) : (forall k, nth_error l1 k = nth_error l2 k) -> l1 = l2.
Proof. revert l2. induction l1 as [|a l1 IH]; intros [|b l2] H; auto; [specialize (H 0); discriminate..|]. pose proof (H 0) as H0. cbn in H0. injection H0 as ->. f_equal. apply IH. intros k. exact (H (S k)). Qed.
Lemma nth_error_seq n k : k < n -> nth_error (seq 0 n) k = Some k.
Proof. intros H. rewrite (nth_error_nth' _ 0) by (rewrite seq_length; auto). rewrite seq_nth by auto. auto. Qed.
Lemma same_curve_core x y : valid_curve x -> valid_curve y -> cv_dim y = cv_dim x -> cv_div y = cv_div x -> cv_mult y = cv_mult x ->
  (forall p k, p < cv_mult x -> k < cv_genus x -> kcube (core_of y) p k = kcube (core_of x) p k /\ kspec (core_of y) p k = kspec (core_of x) p k) -> same_curve y x.
Proof.
  intros VX VY Ed EN Em H. assert (EG : cv_genus y = cv_genus x) by (unfold cv_genus; congruence). split; auto. split; auto. apply nth_error_ext. intros p.
  destruct (nth_error (cv_pats y) p) as [pat|] eqn:E1; destruct (nth_error (cv_pats x) p) as [pat'|] eqn:E2; auto.
  - assert (Hp : p < cv_mult x) by (apply nth_error_Some; congruence). pose proof (pat_proto_eq y VY p pat E1) as A. pose proof (pat_proto_eq x VX p pat' E2) as B. pose proof (pat_specs_eq y VY p pat E1) as C. pose proof (pat_specs_eq x VX p pat' E2) as D.
    rewrite EG in A, C. f_equal. destruct pat as [a s], pat' as [a' s']. cbn [pat_proto pat_specs] in A, B, C, D. rewrite A, B, C, D, Ed, EN.
    assert (H' : forall k, In k (seq 0 (cv_genus x)) -> kcube (core_of y) p k = kcube (core_of x) p k /\ kspec (core_of y) p k = kspec (core_of x) p k) by (intros k Hk; apply in_seq in Hk; apply H; auto; lia).
    f_equal; [f_equal|]; apply map_ext_in; intros k Hk; destruct (H' k Hk) as [H1 H2]; [rewrite H1|rewrite H2]; reflexivity.
  - exfalso. assert (p < cv_mult y) by (apply nth_error_Some; congruence). assert (~ p < cv_mult x) by (intros X; apply nth_error_Some in X; congruence). lia.
  - exfalso. assert (p < cv_mult x) by (apply nth_error_Some; congruence). assert (~ p < cv_mult y) by (intros X; apply nth_error_Some in X; congruence). lia.
Qed.
Section Image.
Context (c : curve) (HV : valid_curve c) (b : base_map) (Hb : wf_bm (cv_dim c) b) (q : nat) (Hq : q < cv_mult c).
Notation c' := (cv_mul b q c).
Let V' : valid_curve c' := valid_curve_mul b q c Hb Hq HV.
Lemma image_genus : cv_genus c' = cv_genus c. Proof. unfold cv_genus. rewrite cv_dim_mul, cv_div_mul. auto. Qed.
Lemma image_cube p k : p < cv_mult c -> k < cv_genus c -> kcube (core_of c') p k = kcb (core_of c) (Sp b p) k.
Proof.
  intros Hp Hk. pose proof (valid_curve_fuzzy c HV) as VF. destruct (nth_pat c VF p Hp) as (pat & E & _). pose proof (pat_mul_cube c VF (Sp b p) pat k (conj Hb Hp) E Hk) as H. cbn [sp_bm] in H.
  cbn [core_of kcube]. rewrite cv_mul_eq at 1. cbn [cv_pats]. rewrite nth_error_map, E. cbn [option_map pat_mul pat_proto]. rewrite H. reflexivity.
Qed.
Lemma image_spec p k : p < cv_mult c -> k < cv_genus c -> kspec (core_of c') p k = sp_conj (kspec (core_of c) p (kflip (core_of c) b k)) (cube_map b).
Proof.
  intros Hp Hk. pose proof (valid_curve_fuzzy c HV) as VF. assert (Hf : kflip (core_of c) b k < cv_genus c) by (apply (kflip_lt (core_of c)); auto).
  pose proof (defined_kspec c p _ (all_defined c HV p (kflip (core_of c) b k) Hp Hf)) as H. pose proof (get_spec_mul b q c p k (valid_fuzzy_shape c VF) Hb VF Hk) as E. rewrite H in E. cbn [option_map] in E.
  cbn [core_of kspec] in *. rewrite E. reflexivity.
Qed.
Lemma image_klink p : p < cv_mult c -> klink c' p = pl_mul b (klink c p).
Proof.
  intros Hp. symmetry. pose proof (valid_curve_fuzzy c HV) as VF. apply (is_link_klink c'); [rewrite cv_mult_mul; auto|]. apply link_equivariant; auto; [exact (curve_ends_def c HV)|apply klink_is; auto].
Qed.
Lemma image_flink p k : p < cv_mult c -> k < cv_genus c -> flink c' p k = pl_mul b (flink c p (kflip (core_of c) b k)).
Proof.
  intros Hp Hk. assert (Hf : kflip (core_of c) b k < cv_genus c) by (apply (kflip_lt (core_of c)); auto). unfold flink. rewrite image_spec by auto.
  set (s := kspec (core_of c) p (kflip (core_of c) b k)). destruct (kspec_wf c HV p (kflip (core_of c) b k) Hp Hf) as [W1 W2]. fold s in W1, W2. cbn [sp_conj sp_bm sp_pnum].
  rewrite image_klink by auto. assert (HD : pl_dim (cv_dim c) (klink c (sp_pnum s))) by (apply klink_dim; auto).
  destruct HD as [D1 D2]. rewrite <- !(pl_mul_mul (cv_dim c)); auto; [|apply wf_conj; auto using wf_cube_map; exact W1]. change (sp_bm (sp_conj s (cube_map b))) with (bm_conj (sp_bm s) (cube_map b)). rewrite (conj_cube_mul c b); auto.
Qed.
Theorem image_path p : p < cv_mult c -> pa_mul point_ops b (cpath c p) = Some (cpath c' p).
Proof.
  intros Hp. pose proof image_genus as EG. assert (Hp' : p < cv_mult c') by (rewrite cv_mult_mul; auto). pose proof (mk_cpath c' V' p Hp') as H. rewrite <- H. unfold pa_mul. cbn [cpath pa_proto pa_links].
  f_equal.
  - pose proof (valid_curve_fuzzy c HV) as VF. destruct (nth_pat c VF p Hp) as (pat & E & _). rewrite <- (pat_proto_eq c HV p pat E). assert (E' : nth_error (cv_pats c') p = Some (pat_mul b pat)) by (rewrite cv_mul_eq; cbn [cv_pats]; rewrite nth_error_map, E; reflexivity).
    exact (pat_proto_eq c' V' p _ E').
  - rewrite EG. apply nth_error_ext. intros k. rewrite !nth_error_map. destruct (Nat.lt_ge_cases k (cv_genus c)) as [Hk|Hk].
    + rewrite nth_error_seq by auto. cbn [option_map]. rewrite image_flink by auto. unfold kflip. rewrite kG_genus. destruct (time_rev b).
      * rewrite nth_error_rev by (rewrite map_length, seq_length; auto). rewrite map_length, seq_length, nth_error_map, nth_error_seq by lia. reflexivity.
      * rewrite nth_error_map, nth_error_seq by lia. reflexivity.
    + rewrite (proj2 (nth_error_None _ _)) by (destruct (time_rev b); rewrite ?rev_length, map_length, seq_length; auto). rewrite (proj2 (nth_error_None _ _)) by (rewrite seq_length; auto). reflexivity.
Qed.
Theorem image_paths ps : get_paths c = Some ps -> get_paths c' = omap (pa_mul point_ops b) ps.
Proof.
  rewrite (get_paths_eq c HV), (get_paths_eq c' V'). intros H. injection H as <-. symmetry. rewrite cv_mult_mul.
  assert (HA : forall l, (forall p, In p l -> p < cv_mult c) -> omap (pa_mul point_ops b) (map (cpath c) l) = Some (map (cpath c') l)).
  { induction l as [|p l IH]; intros Hl; [reflexivity|]. cbn [map omap]. rewrite image_path by (apply Hl; cbn; auto). rewrite IH by (intros; apply Hl; cbn; auto). reflexivity. }
  apply HA. intros p Hp. apply in_seq in Hp. lia.
Qed.
End Image.

(** with one pattern, a gauge is a base map *)
Lemma gauge_mul x y sg bs : valid_curve x -> valid_curve y -> cv_mult x = 1 -> cv_mult y = 1 -> gauge x y sg bs -> wf_bm (cv_dim x) (bs 0) /\ same_curve y (cv_mul_bm (bs 0) x).
Proof.
  intros VX VY MX MY [E1 E2 H1 H2 H3 H4]. rewrite MY in *. set (b := bs 0). assert (Hb : wf_bm (cv_dim x) b) by (apply H2; lia). split; auto. assert (Z0 : sg 0 = 0) by (specialize (H1 0 ltac:(lia)); lia).
  assert (HP : cv_pnum x < cv_mult x) by (destruct (valid_curve_fuzzy x VX) as (_ & _ & A); tauto). unfold cv_mul_bm. pose proof (valid_curve_mul b (cv_pnum x) x Hb HP VX) as V'.
  apply same_curve_core; auto; rewrite ?cv_dim_mul, ?cv_div_mul, ?cv_mult_mul; auto; try congruence. intros p k Hp Hk. assert (p = 0) by lia. subst p. rewrite (image_genus x b) in Hk.
  rewrite image_cube, image_spec by (auto; lia). specialize (H3 0 k ltac:(lia) Hk). specialize (H4 0 k ltac:(lia) Hk). rewrite Z0 in *. split; [exact H3|].
  set (s := kspec (core_of x) 0 (kflip (core_of x) b k)) in *. assert (Hf : kflip (core_of x) b k < cv_genus x) by (apply (kflip_lt (core_of x)); auto). destruct (kspec_wf x VX 0 (kflip (core_of x) b k) ltac:(lia) Hf) as [W1 W2]. fold s in W1, W2.
  assert (Hky : k < cv_genus y) by (unfold cv_genus in *; congruence). destruct (kspec_wf y VY 0 k ltac:(lia) Hky) as [Y1 Y2]. rewrite E1 in Y1. set (t := kspec (core_of y) 0 k) in *.
  assert (P1 : sp_pnum t = 0) by lia. assert (P2 : sp_pnum s = 0) by lia. unfold up, kstep in H4. rewrite P1 in H4. cbn [sp_bm sp_pnum] in H4. fold b in H4. fold s in H4. apply (f_equal sp_bm) in H4. cbn [sp_bm bm_mul_sp] in H4.
  destruct t as [tb tp]. destruct s as [sb sp]. cbn [sp_bm sp_pnum] in *. subst tp sp. unfold sp_conj. cbn [sp_bm sp_pnum]. f_equal.
  rewrite <- (mul_id_r (cv_dim x) tb) by auto. rewrite <- (mul_inv_r (cv_dim x) b) by auto. rewrite <- (mul_assoc (cv_dim x)) by auto using wf_inv. rewrite H4. rewrite <- (conj_cube_mul x b sb) by auto. rewrite (mul_assoc (cv_dim x)) by auto using wf_inv, wf_conj, wf_cube_map.
  rewrite (mul_inv_r (cv_dim x)) by auto. apply (mul_id_r (cv_dim x)). auto using wf_conj, wf_cube_map.
Qed.
