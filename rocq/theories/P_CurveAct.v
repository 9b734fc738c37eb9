(** Base maps and specs act on prototypes, paths and curves (C08, C14, C15). *)
From Verif Require Import Py L_Py L_Qc M_BaseMaps S_BaseMaps L_BaseMaps P_Actions M_Subsets S_Subsets P_Subsets
  M_Paths M_Curves S_Curves.
Local Open Scope nat_scope.

(** prototypes *)
Definition cubes_len (d : nat) (p : proto) : Prop := Forall (fun oc => forall q, oc = Some q -> length q = d) (pr_cubes p).

Lemma apply_cube_mul d a b N q : wf_bm d a -> wf_bm d b -> length q = d ->
  apply_cube (bm_mul a b) N q = apply_cube a N (apply_cube b N q).
Proof. intros. unfold apply_cube. apply (act_mul _ _ d); auto. apply invol_cube. Qed.
Lemma apply_cube_id d N q : length q = d -> apply_cube (id_map d) N q = q.
Proof. intros. apply act_id; auto. Qed.
Lemma length_apply_cube d b N q : wf_bm d b -> length (apply_cube b N q) = d.
Proof. intros. unfold apply_cube. rewrite length_act. apply wf_length; auto. Qed.

Lemma cubes_len_mul d b p : wf_bm d b -> cubes_len d (pr_mul b p).
Proof.
  intros Hb. unfold cubes_len, pr_mul; cbn. rewrite Forall_map. apply Forall_forall. intros [q|] _ q' E; cbn in E; [|discriminate].
  inversion E. apply length_apply_cube; auto.
Qed.
Lemma pr_mul_mul d a b p : wf_bm d a -> wf_bm d b -> cubes_len d p -> pr_mul (bm_mul a b) p = pr_mul a (pr_mul b p).
Proof.
  intros Ha Hb Hp. unfold pr_mul; cbn [pr_dim pr_div pr_cubes]. f_equal. rewrite mul_time_rev.
  assert (E : forall l, Forall (fun oc => forall q, oc = Some q -> length q = d) l ->
    map (option_map (apply_cube (bm_mul a b) (Z.of_nat (pr_div p)))) l =
    map (option_map (apply_cube a (Z.of_nat (pr_div p)))) (map (option_map (apply_cube b (Z.of_nat (pr_div p)))) l)).
  { intros l Hl. rewrite map_map. apply map_ext_in. intros [q|] Hin; cbn [option_map]; auto. rewrite (apply_cube_mul d); auto.
    rewrite Forall_forall in Hl. eapply Hl; eauto. }
  destruct (time_rev a), (time_rev b); cbn; rewrite <- ?map_rev, ?rev_involutive; apply E; auto; apply Forall_rev; auto.
Qed.
Lemma pr_mul_id d p : cubes_len d p -> pr_mul (id_map d) p = p.
Proof.
  intros Hp. destruct p as [dm dv cs]. unfold pr_mul; cbn. f_equal. rewrite <- (map_id cs) at 2. apply map_ext_in.
  intros [q|] Hin; cbn; auto. f_equal. apply apply_cube_id. unfold cubes_len in Hp; rewrite Forall_forall in Hp. eapply Hp; eauto.
Qed.
Lemma pr_inv_inv p : pr_inv (pr_inv p) = p.
Proof. destruct p; unfold pr_inv; cbn. rewrite rev_involutive. auto. Qed.
Lemma pr_inv_mul d p : cubes_len d p -> pr_inv p = pr_mul (bm_rev (id_map d)) p.
Proof.
  intros Hp. unfold pr_inv, pr_mul; cbn. f_equal. rewrite <- (map_id (rev (pr_cubes p))) at 1. apply map_ext_in.
  intros [q|] Hin; cbn; auto. f_equal. symmetry. apply (apply_cube_id d). unfold cubes_len in Hp; rewrite Forall_forall in Hp.
  eapply Hp; eauto. apply in_rev; auto.
Qed.
Lemma valid_proto_len d N p : valid_proto d N p -> cubes_len d p.
Proof.
  intros (H1 & H2 & cs & E & HN & Hg). unfold cubes_len. rewrite E. rewrite Forall_map. apply Forall_forall.
  intros q Hq q' Eq. inversion Eq; subst. apply Hg in Hq. apply Hq.
Qed.
Lemma grid_apply d b N q : wf_bm d b -> grid_cube d N q -> grid_cube d N (apply_cube b (Z.of_nat N) q).
Proof. intros Hb [H1 H2]. split; [apply length_apply_cube; auto|apply apply_cube_range with d; auto]. Qed.
Lemma apply_cube_inv_r d b N q : wf_bm d b -> length q = d -> apply_cube b N (apply_cube (bm_inv b) N q) = q.
Proof. intros. apply (act_inv_r _ _ d); auto. apply invol_cube. Qed.
Lemma apply_cube_inj d b N q q' : wf_bm d b -> length q = d -> length q' = d -> apply_cube b N q = apply_cube b N q' -> q = q'.
Proof. intros Hb H1 H2. apply (act_inj _ _ d); auto. apply invol_cube. Qed.
Lemma valid_proto_mul d N b p : wf_bm d b -> valid_proto d N p -> valid_proto d N (pr_mul b p).
Proof.
  intros Hb (H1 & H2 & cs & E & HN & Hg). split; [auto|split; [auto|]].
  exists (map (apply_cube b (Z.of_nat N)) (if time_rev b then rev cs else cs)). cbn [pr_cubes pr_mul]. rewrite H2. split; [|split].
  - rewrite E. destruct (time_rev b); [rewrite <- map_rev|]; rewrite !map_map; auto.
  - apply NoDup_map_inj.
    + assert (forall x, In x (if time_rev b then rev cs else cs) -> length x = d).
      { intros x Hx. assert (In x cs) by (destruct (time_rev b); auto; apply in_rev; auto). apply Hg in H. apply H. }
      intros x y Hx Hy. apply (apply_cube_inj d); auto.
    + destruct (time_rev b); auto. apply NoDup_rev; auto.
  - intros q. rewrite in_map_iff. split.
    + intros (q' & <- & Hq'). apply grid_apply; auto. apply Hg. destruct (time_rev b); auto. apply in_rev; auto.
    + intros Hq. exists (apply_cube (bm_inv b) (Z.of_nat N) q). split; [apply (apply_cube_inv_r d); auto; apply Hq|].
      assert (In (apply_cube (bm_inv b) (Z.of_nat N) q) cs) by (apply Hg, grid_apply; auto using wf_inv).
      destruct (time_rev b); auto. apply -> in_rev; auto.
Qed.

(** curves *)
Definition pat_mul (b : base_map) (p : pattern) : pattern :=
  Pat (pr_mul b (pat_proto p)) (map (option_map (fun s => sp_conj s (cube_map b))) (if time_rev b then rev (pat_specs p) else pat_specs p)).
Definition pf_mul (b : base_map) (f : pfdata) : pfdata :=
  PFD (links_symm f)
      (map (fun ld => (fst ld, map (fun pm => (fst pm, bm_mul (snd pm) (bm_inv b))) (snd ld))) (links_std f))
      (if time_rev b then map (@rev plink) (pat_links f) else pat_links f)
      (map (fun rs => map (fun r => bm_mul b r) (if time_rev b then rev rs else rs)) (pat_reprs f)).
Definition kind_mul (b : base_map) (k : kind) : kind := match k with KPath f => KPath (pf_mul b f) | _ => k end.

Lemma pr_mul_cube_inv b p : pr_mul (cube_map b) (pr_inv p) = pr_mul (bm_rev (cube_map b)) p.
Proof. reflexivity. Qed.
Lemma cube_map_false b : time_rev b = false -> cube_map b = b.
Proof. destruct b as [cs t]; cbn. intros ->. auto. Qed.
Lemma cube_map_true b : time_rev b = true -> bm_rev (cube_map b) = b.
Proof. destruct b as [cs t]; cbn. intros ->. auto. Qed.
Lemma cube_map_cube_map b : cube_map (cube_map b) = cube_map b. Proof. reflexivity. Qed.
Lemma pf_mul_eq b f : (if time_rev b then pf_apply_cube_map (cube_map b) (pf_inv f) else pf_apply_cube_map (cube_map b) f) = pf_mul b f.
Proof.
  unfold pf_mul. destruct (time_rev b) eqn:E.
  - unfold pf_apply_cube_map, pf_inv; cbn [links_symm links_std pat_links pat_reprs]. f_equal.
    + rewrite map_map. apply map_ext. intros ld. cbn [fst snd]. f_equal. rewrite map_map. apply map_ext. intros pm. cbn [fst snd].
      f_equal. rewrite rev_mul_l, <- rev_mul_r. f_equal. rewrite <- inv_rev. f_equal. apply cube_map_true; auto.
    + rewrite map_map. apply map_ext. intros rs. rewrite map_map. apply map_ext. intros r.
      rewrite rev_mul_r, <- rev_mul_l. f_equal. apply cube_map_true; auto.
  - unfold pf_apply_cube_map. rewrite cube_map_false by auto. f_equal.
Qed.
Lemma cv_mul_eq b p c : cv_mul b p c = Cv (cv_dim c) (cv_div c) (map (pat_mul b) (cv_pats c)) p (kind_mul b (cv_kind c)).
Proof.
  assert (EK : kind_mul b (cv_kind c) = kind_apply_cube_map (cube_map b) (if time_rev b then kind_inv (cv_kind c) else cv_kind c)).
  { pose proof (pf_mul_eq b) as H. destruct (cv_kind c); cbn; destruct (time_rev b); cbn; auto; rewrite <- H; auto. }
  assert (EP : map (pat_mul b) (cv_pats c) = map (pat_apply_cube_map (cube_map b)) (if time_rev b then map pat_inv (cv_pats c) else cv_pats c)).
  { destruct (time_rev b) eqn:E; [rewrite map_map|]; apply map_ext; intros pt; unfold pat_mul, pat_apply_cube_map, pat_inv; cbn; rewrite E; f_equal.
    - unfold pr_mul; cbn. rewrite E. auto.
    - unfold pr_mul; cbn. rewrite E. auto. }
  unfold cv_mul. rewrite EK, EP. destruct c as [d N ps n k].
  destruct (time_rev b); cbn; destruct (Nat.eqb_spec n p); cbn; subst; auto.
Qed.

Definition specs_wf (d : nat) (p : pattern) : Prop := Forall (fun os => forall s, os = Some s -> wf_bm d (sp_bm s)) (pat_specs p).
Lemma sp_conj_conj d s g h : wf_bm d (sp_bm s) -> wf_bm d g -> wf_bm d h -> sp_conj (sp_conj s g) h = sp_conj s (bm_mul h g).
Proof. intros. unfold sp_conj; cbn. rewrite (conj_conj d); auto. Qed.
Lemma pat_mul_mul d a b p : wf_bm d a -> wf_bm d b -> cubes_len d (pat_proto p) -> specs_wf d p ->
  pat_mul (bm_mul a b) p = pat_mul a (pat_mul b p).
Proof.
  intros Ha Hb Hp Hs. unfold pat_mul; cbn [pat_proto pat_specs]. rewrite (pr_mul_mul d) by auto. f_equal. rewrite mul_time_rev, cube_map_mul.
  assert (E : forall l, Forall (fun os => forall s, os = Some s -> wf_bm d (sp_bm s)) l ->
    map (option_map (fun s => sp_conj s (bm_mul (cube_map a) (cube_map b)))) l =
    map (option_map (fun s => sp_conj s (cube_map a))) (map (option_map (fun s => sp_conj s (cube_map b))) l)).
  { intros l Hl. rewrite map_map. apply map_ext_in. intros [s|] Hin; cbn [option_map]; auto. rewrite (sp_conj_conj d); auto using wf_cube_map.
    rewrite Forall_forall in Hl. eapply Hl; eauto. }
  destruct (time_rev a), (time_rev b); cbn; rewrite <- ?map_rev, ?rev_involutive; apply E; auto; apply Forall_rev; auto.
Qed.
Lemma sp_conj_id d s : wf_bm d (sp_bm s) -> sp_conj s (id_map d) = s.
Proof. intros. destruct s as [b p]. unfold sp_conj; cbn [sp_bm sp_pnum] in *. rewrite (conj_by_id d); auto. Qed.
Lemma pat_mul_id d p : cubes_len d (pat_proto p) -> specs_wf d p -> pat_mul (id_map d) p = p.
Proof.
  intros Hp Hs. destruct p as [pr ss]. unfold pat_mul; cbn [pat_proto pat_specs] in *. rewrite pr_mul_id by auto. f_equal. cbn [time_rev id_map].
  rewrite <- (map_id ss) at 2. apply map_ext_in. intros [s|] Hin; cbn [option_map]; auto.
  change (cube_map (id_map d)) with (id_map d). f_equal. apply sp_conj_id.
  unfold specs_wf in Hs; cbn in Hs; rewrite Forall_forall in Hs. eapply Hs; eauto.
Qed.
Lemma pf_mul_mul d a b f : wf_bm d a -> wf_bm d b -> valid_kind d (KPath f) -> pf_mul (bm_mul a b) f = pf_mul a (pf_mul b f).
Proof.
  intros Ha Hb [H1 H2]. unfold pf_mul; cbn [links_symm links_std pat_links pat_reprs]. f_equal.
  - rewrite map_map. apply map_ext_in. intros ld Hin. cbn [fst snd]. f_equal. rewrite map_map. apply map_ext_in. intros pm Hpm. cbn [fst snd]. f_equal.
    rewrite Forall_forall in H1. apply H1 in Hin. rewrite Forall_forall in Hin. apply Hin in Hpm.
    rewrite (inv_mul d), (mul_assoc d); auto using wf_inv.
  - rewrite mul_time_rev. destruct (time_rev a), (time_rev b); cbn; auto.
    rewrite map_map. rewrite <- (map_id (pat_links f)) at 1. apply map_ext. intros l. rewrite rev_involutive; auto.
  - rewrite map_map. apply map_ext_in. intros rs Hin. rewrite Forall_forall in H2. apply H2 in Hin.
    assert (E : forall l, Forall (wf_bm d) l -> map (fun r => bm_mul (bm_mul a b) r) l = map (fun r => bm_mul a r) (map (fun r => bm_mul b r) l)).
    { intros l Hl. rewrite map_map. apply map_ext_in. intros r Hr. rewrite Forall_forall in Hl. rewrite (mul_assoc d); auto. }
    rewrite mul_time_rev. destruct (time_rev a), (time_rev b); cbn; rewrite <- ?map_rev, ?rev_involutive; apply E; auto; apply Forall_rev; auto.
Qed.
Lemma kind_mul_mul d a b k : wf_bm d a -> wf_bm d b -> valid_kind d k -> kind_mul (bm_mul a b) k = kind_mul a (kind_mul b k).
Proof. intros Ha Hb Hk. destruct k; auto. unfold kind_mul. rewrite (pf_mul_mul d); auto. Qed.
Lemma kind_mul_id d k : valid_kind d k -> kind_mul (id_map d) k = k.
Proof.
  destruct k as [| |f]; auto. intros [H1 H2]. unfold kind_mul, pf_mul. cbn [time_rev id_map]. fold (id_map d). destruct f as [f1 f2 f3 f4]; cbn [links_symm links_std pat_links pat_reprs] in *. f_equal. f_equal.
  - rewrite <- (map_id f2) at 2. apply map_ext_in. intros [l ms] Hin. cbn [fst snd]. f_equal. rewrite <- (map_id ms) at 2. apply map_ext_in.
    intros [n m] Hm. cbn [fst snd]. f_equal. rewrite inv_id. apply mul_id_r. rewrite Forall_forall in H1. apply H1 in Hin. cbn in Hin. rewrite Forall_forall in Hin. apply (Hin _ Hm).
  - rewrite <- (map_id f4) at 2. apply map_ext_in. intros rs Hin. rewrite <- (map_id rs) at 2. apply map_ext_in. intros r Hr.
    apply mul_id_l. rewrite Forall_forall in H2. apply H2 in Hin. rewrite Forall_forall in Hin. auto.
Qed.

(** what the action laws need of a curve *)
Record shape_ok (c : curve) : Prop := {
  sh_cubes : Forall (fun p => cubes_len (cv_dim c) (pat_proto p)) (cv_pats c);
  sh_specs : Forall (specs_wf (cv_dim c)) (cv_pats c);
  sh_kind : valid_kind (cv_dim c) (cv_kind c) }.
Lemma valid_fuzzy_shape c : valid_fuzzy c -> shape_ok c.
Proof.
  intros (H1 & H2 & H3 & H4 & H5). constructor; auto; (eapply Forall_impl; [|exact H5]); intros p (Hp & Hl & Hs).
  - eapply valid_proto_len; eauto.
  - eapply Forall_impl; [|exact Hs]. cbn. intros os H s E. apply H in E. apply E.
Qed.
Lemma valid_curve_fuzzy c : valid_curve c -> valid_fuzzy c.
Proof.
  intros (H1 & H2 & H3 & H4 & H5). repeat (split; auto). { rewrite H4; cbn; auto. }
  eapply Forall_impl; [|exact H5]. intros p (Hp & Hl & Hs). split; [auto|split; auto].
  eapply Forall_impl; [|exact Hs]. cbn. intros os (s & -> & Hw) s' E. inversion E; subst; auto.
Qed.

Lemma cv_mul_mul a b p q c : wf_bm (cv_dim c) a -> wf_bm (cv_dim c) b -> shape_ok c ->
  cv_mul a p (cv_mul b q c) = cv_mul (bm_mul a b) p c.
Proof.
  intros Ha Hb [H1 H2 H3]. rewrite !cv_mul_eq; cbn [cv_dim cv_div cv_pats cv_kind]. rewrite map_map. f_equal.
  - apply map_ext_in. intros pt Hin. symmetry. rewrite Forall_forall in H1, H2. apply (pat_mul_mul (cv_dim c)); auto.
  - symmetry. apply (kind_mul_mul (cv_dim c)); auto.
Qed.
Lemma cv_mul_id c p : shape_ok c -> cv_mul (id_map (cv_dim c)) p c = cv_with_pnum c p.
Proof.
  intros [H1 H2 H3]. rewrite cv_mul_eq. unfold cv_with_pnum. f_equal.
  - rewrite <- (map_id (cv_pats c)) at 2. apply map_ext_in. intros pt Hin. rewrite Forall_forall in H1, H2. apply pat_mul_id; auto.
  - apply kind_mul_id; auto.
Qed.
Lemma cv_pnum_mul b p c : cv_pnum (cv_mul b p c) = p. Proof. rewrite cv_mul_eq; auto. Qed.
Lemma cv_dim_mul b p c : cv_dim (cv_mul b p c) = cv_dim c. Proof. rewrite cv_mul_eq; auto. Qed.
Lemma cv_div_mul b p c : cv_div (cv_mul b p c) = cv_div c. Proof. rewrite cv_mul_eq; auto. Qed.
Lemma cv_mult_mul b p c : cv_mult (cv_mul b p c) = cv_mult c. Proof. rewrite cv_mul_eq. unfold cv_mult; cbn. apply map_length. Qed.
Lemma cv_with_pnum_same c : cv_with_pnum c (cv_pnum c) = c. Proof. destruct c; auto. Qed.

(** C15 *)
Lemma curve_action c a b : wf_bm (cv_dim c) a -> wf_bm (cv_dim c) b -> valid_fuzzy c ->
  cv_mul_bm a (cv_mul_bm b c) = cv_mul_bm (bm_mul a b) c /\ cv_mul_bm (id_map (cv_dim c)) c = c /\
  cv_mul_bm (bm_inv a) (cv_mul_bm a c) = c /\ cv_inv (cv_inv c) = c /\ cv_inv c = cv_mul_bm (bm_rev (id_map (cv_dim c))) c.
Proof.
  intros Ha Hb HV. pose proof (valid_fuzzy_shape c HV) as HS. unfold cv_mul_bm. rewrite !cv_pnum_mul.
  assert (Hinv : forall k, valid_kind (cv_dim c) k -> kind_inv k = kind_mul (bm_rev (id_map (cv_dim c))) k).
  { intros k Hk. destruct k as [| |f]; cbn [kind_inv kind_mul]; auto. f_equal. rewrite <- pf_mul_eq. cbn [time_rev bm_rev id_map negb].
    unfold pf_apply_cube_map. change (cube_map (bm_rev _)) with (id_map (cv_dim c)). rewrite inv_id. destruct Hk as [K1 K2].
    destruct (pf_inv f) as [f1 f2 f3 f4] eqn:Ef. cbn [links_symm links_std pat_links pat_reprs]. f_equal.
    - rewrite <- (map_id f2) at 1. apply map_ext_in. intros [l ms] Hin. cbn [fst snd]. f_equal. rewrite <- (map_id ms) at 1. apply map_ext_in.
      intros [n m] Hm. cbn [fst snd]. f_equal. symmetry. apply mul_id_r. unfold pf_inv in Ef. inversion Ef; subst.
      apply in_map_iff in Hin as ((l0 & ms0) & E0 & Hin0). cbn [fst snd] in E0. inversion E0; subst. apply in_map_iff in Hm as ((n1 & m1) & E1 & Hin1). cbn [fst snd] in E1. inversion E1; subst.
      apply wf_rev. rewrite Forall_forall in K1. apply K1 in Hin0. cbn in Hin0. rewrite Forall_forall in Hin0. apply (Hin0 _ Hin1).
    - rewrite <- (map_id f4) at 1. apply map_ext_in. intros rs Hin. rewrite <- (map_id rs) at 1. apply map_ext_in. intros r Hr.
      symmetry. apply mul_id_l. unfold pf_inv in Ef. inversion Ef; subst. apply in_map_iff in Hin as (rs0 & <- & Hin0).
      apply in_map_iff in Hr as (r0 & <- & Hr0). apply wf_rev. rewrite Forall_forall in K2. apply K2 in Hin0. rewrite Forall_forall in Hin0. apply Hin0. apply in_rev; auto. }
  assert (E5 : cv_inv c = cv_mul (bm_rev (id_map (cv_dim c))) (cv_pnum c) c).
  { rewrite cv_mul_eq. unfold cv_inv, cv_with_kind, cv_with_pats; cbn. destruct HS as [H1 H2 H3]. f_equal; [|apply Hinv; auto].
    apply map_ext_in. intros pt Hin. unfold pat_mul, pat_inv. f_equal.
    - apply pr_inv_mul. rewrite Forall_forall in H1. apply H1 in Hin; auto.
    - cbn [time_rev bm_rev negb id_map]. rewrite <- (map_id (rev (pat_specs pt))) at 1. apply map_ext_in. intros [s|] Hs; cbn [option_map]; auto.
      f_equal. symmetry. apply sp_conj_id. rewrite Forall_forall in H2. apply H2 in Hin. unfold specs_wf in Hin. rewrite Forall_forall in Hin. eapply Hin; eauto. apply in_rev; auto. }
  split; [apply cv_mul_mul; auto|]. split; [rewrite cv_mul_id by auto; apply cv_with_pnum_same|]. split.
  { rewrite cv_mul_mul by auto using wf_inv. rewrite (mul_inv_l (cv_dim c)) by auto. rewrite cv_mul_id by auto. apply cv_with_pnum_same. }
  split; [|exact E5].
  unfold cv_inv, cv_with_kind, cv_with_pats; cbn. destruct c as [d N ps n k]; cbn. f_equal.
  - rewrite map_map. rewrite <- (map_id ps) at 2. apply map_ext. intros [pr ss]. unfold pat_inv; cbn. rewrite pr_inv_inv, rev_involutive. auto.
  - destruct k as [| |f]; auto. cbn. f_equal. unfold pf_inv; cbn. destruct f as [f1 f2 f3 f4]; cbn. f_equal.
    + rewrite map_map. rewrite <- (map_id f2) at 2. apply map_ext. intros [l ms]. cbn. f_equal. rewrite map_map. rewrite <- (map_id ms) at 2. apply map_ext.
      intros [n' m]. cbn. rewrite rev_rev. auto.
    + rewrite map_map. rewrite <- (map_id f3) at 2. apply map_ext. intros l. apply rev_involutive.
    + rewrite map_map. rewrite <- (map_id f4) at 2. apply map_ext. intros rs. rewrite <- map_rev, rev_involutive, map_map. rewrite <- (map_id rs) at 2. apply map_ext. intros r. apply rev_rev.
Qed.
(** C08: mixed products *)
Lemma spec_action c s1 s2 b : wf_bm (cv_dim c) (sp_bm s1) -> wf_bm (cv_dim c) (sp_bm s2) -> wf_bm (cv_dim c) b -> valid_fuzzy c ->
  cv_mul_sp (sp_mul s1 s2) c = cv_mul_sp s1 (cv_mul_sp s2 c) /\
  cv_mul_sp (bm_mul_sp b s1) c = cv_mul_bm b (cv_mul_sp s1 c) /\
  cv_mul_sp (sp_mul_bm s1 b) c = cv_mul_sp s1 (cv_mul_bm b c).
Proof.
  intros H1 H2 Hb HV. pose proof (valid_fuzzy_shape c HV) as HS. unfold cv_mul_sp, cv_mul_bm, sp_mul, bm_mul_sp, sp_mul_bm; cbn [sp_bm sp_pnum].
  rewrite cv_pnum_mul. repeat split; symmetry; apply cv_mul_mul; auto.
Qed.
Lemma spec_semigroup d s1 s2 s3 a b : wf_bm d (sp_bm s1) -> wf_bm d (sp_bm s2) -> wf_bm d (sp_bm s3) -> wf_bm d a -> wf_bm d b ->
  sp_mul (sp_mul s1 s2) s3 = sp_mul s1 (sp_mul s2 s3) /\
  sp_mul (sp_mul_bm s1 a) s2 = sp_mul s1 (bm_mul_sp a s2) /\
  sp_mul_bm (sp_mul s1 s2) a = sp_mul s1 (sp_mul_bm s2 a) /\
  sp_mul (bm_mul_sp a s1) s2 = bm_mul_sp a (sp_mul s1 s2) /\
  bm_mul_sp (bm_mul a b) s1 = bm_mul_sp a (bm_mul_sp b s1) /\
  sp_mul_bm s1 (bm_mul a b) = sp_mul_bm (sp_mul_bm s1 a) b /\
  sp_mul_bm (bm_mul_sp a s1) b = bm_mul_sp a (sp_mul_bm s1 b) /\
  bm_mul_sp (id_map d) s1 = s1 /\ sp_mul_bm s1 (id_map d) = s1.
Proof.
  intros. unfold sp_mul, sp_mul_bm, bm_mul_sp; cbn [sp_bm sp_pnum]. repeat split; try (f_equal; (rewrite (mul_assoc d) || (symmetry; rewrite (mul_assoc d))); auto; fail).
  - destruct s1; cbn in *. rewrite mul_id_l; auto.
  - destruct s1; cbn in *. rewrite mul_id_r; auto.
Qed.

(** validity is preserved *)
Lemma wf_spec_conj d m s g : wf_spec d m s -> wf_bm d g -> wf_spec d m (sp_conj s g).
Proof. intros [H1 H2] Hg. split; cbn; auto. apply wf_conj; auto. Qed.
Lemma valid_kind_mul d b k : wf_bm d b -> valid_kind d k -> valid_kind d (kind_mul b k).
Proof.
  intros Hb. destruct k as [| |f]; auto. intros [H1 H2]. cbn. split.
  - rewrite Forall_map. eapply Forall_impl; [|exact H1]. intros ld Hl. cbn. rewrite Forall_map. eapply Forall_impl; [|exact Hl].
    intros pm Hw. cbn. apply wf_mul; auto using wf_inv.
  - rewrite Forall_map. eapply Forall_impl; [|exact H2]. intros rs Hr. rewrite Forall_map.
    assert (Forall (wf_bm d) (if time_rev b then rev rs else rs)) by (destruct (time_rev b); auto; apply Forall_rev; auto).
    eapply Forall_impl; [|exact H]. intros; apply wf_mul; auto.
Qed.
Lemma valid_fuzzy_mul b p c : wf_bm (cv_dim c) b -> p < cv_mult c -> valid_fuzzy c -> valid_fuzzy (cv_mul b p c).
Proof.
  intros Hb Hp (H1 & H2 & H3 & H4 & H5). unfold valid_fuzzy. rewrite cv_dim_mul, cv_div_mul, cv_pnum_mul, cv_mult_mul.
  repeat (split; auto). { rewrite cv_mul_eq; cbn. apply valid_kind_mul; auto. }
  rewrite cv_mul_eq; cbn. rewrite Forall_map. eapply Forall_impl; [|exact H5]. intros pt (V1 & V2 & V3). split; [|split]; cbn [pat_mul pat_proto pat_specs].
  - apply valid_proto_mul; auto.
  - rewrite map_length. destruct (time_rev b); rewrite ?rev_length; auto.
  - rewrite Forall_map. assert (Forall (fun os => forall s, os = Some s -> wf_spec (cv_dim c) (cv_mult c) s) (if time_rev b then rev (pat_specs pt) else pat_specs pt))
      by (destruct (time_rev b); auto; apply Forall_rev; auto).
    eapply Forall_impl; [|exact H]. intros [s|] Hs s' E; cbn in E; [|discriminate]. inversion E; subst. apply wf_spec_conj; auto using wf_cube_map.
Qed.
Lemma valid_curve_mul b p c : wf_bm (cv_dim c) b -> p < cv_mult c -> valid_curve c -> valid_curve (cv_mul b p c).
Proof.
  intros Hb Hp (H1 & H2 & H3 & H4 & H5). unfold valid_curve. rewrite cv_dim_mul, cv_div_mul, cv_pnum_mul, cv_mult_mul.
  repeat (split; auto). { rewrite cv_mul_eq; cbn. rewrite H4; auto. }
  rewrite cv_mul_eq; cbn. rewrite Forall_map. eapply Forall_impl; [|exact H5]. intros pt (V1 & V2 & V3). split; [|split]; cbn [pat_mul pat_proto pat_specs].
  - apply valid_proto_mul; auto.
  - rewrite map_length. destruct (time_rev b); rewrite ?rev_length; auto.
  - rewrite Forall_map. assert (Forall (fun os => exists s, os = Some s /\ wf_spec (cv_dim c) (cv_mult c) s) (if time_rev b then rev (pat_specs pt) else pat_specs pt))
      by (destruct (time_rev b); auto; apply Forall_rev; auto).
    eapply Forall_impl; [|exact H]. intros os (s & -> & Hs). cbn. exists (sp_conj s (cube_map b)). split; auto. apply wf_spec_conj; auto using wf_cube_map.
Qed.
