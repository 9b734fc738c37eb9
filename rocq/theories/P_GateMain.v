(** From candidates to the generated gates: soundness and completeness relative to the coverage of systems by candidates. *)
From Verif Require Import Py L_Py L_Qc L_BaseMaps M_BaseMaps M_Subsets M_Paths M_Curves M_PathTree M_PathGen M_Utils M_Gates S_BaseMaps S_Subsets S_Paths S_Utils S_Curves S_Fuzzy S_Gates S_PathGen S_PathTree
  P_GenMaps P_Actions P_Points P_Subsets P_Paths P_Core P_Bridge P_Entrance P_FuzzyCurves P_Check P_PathGen P_PathYield P_PathAll P_PathLaws P_PathTuples T_PathGen T_PathParent T_Fuzzy P_GateEqs P_GateLoop P_GateSys P_GateCand.
From Coq Require Import Permutation Sorting.Sorted.
Local Open Scope nat_scope.

(** faces *)
Lemma filter_split {A} (p : A -> bool) l : length (filter p l) + length (filter (fun x => negb (p x)) l) = length l.
Proof. induction l as [|a l IH]; cbn; auto. destruct (p a); cbn; lia. Qed.
Lemma filter_count {A} (p : A -> bool) (a0 : A) l :
  (length (filter p l) = 0 <-> forall j, j < length l -> p (nth j l a0) = false) /\
  (length (filter p l) = 1 <-> exists j, (j < length l /\ p (nth j l a0) = true) /\ forall i, i < length l -> p (nth i l a0) = true -> i = j).
Proof.
  induction l as [|a l [IH0 IH1]]; cbn [filter length].
  { split; split; intros H; try (intros; lia); try lia. destruct H as (j & (H & _) & _). cbn in H. lia. }
  destruct (p a) eqn:E; cbn [length].
  - split.
    + split; [lia|]. intros H. specialize (H 0 ltac:(lia)). cbn in H. congruence.
    + assert (S (length (filter p l)) = 1 <-> length (filter p l) = 0) as -> by lia. rewrite IH0. split.
      * intros H. exists 0. split; [split; [lia|auto]|]. intros [|i] Hi HP; auto. cbn in HP. rewrite H in HP by lia. discriminate.
      * intros (j & _ & HJ) i Hi. destruct (p (nth i l a0)) eqn:EI; auto. pose proof (HJ (S i) ltac:(lia) EI). pose proof (HJ 0 ltac:(lia) E). lia.
  - split.
    + rewrite IH0. split; intros H; [intros [|j] Hj; cbn; auto; apply H; lia|]. intros j Hj. apply (H (S j)). lia.
    + rewrite IH1. split.
      * intros (j & (J1 & J2) & J3). exists (S j). split; [split; [lia|auto]|]. intros [|i] Hi HP; cbn in HP; [congruence|]. f_equal. apply J3; auto. lia.
      * intros (j & (J1 & J2) & J3). destruct j as [|j]; [cbn in J2; congruence|]. exists j. split; [split; [lia|auto]|]. intros i Hi HP. pose proof (J3 (S i) ltac:(lia) HP). lia.
Qed.
Lemma edge_dec x j : edge_coord x j <-> j < length x /\ (negb (negb (qc_eqb (nth j x 0%Qc) 0%Qc) && negb (qc_eqb (nth j x 0%Qc) 1%Qc))) = true.
Proof. unfold edge_coord. rewrite negb_andb, !negb_involutive, orb_true_iff, !(qc_eqb_ok _ _). tauto. Qed.
Lemma bad_face_spec d of x : 1 <= d -> length x = d -> (bad_face d of x = false <-> good_face of x).
Proof.
  intros Hd HL. unfold bad_face, face_dim. set (P := fun y : Qc => negb (qc_eqb y 0%Qc) && negb (qc_eqb y 1%Qc)). pose proof (filter_split P x) as HS. rewrite HL in HS.
  destruct (filter_count (fun y => negb (P y)) 0%Qc x) as [F0 F1]. set (n0 := length (filter P x)) in *. set (n1 := length (filter (fun y => negb (P y)) x)) in *.
  assert (HB : on_boundary x <-> n1 <> 0).
  { rewrite F0. split.
    - intros (j & Hj) H. apply edge_dec in Hj. destruct Hj as [Hj E]. specialize (H j Hj). unfold P in H. congruence.
    - intros H. unfold on_boundary. destruct (existsb (fun y => negb (P y)) x) eqn:E.
      + apply existsb_exists in E. destruct E as (y & Hy & E). apply (In_nth _ _ 0%Qc) in Hy. destruct Hy as (j & Hj & <-). exists j. apply edge_dec. auto.
      + exfalso. apply H. intros j Hj. destruct (negb (P (nth j x 0%Qc))) eqn:EJ; auto. rewrite <- E. symmetry. apply existsb_exists. exists (nth j x 0%Qc). split; auto. apply nth_In; auto. }
  assert (HI : inside_facet x <-> n1 = 1).
  { rewrite F1. unfold inside_facet. split; intros (j & J1 & J2); exists j.
    - apply edge_dec in J1. split; auto. intros i Hi E. apply J2. apply edge_dec. auto.
    - split; [apply edge_dec; auto|]. intros i Hi. apply edge_dec in Hi. apply J2; tauto. }
  unfold good_face. rewrite orb_false_iff, andb_false_iff, negb_false_iff, Nat.eqb_neq, Nat.eqb_eq. destruct of.
  - rewrite HI. split; [intros [[?|?] ?]; [discriminate|lia]|]. intros. split; [right; lia|lia].
  - rewrite HB. split; [intros [_ ?]; lia|]. intros. split; [auto|lia].
Qed.
Lemma edge_mul d b x j : wf_bm d b -> length x = d -> j < d -> (edge_coord (pt_mul b x) j <-> edge_coord x (fst (nth j (coords b) (0, false)))).
Proof.
  intros W HL Hj. unfold edge_coord. rewrite (pt_mul_length d) by auto. rewrite (nth_pt_mul d) by auto. cbv zeta. pose proof (wf_nth_lt d b j W Hj) as HK. rewrite HL.
  destruct (snd (nth j (coords b) (0, false))); [|tauto].
  assert (X : forall y : Qc, (1 - y = 0 <-> y = 1)%Qc /\ (1 - y = 1 <-> y = 0)%Qc).
  { intros y. split; split; intros E. - replace y with (1 - (1 - y))%Qc by ring. rewrite E. ring. - subst. ring. - replace y with (1 - (1 - y))%Qc by ring. rewrite E. ring. - subst. ring. }
  destruct (X (nth (fst (nth j (coords b) (0, false))) x 0%Qc)) as [-> ->]. tauto.
Qed.
Lemma boundary_mul d b x : wf_bm d b -> length x = d -> on_boundary x -> on_boundary (pt_mul b x).
Proof.
  intros W HL. rewrite <- (pt_mul_inv d b x) at 1 by auto. intros (j & Hj). assert (Hjd : j < d) by (destruct Hj as [H _]; rewrite (pt_mul_length d) in H; auto using wf_inv).
  apply (edge_mul d) in Hj; auto using wf_inv; [eexists; eauto|]. apply (pt_mul_length d); auto.
Qed.
Lemma good_face_mul d of b x : wf_bm d b -> length x = d -> good_face of x -> good_face of (pt_mul b x).
Proof.
  intros W HL. destruct of; cbn; [|apply (boundary_mul d); auto]. intros (j & J1 & J2). destruct (boundary_mul d b x W HL (ex_intro _ j J1)) as (k & Hk).
  assert (HD : forall i, edge_coord (pt_mul b x) i -> i < d) by (intros i [H _]; rewrite (pt_mul_length d) in H; auto).
  exists k. split; auto. intros i Hi. pose proof (HD k Hk). pose proof (HD i Hi). apply (wf_nth_inj d b); auto. apply (edge_mul d) in Hk, Hi; auto. rewrite (J2 _ Hk), (J2 _ Hi). auto.
Qed.
Definition gface (of : bool) (l : plink) : Prop := good_face of (entrance l) /\ good_face of (exit l).
Lemma gface_mul d of b l : wf_bm d b -> pl_dim d l -> gface of l -> gface of (pl_mul b l).
Proof. intros W [D1 D2] [G1 G2]. unfold gface, pl_mul, lk_mul. destruct (time_rev b); cbn; split; apply (good_face_mul d); auto. Qed.

(** standard gates *)
Definition stdl (l : plink) : plink := match pl_std l with Some x => x | None => l end.
Lemma stdl_spec d l : pl_dim d l -> pl_std l = Some (stdl l) /\ (exists b, wf_bm d b /\ pl_mul b l = stdl l) /\ standard d (stdl l) /\ pl_dim d (stdl l).
Proof.
  intros D. destruct (pl_std_spec d l D) as (x & E & (b & W & EB) & M). unfold stdl. rewrite E. split; auto. split; eauto. assert (DX : pl_dim d x) by (rewrite <- EB; apply pl_mul_dim; auto). split; auto.
  intros a Wa. rewrite <- EB at 2. rewrite <- (pl_mul_mul d) by (destruct D; auto). apply M. apply wf_mul; auto.
Qed.
Lemma std_gates_eq d gs : Forall (pl_dim d) gs -> std_gates gs = Some (sorted pl_cmp (map stdl gs)).
Proof.
  intros H. unfold std_gates. replace (omap pl_std gs) with (Some (map stdl gs)); auto. symmetry. apply omap_rel. induction H; cbn; constructor; auto. apply (stdl_spec d); auto.
Qed.
Lemma std_standard d l : pl_dim d l -> standard d l -> stdl l = l.
Proof.
  intros D HS. destruct (stdl_spec d l D) as (E & (b & W & EB) & M & DX). apply pl_le_antisym; [|rewrite <- EB; apply HS; auto].
  destruct (pl_std_spec d l D) as (x & E' & _ & M'). rewrite E in E'. injection E' as <-. specialize (M' (id_map d) (wf_id d)). rewrite (pl_mul_id d) in M' by apply D. auto.
Qed.
Lemma std_gates_fixed d gs : Forall (pl_dim d) gs -> Forall (standard d) gs -> nondecreasing gs -> std_gates gs = Some gs.
Proof.
  intros HD HS HN. rewrite (std_gates_eq d) by auto. f_equal. replace (map stdl gs) with gs.
  - apply (StronglySorted_perm_eq pl_cmp pl_cmp_ok); auto; [apply sorted_Sorted, pl_cmp_ok|apply sorted_perm].
  - clear HN. induction HD; cbn; auto. apply Forall_cons_iff in HS. destruct HS. f_equal; auto. symmetry. apply (std_standard d); auto.
Qed.
Lemma std_gates_std d gs std : Forall (pl_dim d) gs -> std_gates gs = Some std -> length std = length gs /\ Forall (pl_dim d) std /\ Forall (standard d) std /\ nondecreasing std /\
  forall l, In l std -> exists l0 b, In l0 gs /\ wf_bm d b /\ l = pl_mul b l0.
Proof.
  intros HD E. rewrite (std_gates_eq d) in E by auto. injection E as <-. assert (HP : Permutation (sorted pl_cmp (map stdl gs)) (map stdl gs)) by apply sorted_perm.
  assert (HI : forall l, In l (sorted pl_cmp (map stdl gs)) -> exists l0, In l0 gs /\ l = stdl l0). { intros l Hl. apply (Permutation_in _ HP) in Hl. apply in_map_iff in Hl. destruct Hl as (l0 & <- & Hl). eauto. }
  rewrite Forall_forall in HD. split; [rewrite HP, map_length; auto|]. split; [|split; [|split]].
  - apply Forall_forall. intros l Hl. destruct (HI l Hl) as (l0 & H0 & ->). apply stdl_spec; auto.
  - apply Forall_forall. intros l Hl. destruct (HI l Hl) as (l0 & H0 & ->). apply stdl_spec; auto.
  - apply sorted_Sorted, pl_cmp_ok.
  - intros l Hl. destruct (HI l Hl) as (l0 & H0 & ->). destruct (stdl_spec d l0 (HD l0 H0)) as (_ & (b & W & EB) & _). eauto.
Qed.
Lemma perm_range m s t : perm_on m s t -> Permutation (map s (range m)) (range m).
Proof.
  intros [P1 P2]. unfold range. apply NoDup_Permutation.
  - apply NoDup_map_inj; [|apply seq_NoDup]. intros x y Hx Hy E. apply in_seq in Hx, Hy. destruct (P1 x ltac:(lia)) as [_ <-]. destruct (P1 y ltac:(lia)) as [_ <-]. congruence.
  - apply seq_NoDup.
  - intros x. rewrite in_map_iff, in_seq. split.
    + intros (y & <- & Hy). apply in_seq in Hy. destruct (P1 y ltac:(lia)). lia.
    + intros Hx. destruct (P2 x ltac:(lia)) as [T1 T2]. exists (t x). split; auto. apply in_seq. lia.
Qed.
Lemma std_tr d m s t b g : perm_on m s t -> (forall i, i < m -> wf_bm d (b i)) -> (forall p, p < m -> pl_dim d (g p)) ->
  std_gates (map (tr_l point_ops s b g) (range m)) = std_gates (map g (range m)).
Proof.
  intros HP HB HD. pose proof HP as [P1 _]. rewrite !(std_gates_eq d).
  - f_equal. apply sorted_ext; [exact pl_cmp_ok|]. rewrite !map_map. rewrite <- (Permutation_map (fun x => stdl (g x)) (perm_range m s t HP)). rewrite map_map.
    replace (map (fun x => stdl (tr_l point_ops s b g x)) (range m)) with (map (fun x => stdl (g (s x))) (range m)); auto. apply map_ext_in. intros i Hi. apply in_seq in Hi.
    destruct (P1 i ltac:(lia)). unfold stdl, tr_l. change (lk_mul (so_mul point_ops) (b i) (g (s i))) with (pl_mul (b i) (g (s i))). rewrite (pl_std_inv d) by (try apply HB; try apply HD; lia).
    destruct (stdl_spec d (g (s i)) (HD (s i) ltac:(lia))) as (-> & _). auto.
  - rewrite Forall_map, Forall_forall. intros p Hp. apply in_seq in Hp. apply HD. lia.
  - rewrite Forall_map, Forall_forall. intros p Hp. apply in_seq in Hp. apply pl_mul_dim. apply HB. lia.
Qed.

(** paths for all gates give a curve with these gates *)
Lemma paths_curve d N gs ps : 1 <= d -> 2 <= N -> gs <> [] -> unit_links d gs -> Forall2 (point_path d N gs None) gs ps ->
  exists x, valid_curve x /\ cv_dim x = d /\ cv_div x = N /\ cv_mult x = length gs /\ check x = Some true /\
    forall p l, nth_error gs p = Some l -> get_entrance x (Some p) = Some (entrance l) /\ get_exit x (Some p) = Some (exit l).
Proof.
  intros Hd HN NE HU HP. assert (H2 : 2 <= N ^ d) by (apply (G_ge2 d N 1); auto).
  assert (HL : length ps = length gs) by (symmetry; apply (Forall2_length HP)).
  assert (HPI : forall p path, nth_error ps p = Some path -> exists l, nth_error gs p = Some l /\ point_path d N gs None l path).
  { intros p path E. destruct (nth_error gs p) as [l|] eqn:EG; [|apply nth_error_None in EG; assert (p < length ps) by (apply nth_error_Some; congruence); lia]. exists l. split; auto.
    revert HP EG E. generalize (point_path d N gs None). clear. intros RR HP. revert p. induction HP; intros [|p] E1 E2; cbn in *; try discriminate; [injection E1 as <-; injection E2 as <-; auto|eauto]. }
  assert (HPI' : forall p l, nth_error gs p = Some l -> exists path, nth_error ps p = Some path /\ pa_link path = l).
  { intros p l E. destruct (nth_error ps p) as [path|] eqn:EP; [|apply nth_error_None in EP; assert (p < length gs) by (apply nth_error_Some; congruence); lia]. exists path. split; auto.
    destruct (HPI p path EP) as (l' & E' & (_ & _ & HK)). congruence. }
  assert (HVP : forall path l, point_path d N gs None l path -> valid_ppath d path /\ valid_proto d N (pa_proto path)).
  { intros p l (HM & (z & HP' & HZ) & HK). pose proof (chain_nodes point_ops true _ N _ _ (point_laws _ N ltac:(lia)) gs HU None z HZ) as NZ. rewrite Forall_forall in NZ. destruct HP' as (P1 & P2). split.
    - constructor; try rewrite P1; cbn; auto; try lia.
      + rewrite Forall_map, Forall_forall. intros x Hx. exists (fst x). split; auto. apply NZ; auto.
      + rewrite P2, Forall_map, Forall_forall. intros x Hx. apply NZ in Hx. split; apply Hx.
      + rewrite P2, !map_length. auto.
      + rewrite P2. destruct z; [|discriminate]. destruct (mkp_shape point_ops d N [] p) as (_ & _ & NE'); [unfold mkp; rewrite <- P1, <- P2; auto|congruence].
      + rewrite <- P1; auto.
    - rewrite P1. split; auto. split; auto. destruct HZ as [Z1 Z2 _ _]. exists (map fst z). split; [rewrite map_map; auto|]. split; auto. intros q. symmetry. apply Z2. }
  assert (HV : valid_paths d N ps).
  { split; auto. split; auto. split; [destruct ps; [destruct gs; cbn in HL; congruence|congruence]|]. apply Forall_forall. intros p Hp. apply In_nth_error in Hp. destruct Hp as (i & Hi).
    destruct (HPI i p Hi) as (l & _ & PP). eapply HVP; eauto. }
  assert (VG : valid_group d None) by (intros g E; discriminate).
  destruct (init_from_paths ps None false) as [c|] eqn:EI.
  2: { exfalso. apply (C25_keyerror d N None false ps VG HV) in EI. destruct EI as (p & k & path & l & E1 & E2 & HF). destruct (HPI p path E1) as (l0 & E0 & (HM & (z & (Z1 & Z2) & HZ) & HK)).
    destruct HZ as [_ _ GI _]. pose proof E2 as E2'. rewrite Z2, nth_error_map in E2. destruct (nth_error z k) as [[c l1]|] eqn:EZ; [|discriminate]. cbn in E2. injection E2 as ->. apply nth_error_In in EZ.
    rewrite Forall_forall in GI. apply GI in EZ. destruct EZ as (lq & b & Hq & W & EQ). cbn in EQ. apply In_nth_error in Hq. destruct Hq as (q & Hq). destruct (HPI' q lq Hq) as (other & EO & EL).
    apply (HF (Sp b q)). exists path, l, other. split; auto. split; auto. split; auto. split; [split; [exact W|split; discriminate]|]. rewrite EL, EQ. reflexivity. }
  destruct (C26_possible d N None false ps c VG HV (built_init _ _ _ _ EI)) as (xs & _ & _ & _ & NEx & HX). destruct xs as [|x xs]; [congruence|]. assert (HXC : chosen_from c x) by (apply HX; left; auto).
  destruct (C26_keeps_paths d N None false ps c x VG HV EI HXC) as (VX & EP). destruct (C26_check d N None false ps c x VG HV (built_init _ _ _ _ EI) HXC) as (_ & HCK).
  pose proof (get_paths_eq x VX) as EP'. rewrite EP in EP'. injection EP' as EP'.
  assert (EM : cv_mult x = length gs) by (rewrite <- HL, EP', map_length; unfold range; rewrite seq_length; auto).
  assert (EN : forall p, p < length gs -> nth_error ps p = Some (cpath x p)) by (intros p Hp; rewrite EP', nth_error_map; unfold range; rewrite nth_error_seq by lia; auto).
  assert (ED : cv_dim x = d /\ cv_div x = N).
  { assert (H0 : 0 < length gs) by (destruct gs; [congruence|cbn; lia]). destruct (HPI 0 _ (EN 0 H0)) as (l & _ & (_ & (z & (Z1 & _) & _) & _)). cbn in Z1. injection Z1 as -> -> _. auto. }
  destruct ED as (ED1 & ED2). exists x. split; auto. split; auto. split; auto. split; auto. split.
  - apply HCK. intros p Hp. apply In_nth_error in Hp. destruct Hp as (i & Hi). destruct (HPI i p Hi) as (l & _ & PP). destruct (HVP p l PP) as (VP & _).
    pose proof (C33_continuous d N gs None l p H2 HU PP) as HC. destruct (is_continuous_exact d p VP) as (r & Er & Hr). rewrite Er in HC. injection HC as ->. apply Hr; auto.
  - intros p l E. assert (Hp : p < length gs) by (apply nth_error_Some; congruence). destruct (HPI' p l E) as (path & E' & EL). rewrite EN in E' by auto. injection E' as <-. cbn in EL. subst l.
    apply (klink_is x VX p). lia.
Qed.

Lemma fin_choice {A} (P : nat -> A -> Prop) (a0 : A) m : (forall i, i < m -> exists a, P i a) -> exists f, forall i, i < m -> P i (f i).
Proof.
  induction m as [|m IH]; intros H.
  - exists (fun _ => a0). lia.
  - destruct IH as (f & Hf); [intros i Hi; apply H; lia|]. destruct (H m ltac:(lia)) as (a & Ha). exists (fun i => if Nat.eqb i m then a else f i).
    intros i Hi. destruct (Nat.eqb_spec i m) as [->|NE]; auto. apply Hf. lia.
Qed.
Lemma Forall2_range {A} (R : A -> A -> Prop) (f g : nat -> A) m : (forall i, i < m -> R (f i) (g i)) -> Forall2 R (map f (range m)) (map g (range m)).
Proof. intros H. unfold range. apply Forall2_map_l, Forall2_map_r. assert (HA : Forall (fun i => i < m) (seq 0 m)) by (apply Forall_forall; intros i Hi; apply in_seq in Hi; lia). induction HA; constructor; auto. Qed.

Section Main.
Context (d N m : nat) (of : bool) (Hd : 1 <= d) (HN : 2 <= N) (Hm : 1 <= m) (hash : future_t plink -> Z) (HH : hash_ok hash) (smax : nat) (fmax : option nat).
Context (cands : list (list proto * list spec)).
Notation system := (chains_ok point_ops d N m (unit_point d) is_point).
Definition valid_cand (c : list proto * list spec) : Prop := exists cu sp, snd c = spec_seq sp (range m) /\
  (forall p w, p < m -> grid_cube d N (cu p w)) /\ (forall p w, p < m -> wf_spec d m (sp p w)) /\ (forall p, p < m -> cu p false <> cu p true) /\ proto_bnd d N m cu (fst c).
Definition sys_bnd (Zs : nat -> list (list Z * spec)) (cu : nat -> bool -> list Z) (sp : nat -> bool -> spec) : Prop :=
  forall p (w : bool), p < m -> hd_error (if w then rev (Zs p) else Zs p) = Some (cu p w, sp p w).
Let H2 : 2 <= N ^ d := G_ge2 d N m Hd HN Hm.
Lemma sys_dim Zs g : system Zs g -> forall p, p < m -> pl_dim d (g p).
Proof. intros HS p Hp. destruct (HS p Hp) as (_ & ((A & _) & (B & _)) & _). split; auto. Qed.
Lemma sys_eqs Zs g cu sp : system Zs g -> sys_bnd Zs cu sp -> gate_eqs d N m cu sp g.
Proof.
  intros HS HB p w Hp. split; [eapply sys_dim; eauto|]. destruct (HS p Hp) as (_ & _ & _ & ((c0 & l0 & E0 & x0 & y0 & M0 & M0' & M0'') & (c1 & l1 & E1 & x1 & y1 & M1 & M1' & M1''))).
  unfold is_point in *. subst x0 x1 y0 y1. unfold zl in E0, E1. rewrite <- map_rev in E1. rewrite hd_map in E0, E1.
  pose proof (HB p w Hp) as HW. destruct w; rewrite HW in *.
  - cbn in E1. injection E1 as <- <-. exact M1'.
  - cbn in E0. injection E0 as <- <-. exact M0'.
Qed.
Context (HVC : Forall valid_cand cands).
Context (HCov : forall Zs g, system Zs g -> (forall p, p < m -> gface of (g p)) ->
  exists s t b Zs' cu sp protos, perm_on m s t /\ (forall i, i < m -> wf_bm d (b i)) /\ system Zs' (tr_l point_ops s b g) /\ sys_bnd Zs' cu sp /\ proto_bnd d N m cu protos /\
    In (protos, spec_seq sp (range m)) cands).
Definition Qp (gs : list plink) : Prop := exists ps, Forall2 (point_path d N gs None) gs ps.

Lemma cand_gives_eq c gs : valid_cand c -> (cand_gives d N m of c gs -> unit_links d gs /\ length gs = m /\ Forall (gface of) gs) /\
  (curve_gates d of (cand_curve d N m (fst c) (snd c)) (range m) = Some None \/ exists gs, cand_gives d N m of c gs).
Proof.
  intros (cu & sp & ES & HC & HS & HNE & HP). destruct (cand_result d N m Hd HN Hm cu sp HC HS HNE of (fst c) HP) as (g & GE & GU & E). unfold cand_gives. rewrite ES, E.
  destruct (existsb _ (range m)) eqn:EX; [split; [discriminate|left; auto]|]. split; [|right; eauto]. intros [= <-]. split; [|split].
  - unfold unit_links. rewrite Forall_map, Forall_forall. intros p Hp. apply in_seq in Hp. apply GU. lia.
  - rewrite map_length. unfold range. apply seq_length.
  - rewrite Forall_map, Forall_forall. intros p Hp. assert (HF : bad_face d of (entrance (g p)) || bad_face d of (exit (g p)) = false).
    { apply not_true_iff_false. intros HT. rewrite <- not_true_iff_false in EX. apply EX. apply existsb_exists. eauto. }
    apply orb_false_iff in HF. apply in_seq in Hp. destruct (GU p ltac:(lia)) as ((D1 & _) & (D2 & _)). split; apply (bad_face_spec d); auto; apply HF.
Qed.
Lemma unit_dims gs : unit_links d gs -> Forall (pl_dim d) gs.
Proof. intros H. eapply Forall_impl; [|exact H]. intros l ((A & _) & (B & _)). split; auto. Qed.
Lemma unit_std gs std : unit_links d gs -> std_gates gs = Some std -> unit_links d std.
Proof.
  intros HU E. destruct (std_gates_std d gs std (unit_dims gs HU) E) as (_ & _ & _ & _ & HI). apply Forall_forall. intros l Hl. destruct (HI l Hl) as (l0 & b & I0 & W & ->).
  unfold unit_links in HU. rewrite Forall_forall in HU. destruct (HU l0 I0) as (U1 & U2). pose proof (lw_V _ _ _ _ _ _ (point_laws d N ltac:(lia))) as LV.
  change (unit_point d (entrance (pl_mul b l0)) /\ unit_point d (exit (pl_mul b l0))). unfold pl_mul, lk_mul. destruct (time_rev b); cbn; split; apply LV; auto.
Qed.
Lemma cands_ok : Forall (cand_ok d N m of hash smax fmax Qp) cands.
Proof.
  eapply Forall_impl; [|exact HVC]. intros c VC. destruct (proj2 (cand_gives_eq c [] VC)) as [E|(gs & HG)]; [left; auto|right]. destruct (proj1 (cand_gives_eq c gs VC) HG) as (U & L & F).
  exists gs. destruct (std_gates gs) as [std|] eqn:ES; [|rewrite (std_gates_eq d) in ES by (apply unit_dims; auto); discriminate]. exists std. split; auto. split; auto.
  apply has_paths_spec; auto; [eapply unit_std; eauto|]. destruct (std_gates_std d gs std (unit_dims gs U) ES) as (LS & _). intros ->. cbn in LS. lia.
Qed.

(** the standard gates of a system have paths *)
Lemma sys_paths Zs g gs : system Zs g -> std_gates (map g (range m)) = Some gs -> Qp gs.
Proof.
  intros HS E. pose proof (sys_dim Zs g HS) as HD. rewrite (std_gates_eq d) in E by (rewrite Forall_map, Forall_forall; intros p Hp; apply in_seq in Hp; apply HD; lia). injection E as EG.
  assert (HP : Permutation (map (fun p => stdl (g p)) (range m)) gs) by (rewrite <- EG, sorted_perm, map_map; auto).
  destruct (perm_index m _ gs HP) as (s & t & PO & HI).
  destruct (fin_choice (fun i b => wf_bm d b /\ pl_mul b (g i) = stdl (g i)) (id_map d) m) as (f & Hf). { intros i Hi. destruct (stdl_spec d (g i) (HD i Hi)) as (_ & (b & B) & _). eauto. }
  pose proof PO as [P1 _]. set (b := fun i => f (s i)). assert (HB : forall i, i < m -> wf_bm d (b i)) by (intros i Hi; apply Hf, P1; auto).
  pose proof (tr_ok point_ops true d N m _ _ (point_laws d N ltac:(lia)) H2 s t b Zs g PO HB HS) as HS'.
  assert (EGS : gs = map (tr_l point_ops s b g) (range m)).
  { apply nth_error_eq_map; [rewrite <- EG, sorted_perm, !map_length; unfold range; apply seq_length|]. intros i Hi. rewrite HI by auto. f_equal. symmetry. apply (Hf (s i)). apply P1; auto. }
  assert (UG : unit_links d gs) by (rewrite EGS; exact (chains_V point_ops d N m _ _ H2 _ _ HS')).
  destruct (fin_choice (fun i q => point_path d N gs None (tr_l point_ops s b g i) q) (Pa (Pr 0 0 []) [] (Lk [] [])) m) as (q & Hq).
  { intros i Hi. destruct (chains_path point_ops true d N m _ _ (point_laws d N ltac:(lia)) H2 _ _ HS' i Hi) as (q & _ & W). exists q. rewrite <- EGS in W.
    apply (wanted_point d N gs None _ q H2 UG); auto. constructor; [|constructor]. apply (HS' i Hi). }
  exists (map q (range m)). rewrite EGS at 2. clear - Hq. unfold range. apply Forall2_map_l, Forall2_map_r. assert (HA : Forall (fun i => i < m) (seq 0 m)) by (apply Forall_forall; intros i Hi; apply in_seq in Hi; lia).
  induction HA; constructor; auto.
Qed.
(** a candidate with the standard gates of the system *)
Lemma sys_cand Zs g : system Zs g -> (forall p, p < m -> gface of (g p)) -> exists c g', In c cands /\ cand_gives d N m of c g' /\ std_gates g' = std_gates (map g (range m)).
Proof.
  intros HS HF. destruct (HCov Zs g HS HF) as (s & t & b & Zs' & cu & sp & protos & PO & HB & HS' & SB & PB & HI). pose proof (sys_dim Zs g HS) as HD.
  exists (protos, spec_seq sp (range m)), (map (tr_l point_ops s b g) (range m)). split; auto. split; [|apply (std_tr d m s t); auto].
  assert (HZ : forall p w, p < m -> In (cu p w, sp p w) (Zs' p)).
  { intros p w Hp. pose proof (SB p w Hp) as E. apply hd_In in E. destruct w; auto. apply in_rev; auto. }
  assert (HCu : forall p w, p < m -> grid_cube d N (cu p w)).
  { intros p w Hp. destruct (HS' p Hp) as (_ & _ & [_ C2 _ _] & _). apply C2. unfold zl. rewrite map_map. apply in_map_iff. exists (cu p w, sp p w). split; auto. }
  assert (HSp : forall p w, p < m -> wf_spec d m (sp p w)).
  { intros p w Hp. destruct (HS' p Hp) as (C1 & _). rewrite Forall_forall in C1. apply (C1 _ (HZ p w Hp)). }
  assert (HNE : forall p, p < m -> cu p false <> cu p true).
  { intros p Hp E. destruct (HS' p Hp) as (_ & _ & [C1 C2 _ _] & _). assert (EF : map fst (zl point_ops (tr_l point_ops s b g) (Zs' p)) = map fst (Zs' p)) by (unfold zl; rewrite map_map; auto).
    assert (C2' : forall c, grid_cube d N c <-> In c (map fst (Zs' p))) by (intros c; rewrite C2, EF; tauto). clear C2. rewrite EF in C1. clear EF.
    pose proof (SB p false Hp) as S0. pose proof (SB p true Hp) as S1. destruct (Zs' p) as [|z1 [|z2 zs]] eqn:EZ; [discriminate| |].
    - assert (HG : forall c, grid_cube d N c <-> c = fst z1) by (intros c; rewrite C2'; cbn; split; [intros [<-|[]]; auto|intros ->; auto]).
      assert (A0 : grid_cube d N (repeat 0%Z d)) by (split; [apply repeat_length|apply Forall_forall; intros x Hx; apply repeat_spec in Hx; lia]).
      assert (A1 : grid_cube d N (repeat 1%Z d)) by (split; [apply repeat_length|apply Forall_forall; intros x Hx; apply repeat_spec in Hx; lia]).
      apply HG in A0, A1. rewrite <- A1 in A0. destruct d; [lia|discriminate].
    - cbn in S0. injection S0 as ->. cbn [map fst] in C1. inversion C1 as [|? ? NI _]; subst. apply NI. rewrite E.
      assert (In (cu p true, sp p true) (z2 :: zs)).
      { cbn [rev] in S1. destruct (rev (z2 :: zs)) eqn:ER; [apply (f_equal (@rev _)) in ER; rewrite rev_involutive in ER; discriminate|]. cbn [rev] in ER. rewrite ER in S1. cbn in S1. injection S1 as ->. apply in_rev. cbn [rev]. rewrite ER. left; auto. }
      exact (in_map fst _ _ H). }
  destruct (cand_result d N m Hd HN Hm cu sp HCu HSp HNE of protos PB) as (g' & GE & GU & E). unfold cand_gives. cbn [fst snd]. rewrite E.
  assert (EQ : forall p, p < m -> g' p = tr_l point_ops s b g p).
  { intros p Hp. apply (eqs_unique d N m HN cu sp); auto; [intros; apply HCu; auto|]. apply (sys_eqs Zs'); auto. }
  replace (existsb _ (range m)) with false.
  - f_equal. f_equal. apply map_ext_in. intros p Hp. apply in_seq in Hp. apply EQ. lia.
  - symmetry. apply not_true_iff_false. intros HE. apply existsb_exists in HE. destruct HE as (p & Hp & HE). apply in_seq in Hp. rewrite EQ in HE by lia.
    destruct PO as [P1 _]. destruct (P1 p ltac:(lia)) as [S1 S2]. assert (GF : gface of (tr_l point_ops s b g p)) by (apply (gface_mul d of (b p) (g (s p))); auto; apply HB; lia).
    pose proof (sys_dim _ _ HS' p ltac:(lia)) as [D1 D2]. destruct GF as [F1 F2]. apply (bad_face_spec d) in F1, F2; auto. rewrite F1, F2 in HE. discriminate.
Qed.

Lemma main : exists F res, (forall fuel, F <= fuel -> check_all d N m of (SP hash fuel smax fmax) ([], []) cands = Some res) /\ NoDup res /\
  (forall gs, In gs res <-> (exists c, gated d N m of c gs) /\ Forall (standard d) gs /\ nondecreasing gs) /\
  (forall c gs, gated d N m of c gs -> exists gs1 gs2, Forall2 (fun l l' => exists b, wf_bm d b /\ l' = pl_mul b l) gs gs1 /\ Permutation gs1 gs2 /\ In gs2 res).
Proof.
  destruct (check_all_spec d N m of hash smax fmax Qp cands cands_ok ([], [])) as (F & res & A & B & C); [intros ? ? []|]. cbn [snd] in C.
  assert (HI : forall c gs, gated d N m of c gs -> exists gs', std_gates gs = Some gs' /\ In gs' res /\ Forall (pl_dim d) gs).
  { intros c gs [V D1 D2 D3 K L GG GF]. assert (EGS : gs = map (klink c) (range m)).
    { apply nth_error_eq_map; auto. intros i Hi. destruct (nth_error gs i) as [l|] eqn:E; [|apply nth_error_None in E; lia]. f_equal. apply (is_link_klink c); [lia|]. destruct (GG i l E). split; auto. }
    pose proof (curve_sys c V K) as HS. rewrite D1, D2, D3 in HS. assert (HF : forall p, p < m -> gface of (klink c p)).
    { intros p Hp. rewrite EGS in GF. rewrite Forall_map, Forall_forall in GF. apply GF. apply in_seq. lia. }
    assert (HD : Forall (pl_dim d) gs) by (rewrite EGS, Forall_map, Forall_forall; intros p Hp; apply in_seq in Hp; eapply sys_dim; eauto; lia).
    exists (sorted pl_cmp (map stdl gs)). rewrite (std_gates_eq d) by auto. split; auto. split; auto. apply C.
    destruct (sys_cand _ _ HS HF) as (cd & g' & C1 & C2 & C3). assert (C3' : std_gates g' = std_gates gs) by (rewrite EGS; exact C3). rewrite (std_gates_eq d gs) in C3' by auto. split; [eauto|]. split; [|auto].
    apply (sys_paths _ _ _ HS). transitivity (std_gates gs); [rewrite EGS; reflexivity|apply (std_gates_eq d); auto]. }
  exists F, res. split; auto. split; auto. split.
  - intros gs. split.
    + intros HG. apply C in HG. destruct HG as ((c & g & C1 & C2 & C3) & (ps & HP) & _). rewrite Forall_forall in HVC. destruct (proj1 (cand_gives_eq c g (HVC c C1)) C2) as (U & L & FF).
      pose proof (unit_std g gs U C3) as US. destruct (std_gates_std d g gs (unit_dims g U) C3) as (L' & D' & S' & N' & I'). split; [|auto].
      destruct (paths_curve d N gs ps Hd HN) as (x & X1 & X2 & X3 & X4 & X5 & X6); auto; [intros ->; cbn in L'; lia|]. exists x. constructor; auto; try lia.
      apply Forall_forall. intros l Hl. destruct (I' l Hl) as (l0 & b & I0 & W & ->). rewrite Forall_forall in FF. pose proof (unit_dims g U) as DG. rewrite Forall_forall in DG. apply (gface_mul d); auto.
    + intros ((c & HG) & HS & HND). destruct (HI c gs HG) as (gs' & E & HR & HD). rewrite (std_gates_fixed d) in E by auto. injection E as <-. auto.
  - intros c gs HG. destruct (HI c gs HG) as (gs' & E & HR & HD). rewrite (std_gates_eq d) in E by auto. injection E as <-. exists (map stdl gs), (sorted pl_cmp (map stdl gs)). split; [|split; auto].
    + clear - HD. induction HD; cbn; constructor; auto. destruct (stdl_spec d x H) as (_ & (b & W & E) & _). eauto.
    + symmetry. apply sorted_perm.
Qed.
End Main.
