(** Proofs about search.py: every curve of the class searched is, up to numbers and orientations of the patterns, a curve of
    one of the fuzzy curves; and conversely. *)
From Verif Require Import Py L_Py L_Qc L_BaseMaps M_BaseMaps M_Subsets M_Paths M_Curves M_PathTree M_PathGen M_Gates M_Utils M_Heap M_Sat M_Dilation M_Search
  S_BaseMaps S_Subsets S_Paths S_Utils S_Curves S_Fuzzy S_PathGen S_PathTree S_Gates S_Ratio S_Dilation S_Search
  P_GenMaps P_Actions P_Points P_Subsets P_Paths P_Core P_CurveAct P_Bridge P_Entrance P_FuzzyCurves P_Check P_PathGen P_PathChain P_PathYield P_PathAll P_PathLaws P_PathTuples T_PathGen
  P_GateEqs P_GateSys P_GateCand P_GateGen P_GateMain P_GateFacet P_Gauge P_FuzzyInit P_FuzzyMain T_Fuzzy S_Term.
From Coq Require Import Reals Permutation.
Local Open Scope nat_scope.

(** the cubes and the specs of the curve x are those of the system Zs *)
Definition rep (x : curve) (Zs : nat -> list (list Z * spec)) : Prop := forall p, p < cv_mult x ->
  length (Zs p) = cv_genus x /\ forall k, k < cv_genus x -> nth_error (Zs p) k = Some (kcube (core_of x) p k, kspec (core_of x) p k).
Lemma rep_curve_z x : rep x (curve_z x).
Proof.
  intros p Hp. unfold curve_z. rewrite map_length, seq_length. split; auto. intros k Hk. apply (nth_error_seq_map (fun k => (kcube (core_of x) p k, kspec (core_of x) p k))). auto.
Qed.
(** the curve with the patterns of the system *)
Definition sys_curve (d N m : nat) (Zs : nat -> list (list Z * spec)) : curve :=
  Cv d N (map (fun p => Pat (Pr d N (map (fun cs => Some (fst cs)) (Zs p))) (map (fun cs => Some (snd cs)) (Zs p))) (range m)) 0 KCurve.
Lemma sys_mult d N m Zs : cv_mult (sys_curve d N m Zs) = m.
Proof. unfold cv_mult, sys_curve. cbn [cv_pats]. rewrite map_length. apply seq_length. Qed.
Lemma rep_sys d N m Zs : (forall p, p < m -> length (Zs p) = N ^ d) -> rep (sys_curve d N m Zs) Zs.
Proof.
  intros HL p Hp. rewrite sys_mult in Hp. change (cv_genus (sys_curve d N m Zs)) with (N ^ d). split; auto. intros k Hk.
  destruct (nth_error (Zs p) k) as [[q s]|] eqn:E; [|apply nth_error_None in E; rewrite HL in E by auto; lia]. f_equal.
  unfold core_of, get_spec, sys_curve. cbn [kcube kspec cv_pats cv_dim]. unfold range. rewrite nth_map_range by auto. cbn [pat_proto pr_cubes pat_specs].
  rewrite !nth_error_map, E. reflexivity.
Qed.
Lemma tr_nth N t b b0 z k : k < length z -> nth_error (tr_z N t b b0 z) k =
  option_map (fun cs => (apply_cube b0 (Z.of_nat N) (fst cs), tr_spec t b b0 (snd cs))) (nth_error z (if time_rev b0 then length z - 1 - k else k)).
Proof. intros Hk. unfold tr_z. rewrite nth_error_map. destruct (time_rev b0); auto. rewrite nth_error_rev by auto. auto. Qed.
Lemma tr_length N t b b0 z : length (tr_z N t b b0 z) = length z.
Proof. unfold tr_z. rewrite map_length. destruct (time_rev b0); rewrite ?rev_length; auto. Qed.
(** the change of the patterns by base maps and permutations is a gauge *)
Lemma tr_gauge x y s t b Zs : valid_curve x -> valid_curve y -> cv_dim y = cv_dim x -> cv_div y = cv_div x -> cv_mult y = cv_mult x ->
  perm_on (cv_mult x) s t -> (forall i, i < cv_mult x -> wf_bm (cv_dim x) (b i)) -> rep x Zs -> rep y (fun i => tr_z (cv_div x) t b (b i) (Zs (s i))) -> gauge x y s b.
Proof.
  intros VX VY E1 E2 E3 [P1 P2] HB RX RY. assert (EG : cv_genus y = cv_genus x) by (unfold cv_genus; congruence).
  assert (HN : forall p k, p < cv_mult y -> k < cv_genus x -> kcube (core_of y) p k = kcb (core_of x) (Sp (b p) (s p)) k /\
     kspec (core_of y) p k = tr_spec t b (b p) (kspec (core_of x) (s p) (kflip (core_of x) (b p) k))).
  { intros p k Hp Hk. destruct (RY p Hp) as [_ HY]. rewrite EG in HY. specialize (HY k Hk). rewrite E3 in Hp. destruct (P1 p Hp) as [S1 _]. destruct (RX (s p) S1) as [HL HX].
    rewrite tr_nth in HY by lia. rewrite HL in HY. change (if time_rev (b p) then cv_genus x - 1 - k else k) with (kflip (core_of x) (b p) k) in HY.
    rewrite HX in HY by (apply (kflip_lt (core_of x)); auto). cbn [option_map fst snd] in HY. injection HY as H1 H2. auto. }
  constructor; auto.
  - intros p Hp. rewrite E3 in Hp. apply P1; auto.
  - intros p Hp. rewrite E3 in Hp. auto.
  - intros p k Hp Hk. apply HN; auto.
  - intros p k Hp Hk. destruct (HN p k Hp Hk) as [_ ->]. rewrite E3 in Hp. destruct (P1 p Hp) as [S1 _]. unfold P_Gauge.up, tr_spec, kstep, bm_mul_sp. cbn [sp_bm sp_pnum].
    set (z := kspec (core_of x) (s p) (kflip (core_of x) (b p) k)). assert (W : wf_spec (cv_dim x) (cv_mult x) z) by (apply kspec_wf; auto; apply (kflip_lt (core_of x)); auto).
    destruct W as [W1 W2]. destruct (P2 _ W2) as [T1 T2]. rewrite T2. f_equal. pose proof (HB _ T1) as WB. pose proof (HB _ Hp) as WP.
    rewrite (mul_assoc (cv_dim x)) by (auto using wf_mul, wf_inv). rewrite (mul_inv_l (cv_dim x)) by auto. apply (mul_id_r (cv_dim x)). auto using wf_mul.
Qed.

Lemma as_map_range {A} m (l : list A) : 1 <= m -> length l = m -> exists f, l = map f (range m).
Proof.
  intros Hm E. destruct l as [|a l0] eqn:EL; [cbn in E; lia|]. rewrite <- EL in *. exists (fun i => nth i l a).
  apply nth_error_eq_map; auto. intros i Hi. apply nth_error_nth'. lia.
Qed.
Section System.
Context (d N m : nat) (Hd : 1 <= d) (HN : 2 <= N) (Hm : 1 <= m).
Notation LP := (point_laws d N (Nat.le_trans 1 2 N (Nat.le_succ_diag_r 1) HN)).
Lemma S2 : 2 <= N ^ d. Proof. apply (G_ge2 d N 1); auto. Qed.
Notation system := (chains_ok point_ops d N m (unit_point d) is_point).
(** the system of chains is within max_cdist *)
Definition near_z (mc : option Z) (z : list (list Z * spec)) : Prop :=
  forall i x y, nth_error z i = Some x -> nth_error z (S i) = Some y -> near mc (fst x) (fst y).
Lemma chain_near mc links z L : good_chain is_point pt_mul d N links None (zl point_ops L z) -> near_z mc z -> good_chain is_point pt_mul d N links mc (zl point_ops L z).
Proof.
  intros [A B C D] HZ. constructor; auto. intros i c l c' l' E1 E2. destruct (D i c l c' l' E1 E2) as (D1 & _). split; auto.
  unfold zl in E1, E2. rewrite nth_error_map in E1, E2. destruct (nth_error z i) as [x|] eqn:X; [|discriminate]. destruct (nth_error z (S i)) as [y|] eqn:Y; [|discriminate].
  cbn in E1, E2. injection E1 as <- _. injection E2 as <- _. apply (HZ i); auto.
Qed.

Lemma sys_valid Zs g : system Zs g -> valid_curve (sys_curve d N m Zs) /\ (forall p, p < m -> length (Zs p) = N ^ d).
Proof.
  intros HS. assert (HP : forall p, p < m -> valid_pattern d N m (Pat (Pr d N (map (fun cs => Some (fst cs)) (Zs p))) (map (fun cs => Some (snd cs)) (Zs p))) /\ length (Zs p) = N ^ d).
  { intros p Hp. destruct (HS p Hp) as (C1 & _ & [C2 C3 _ _] & _). assert (EF : map fst (zl point_ops g (Zs p)) = map fst (Zs p)) by (unfold zl; rewrite map_map; auto).
    assert (C2' : NoDup (map fst (Zs p))) by (rewrite <- EF; exact C2). assert (C3' : forall q, grid_cube d N q <-> In q (map fst (Zs p))) by (intros q; rewrite <- EF; apply C3).
    assert (VP : valid_proto d N (Pr d N (map (fun cs => Some (fst cs)) (Zs p)))).
    { split; [reflexivity|]. split; [reflexivity|]. exists (map fst (Zs p)). cbn [pr_cubes]. rewrite map_map. split; auto. split; auto. intros q. symmetry. apply C3'. }
    pose proof (valid_proto_cubes d N _ VP) as HL. cbn [pr_cubes] in HL. rewrite map_length in HL. split; auto. split; auto. cbn [pat_specs]. split; [rewrite map_length; auto|].
    rewrite Forall_map. eapply Forall_impl; [|exact C1]. cbn. intros x W. eauto. }
  split; [|intros p Hp; apply HP; auto]. unfold valid_curve. rewrite sys_mult. cbn [sys_curve cv_dim cv_div cv_pnum cv_kind cv_pats]. repeat split; auto.
  rewrite Forall_map, Forall_forall. intros p Hp. apply in_seq in Hp. apply HP. lia.
Qed.
Lemma pp_valid gs mc l path : unit_links d gs -> point_path d N gs mc l path -> valid_ppath d path /\ valid_proto d N (pa_proto path) /\ joined_path path.
Proof.
  intros HU PP. assert (X : valid_ppath d path /\ valid_proto d N (pa_proto path)).
  { destruct PP as (HM & (z & HP' & HZ) & HK). pose proof (chain_nodes point_ops true _ N _ _ (point_laws _ N ltac:(lia)) gs HU mc z HZ) as NZ. rewrite Forall_forall in NZ. destruct HP' as (P1 & P2). split.
    - constructor; try rewrite P1; cbn; auto; try lia.
      + rewrite Forall_map, Forall_forall. intros x Hx. exists (fst x). split; auto. apply NZ; auto.
      + rewrite P2, Forall_map, Forall_forall. intros x Hx. apply NZ in Hx. split; apply Hx.
      + rewrite P2, !map_length. auto.
      + rewrite P2. destruct z; [|discriminate]. destruct (mkp_shape point_ops d N [] path) as (_ & _ & NE'); [unfold mkp; rewrite <- P1, <- P2; auto|congruence].
      + rewrite <- P1; auto.
    - rewrite P1. split; auto. split; auto. destruct HZ as [Z1 Z2 _ _]. exists (map fst z). split; [rewrite map_map; auto|]. split; auto. intros q. symmetry. apply Z2. }
  destruct X as [X1 X2]. split; auto. split; auto. pose proof (C33_continuous d N gs mc l path S2 HU PP) as HC. destruct (is_continuous_exact d path X1) as (r & Er & Hr). rewrite Er in HC. injection HC as ->. apply Hr; auto.
Qed.
Lemma F2_nth {A B} (R : A -> B -> Prop) l l' p y : Forall2 R l l' -> nth_error l' p = Some y -> exists x, nth_error l p = Some x /\ R x y.
Proof. intros H. revert p. induction H; intros [|p] E; cbn in *; try discriminate; eauto. injection E as <-. eauto. Qed.
Lemma F2_nth' {A B} (R : A -> B -> Prop) l l' p x : Forall2 R l l' -> nth_error l p = Some x -> exists y, nth_error l' p = Some y /\ R x y.
Proof. intros H. revert p. induction H; intros [|p] E; cbn in *; try discriminate; eauto. injection E as <-. eauto. Qed.
(** the tuples of paths are paths of curves; a fuzzy curve exists *)
Lemma tuple_valid gs mc ps : gs <> [] -> unit_links d gs -> Forall2 (point_path d N gs mc) gs ps -> valid_paths d N ps /\ (forall p, In p ps -> joined_path p).
Proof.
  intros NE HU HP. assert (HA : forall p, In p ps -> valid_ppath d p /\ valid_proto d N (pa_proto p) /\ joined_path p).
  { intros p Hp. apply In_nth_error in Hp. destruct Hp as (i & Hi). destruct (F2_nth _ _ _ _ _ HP Hi) as (l & _ & PP). eapply pp_valid; eauto. }
  split; [|apply HA]. split; auto. split; auto. split; [intros ->; inversion HP; subst; congruence|]. apply Forall_forall. intros p Hp. destruct (HA p Hp) as (A & B & _). auto.
Qed.
Lemma no_group : valid_group d None. Proof. intros g E; discriminate. Qed.
Lemma tuple_fuzzy gs mc ps : gs <> [] -> unit_links d gs -> Forall2 (point_path d N gs mc) gs ps -> exists f, init_from_paths ps None false = Some f.
Proof.
  intros NE HU HP. destruct (tuple_valid gs mc ps NE HU HP) as [HV _]. destruct (init_from_paths ps None false) as [f|] eqn:EI; [eauto|]. exfalso.
  apply (C25_keyerror d N None false ps no_group HV) in EI. destruct EI as (p & k & path & l & E1 & E2 & HF). destruct (F2_nth _ _ _ _ _ HP E1) as (l0 & E0 & (HM & (z & (Z1 & Z2) & HZ) & HK)).
  destruct HZ as [_ _ GI _]. pose proof E2 as E2'. rewrite Z2, nth_error_map in E2. destruct (nth_error z k) as [[c l1]|] eqn:EZ; [|discriminate]. cbn in E2. injection E2 as ->. apply nth_error_In in EZ.
  rewrite Forall_forall in GI. apply GI in EZ. destruct EZ as (lq & b & Hq & W & EQ). cbn in EQ. apply In_nth_error in Hq. destruct Hq as (q & Hq). destruct (F2_nth' _ _ _ _ _ HP Hq) as (other & EO & (_ & _ & EL)).
  apply (HF (Sp b q)). exists path, l, other. split; auto. split; auto. split; auto. split; [split; [exact W|split; discriminate]|]. rewrite EL, EQ. reflexivity.
Qed.
(** a curve with the chains of the paths of a tuple is chosen from its fuzzy curve *)
Lemma sys_chosen Zs g ps f : system Zs g -> (forall i, i < m -> exists p, nth_error ps i = Some p /\ mkp point_ops d N (zl point_ops g (Zs i)) = Some p /\ pa_link p = g i) -> length ps = m ->
  valid_paths d N ps -> init_from_paths ps None false = Some f -> chosen_from f (sys_curve d N m Zs).
Proof.
  intros HS HP HL HV EI. destruct (sys_valid Zs g HS) as [VS LS]. destruct (init_attrs d N None false ps no_group HV f EI) as (A1 & A2 & A3 & A4 & A5 & A6).
  split; [reflexivity|]. cbn [sys_curve cv_dim cv_div cv_pnum cv_pats]. rewrite A1, A2, A3, A4, A5, A6. repeat (split; [reflexivity|]). split; [|split].
  - rewrite map_map. symmetry. apply nth_error_eq_map; [rewrite map_length; auto|]. intros i Hi. destruct (HP i Hi) as (p & E & EM & _). rewrite nth_error_map, E. cbn. f_equal.
    apply mkp_shape in EM. destruct EM as (-> & _). unfold zl. rewrite map_map. reflexivity.
  - rewrite Forall_map, Forall_forall. intros p Hp. apply in_seq in Hp. cbn. rewrite map_length. apply LS. lia.
  - intros p k Hp Hk. rewrite HL in Hp. destruct (nth_error (Zs p) k) as [[q s]|] eqn:EZ; [|apply nth_error_None in EZ; rewrite LS in EZ by auto; lia].
    destruct (init_allowed d N None false ps no_group HV f p k EI) as (R & E1 & _ & E2); [lia|lia|]. exists s, R. split; [|split; auto].
    + unfold get_spec, sys_curve. cbn [cv_pats]. unfold range. rewrite nth_map_range by auto. cbn [pat_specs]. rewrite nth_error_map, EZ. reflexivity.
    + apply E2. destruct (HS p Hp) as (C1 & _). rewrite Forall_forall in C1. destruct (C1 _ (nth_error_In _ _ EZ)) as [W P]. cbn [snd] in W, P. destruct (HP p Hp) as (pa & X1 & X2 & _). destruct (HP _ P) as (pb & Y1 & _ & Y3).
      apply mkp_shape in X2. destruct X2 as (_ & X2 & _). exists pa, (lk_mul pt_mul (sp_bm s) (g (sp_pnum s))), pb. split; auto. split; [rewrite X2; unfold zl; rewrite map_map, nth_error_map, EZ; reflexivity|].
      split; auto. split; [split; [exact W|split; [discriminate|discriminate]]|]. rewrite Y3. reflexivity.
Qed.
Lemma near_tr mc t b b0 z : wf_bm d b0 -> Forall (fun cs => grid_cube d N (fst cs)) z -> near_z mc z -> near_z mc (tr_z N t b b0 z).
Proof.
  intros W HG HZ i x y E1 E2. assert (HI : S i < length z) by (rewrite <- (tr_length N t b b0 z); apply nth_error_Some; congruence). rewrite Forall_forall in HG.
  rewrite tr_nth in E1, E2 by lia. destruct (time_rev b0).
  - destruct (nth_error z (length z - 1 - i)) as [x0|] eqn:X; [|discriminate]. destruct (nth_error z (length z - 1 - S i)) as [y0|] eqn:Y; [|discriminate]. cbn in E1, E2. injection E1 as <-. injection E2 as <-. cbn [fst].
    pose proof (HG _ (nth_error_In _ _ X)) as [L1 _]. pose proof (HG _ (nth_error_In _ _ Y)) as [L2 _]. apply (near_mul d); auto. apply near_sym. apply (HZ (length z - 1 - S i)); auto.
    replace (S (length z - 1 - S i)) with (length z - 1 - i) by lia. auto.
  - destruct (nth_error z i) as [x0|] eqn:X; [|discriminate]. destruct (nth_error z (S i)) as [y0|] eqn:Y; [|discriminate]. cbn in E1, E2. injection E1 as <-. injection E2 as <-. cbn [fst].
    pose proof (HG _ (nth_error_In _ _ X)) as [L1 _]. pose proof (HG _ (nth_error_In _ _ Y)) as [L2 _]. apply (near_mul d); auto. apply (HZ i); auto.
Qed.
(** every system whose gates are the given ones is found among the tuples of paths *)
Lemma sys_covered Zs g mc sres : system Zs g -> (forall p, p < m -> near_z mc (Zs p)) -> let gs := map g (range m) in
  (forall ps, In ps sres -> Forall2 (point_path d N gs mc) gs ps) ->
  (forall qs, Forall2 (point_path d N gs mc) gs qs -> exists ps, In ps sres /\ same_paths d gs qs ps) ->
  exists ps f s t b, In ps sres /\ init_from_paths ps None false = Some f /\ perm_on m s t /\ (forall i, i < m -> wf_bm d (b i)) /\
    valid_curve (sys_curve d N m (fun i => tr_z N t b (b i) (Zs (s i)))) /\ (forall i, i < m -> length (tr_z N t b (b i) (Zs (s i))) = N ^ d) /\
    chosen_from f (sys_curve d N m (fun i => tr_z N t b (b i) (Zs (s i)))).
Proof.
  intros HS HNr gs HSnd HCov. pose proof S2 as H2. assert (UG : unit_links d gs) by exact (chains_V point_ops d N m _ _ H2 _ _ HS).
  assert (LG : length gs = m) by (unfold gs; rewrite map_length; apply seq_length). assert (NG : gs <> []) by (intros E; rewrite E in LG; cbn in LG; lia).
  destruct (fin_choice (fun i q => mkp point_ops d N (zl point_ops g (Zs i)) = Some q /\ point_path d N gs mc (g i) q) (Pa (Pr 0 0 []) [] (Lk [] [])) m) as (q & Hq).
  { intros i Hi. destruct (HS i Hi) as (C1 & (V1 & V2) & C3 & C4). pose proof (chain_near mc _ _ _ C3 (HNr i Hi)) as C3'.
    destruct (chain_path point_ops true d N _ _ (point_laws d N ltac:(lia)) gs UG mc (zl point_ops g (Zs i)) (g i) V1 V2 C3' C4) as [_ (p & Hp)]. exists p. split; auto.
    apply (wanted_point d N gs mc (g i) p H2 UG); [constructor; [split; auto|constructor]|]. apply mkp_path_of in Hp. destruct Hp as (Q1 & Q2). split; auto. exists (zl point_ops g (Zs i)). auto. }
  destruct (HCov (map q (range m))) as (ps & HI & (rs & R1 & R2 & R3)).
  { unfold gs at 2. unfold range. apply Forall2_map_l, Forall2_map_r. assert (HA : Forall (fun i => i < m) (seq 0 m)) by (apply Forall_forall; intros i Hi; apply in_seq in Hi; lia). clear - HA Hq. induction HA; constructor; auto. apply Hq; auto. }
  pose proof (HSnd ps HI) as HP. pose proof (Forall2_length HP) as LPS. destruct (tuple_fuzzy gs mc ps NG UG HP) as (f & EF). destruct (tuple_valid gs mc ps NG UG HP) as (HV & _).
  destruct (as_map_range m rs) as (r & ER); [lia|exact (eq_trans R1 LG)|]. destruct (as_map_range m ps) as (pf & EPS); [lia|exact (eq_trans (eq_sym LPS) LG)|].
  rewrite ER in R2, R3. rewrite EPS in R3. unfold gs in R2, R3. rewrite combine_maps in R2. rewrite !combine_maps in R3. destruct (perm_index m _ _ R3) as (s & t & PO & HIx). pose proof PO as [P1 _].
  assert (HIx' : forall i, i < m -> g i = g (s i) /\ pf i = r (s i)). { intros i Hi. pose proof (HIx i Hi) as E. rewrite nth_map_range in E by auto. injection E as E1 E2. auto. }
  destruct (fin_choice (fun i b => (wf_bm d b /\ pl_mul b (g i) = g i) /\ pa_mul point_ops b (q i) = Some (r i)) (id_map d) m) as (k0 & Hk).
  { intros i Hi. destruct (F2_nth' _ _ _ i (g i, q i) R2) as (y & Y1 & Y2); [apply (nth_map_range m (fun i => (g i, q i))); auto|]. rewrite nth_map_range in Y1 by auto. injection Y1 as <-. exact Y2. }
  set (b := fun i => k0 (s i)). assert (HB : forall i, i < m -> wf_bm d (b i)) by (intros i Hi; apply Hk, P1; auto).
  exists ps, f, s, t, b. split; auto. split; auto. split; auto. split; auto. pose proof (tr_ok point_ops true d N m _ _ (point_laws d N ltac:(lia)) H2 s t b Zs g PO HB HS) as HS'.
  destruct (sys_valid _ _ HS') as [VX LX]. split; [exact VX|]. split; [exact LX|]. apply (sys_chosen _ (tr_l point_ops s b g) ps); auto; [|exact (eq_trans (eq_sym LPS) LG)].
  intros i Hi. destruct (P1 i Hi) as [S1 _]. destruct (HIx' i Hi) as [I1 I2]. destruct (Hk (s i) S1) as [[K1 K2] K3]. exists (pf i). split; [rewrite EPS; apply nth_map_range; auto|].
  destruct (Hq (s i) S1) as [Q1 Q2]. rewrite (tr_zl point_ops true d N m _ _ (point_laws d N ltac:(lia)) s t b (b i) g (Zs (s i)) PO HB (HB i Hi)) by (intros; apply HS; auto).
  split; [rewrite I2, <- K3; symmetry; apply pa_mul_mkp; auto|].
  assert (E0 : nth_error ps i = Some (pf i)) by (rewrite EPS; apply nth_map_range; auto). destruct (F2_nth _ _ _ _ _ HP E0) as (l & E1 & (_ & _ & E2)). unfold gs in E1. rewrite nth_map_range in E1 by auto. injection E1 as <-. rewrite E2.
  unfold tr_l, b. rewrite I1. symmetry. exact K2.
Qed.
End System.

Lemma omap_In {A B} (f : A -> option B) l l' : omap f l = Some l' -> forall b, In b l' <-> exists a, In a l /\ f a = Some b.
Proof.
  intros E. apply omap_rel in E. induction E as [|a b l l' E HF IH]; intros y; cbn; [split; [tauto|intros (? & [] & _)]|]. rewrite IH. split.
  - intros [<-|(x & Hx & Ex)]; eauto.
  - intros (x & [<-|Hx] & Ex); [left; congruence|right; eauto].
Qed.
Section Class.
Context (d N m : nat) (Hd : 1 <= d) (HN : 2 <= N) (Hm : 1 <= m) (mc : option Z).
Lemma gates_klink c gs : valid_curve c -> curve_gates_are c gs -> gs = map (klink c) (range (cv_mult c)).
Proof.
  intros V [L GG]. apply nth_error_eq_map; auto. intros i Hi. destruct (nth_error gs i) as [l|] eqn:E; [|apply nth_error_None in E; lia]. f_equal. apply (is_link_klink c); [lia|]. destruct (GG i l E). split; auto.
Qed.
Lemma klink_gates c : valid_curve c -> curve_gates_are c (map (klink c) (range (cv_mult c))).
Proof.
  intros V. split; [rewrite map_length; apply seq_length|]. intros p l E. assert (Hp : p < cv_mult c).
  { rewrite <- (seq_length (cv_mult c) 0), <- (map_length (klink c)). apply nth_error_Some. intros X. pose proof (eq_trans (eq_sym E) X). discriminate. }
  rewrite (nth_map_range (cv_mult c) (klink c)) in E by auto. injection E as <-. apply (klink_is c V p Hp).
Qed.
Lemma curve_z_near c p : search_curve d N m mc c -> p < m -> near_z mc (curve_z c p).
Proof.
  intros [V D1 D2 D3 K HNr] Hp i x y E1 E2. destruct (nth_pat c (valid_curve_fuzzy c V) p ltac:(lia)) as (pat & EP & _). pose proof (pat_cubes_eq c V p pat EP) as EC.
  assert (Hi : S i < cv_genus c). { rewrite <- (seq_length (cv_genus c) 0), <- (map_length (fun k => (kcube (core_of c) p k, kspec (core_of c) p k))). apply nth_error_Some. unfold curve_z in E2. congruence. }
  unfold curve_z in E1, E2. rewrite nth_error_seq_map in E1 by lia. rewrite nth_error_seq_map in E2 by lia. injection E1 as <-. injection E2 as <-. cbn [fst].
  apply (HNr pat i); [eapply nth_error_In; eauto|rewrite EC; apply (nth_error_seq_map (fun k => Some (kcube (core_of c) p k))); lia|rewrite EC; apply (nth_error_seq_map (fun k => Some (kcube (core_of c) p k))); lia].
Qed.
(** every curve of the class is related by gauges to a curve of one of the fuzzy curves *)
Lemma class_gauges c gs sres : search_curve d N m mc c -> has_gates d c gs ->
  (forall ps, In ps sres -> Forall2 (point_path d N gs mc) gs ps) ->
  (forall qs, Forall2 (point_path d N gs mc) gs qs -> exists ps, In ps sres /\ same_paths d gs qs ps) ->
  exists ps f x x1 s b s' b', In ps sres /\ init_from_paths ps None false = Some f /\ chosen_from f x /\
    (valid_curve x1 /\ cv_mult x1 = m) /\ (valid_curve x /\ cv_mult x = m) /\ gauge c x1 s b /\ gauge x1 x s' b'.
Proof.
  intros HSC (gs0 & gs1 & G1 & G2 & G3) HSnd HCov. pose proof HSC as [V D1 D2 D3 K HNr]. pose proof (S2 d N Hd HN) as H2. pose proof (gates_klink c gs0 V G1) as E0. rewrite D3 in E0.
  destruct (fin_choice (fun i b => wf_bm d b /\ nth_error gs1 i = Some (pl_mul b (klink c i))) (id_map d) m) as (b1 & Hb).
  { intros i Hi. rewrite E0 in G2. destruct (F2_nth' _ _ _ i (klink c i) G2) as (y & Y1 & (b & W & Y2)); [apply nth_map_range; auto|]. exists b. split; auto. congruence. }
  assert (L1 : length gs1 = m) by (rewrite <- (Forall2_length G2), E0, map_length; apply seq_length).
  assert (E1 : gs1 = map (fun i => pl_mul (b1 i) (klink c i)) (range m)) by (apply nth_error_eq_map; auto; intros i Hi; apply Hb; auto).
  rewrite E1 in G3. destruct (perm_index m _ _ G3) as (s & t & PO & HI). pose proof PO as [P1 _].
  set (b := fun i => b1 (s i)). assert (HB : forall i, i < m -> wf_bm d (b i)) by (intros i Hi; apply Hb, P1; auto).
  assert (EG : gs = map (tr_l point_ops s b (klink c)) (range m)). { apply nth_error_eq_map; [rewrite <- (Permutation_length G3), map_length; apply seq_length|]. intros i Hi. rewrite HI by auto. reflexivity. }
  pose proof (curve_sys c V K) as HS. rewrite D1, D2, D3 in HS.
  pose proof (tr_ok point_ops true d N m _ _ (point_laws d N ltac:(lia)) H2 s t b _ _ PO HB HS) as HS1. cbv beta in HS1. set (Zs1 := fun i => tr_z N t b (b i) (curve_z c (s i))) in HS1.
  assert (HN1 : forall p, p < m -> near_z mc (Zs1 p)).
  { intros p Hp. destruct (P1 p Hp) as [S1 _]. apply (near_tr d N m Hd HN Hm); auto; [|apply curve_z_near; auto]. destruct (HS (s p) S1) as (_ & _ & [_ C2 _ _] & _).
    apply Forall_forall. intros x Hx. apply C2. unfold zl. rewrite map_map. apply in_map_iff. exists x. auto. }
  destruct (sys_valid d N m Hd HN Hm Zs1 _ HS1) as [V1 LZ1].
  rewrite EG in HSnd, HCov. destruct (sys_covered d N m Hd HN Hm Zs1 _ mc sres HS1 HN1 HSnd HCov) as (ps & f & s' & t' & b' & I1 & I2 & PO' & HB' & V2 & LZ2 & HCh).
  set (x1 := sys_curve d N m Zs1) in *. assert (EM1 : cv_mult x1 = m) by apply sys_mult.
  assert (R1 : rep x1 Zs1) by (apply rep_sys; auto). assert (GA2 : gauge x1 (sys_curve d N m (fun i => tr_z N t' b' (b' i) (Zs1 (s' i)))) s' b').
  { apply (tr_gauge _ _ s' t' b' Zs1); auto; rewrite ?EM1; auto; [apply sys_mult|]. apply rep_sys; auto. }
  assert (GA1 : gauge c x1 s b).
  { apply (tr_gauge _ _ s t b (curve_z c)); auto; rewrite ?EM1, ?D1, ?D2, ?D3; auto using rep_curve_z. }
  exists ps, f. eexists. exists x1, s, b, s', b'. split; [exact I1|]. split; [exact I2|]. split; [exact HCh|]. split; [auto|]. split; [split; [exact V2|apply sys_mult]|]. split; auto.
Qed.
(** every curve of the class has the dilation of a curve of one of the fuzzy curves *)
Lemma class_covered c gs sres : search_curve d N m mc c -> has_gates d c gs ->
  (forall ps, In ps sres -> Forall2 (point_path d N gs mc) gs ps) ->
  (forall qs, Forall2 (point_path d N gs mc) gs qs -> exists ps, In ps sres /\ same_paths d gs qs ps) ->
  exists ps f x, In ps sres /\ init_from_paths ps None false = Some f /\ chosen_from f x /\
    forall rQ rR M, ratio_ok d rQ rR -> dilation_ge rR x M -> dilation_ge rR c M.
Proof.
  intros HSC HG HSnd HCov. destruct (class_gauges c gs sres HSC HG HSnd HCov) as (ps & f & x & x1 & s & b & s' & b' & I1 & I2 & I3 & (V1 & M1) & (V2 & M2) & GA1 & GA2).
  exists ps, f, x. repeat (split; [assumption|]). intros rQ rR M RO HDx. pose proof (ga_dim _ _ _ _ GA1) as E. pose proof HSC as [V D1 _ _ _ _]. rewrite D1 in E.
  apply (gauge_ge rQ rR c x1 s b); rewrite ?D1; auto. apply (gauge_ge rQ rR x1 x s' b' M); rewrite ?E; auto.
Qed.
(** the curves of the fuzzy curves are in the class *)
Lemma class_sound gs ps f x : gs <> [] -> unit_links d gs -> length gs = m -> Forall2 (point_path d N gs mc) gs ps -> init_from_paths ps None false = Some f -> chosen_from f x ->
  search_curve d N m mc x /\ curve_gates_are x gs /\ has_gates d x gs.
Proof.
  intros NE HU HL HP EI HX. destruct (tuple_valid d N m Hd HN Hm gs mc ps NE HU HP) as (HV & HJ).
  destruct (C26_keeps_paths d N None false ps f x (no_group d) HV EI HX) as (VX & EP). destruct (C26_check d N None false ps f x (no_group d) HV (built_init _ _ _ _ EI) HX) as (_ & HCK). specialize (HCK HJ).
  pose proof (get_paths_eq x VX) as EP'. rewrite EP in EP'. injection EP' as EP'. pose proof (Forall2_length HP) as LPS.
  assert (EM : cv_mult x = m) by (rewrite <- HL; rewrite LPS, EP', map_length; unfold range; rewrite seq_length; auto).
  assert (EN : forall p, p < m -> nth_error ps p = Some (cpath x p)) by (intros p Hp; rewrite EP', nth_error_map; unfold range; rewrite nth_error_seq by lia; auto).
  assert (HPP : forall p, p < m -> point_path d N gs mc (klink x p) (cpath x p) /\ nth_error gs p = Some (klink x p)).
  { intros p Hp. destruct (F2_nth _ _ _ _ _ HP (EN p Hp)) as (l & E1 & PP). pose proof PP as (_ & _ & EK). cbn in EK. subst l. auto. }
  destruct (init_attrs d N None false ps (no_group d) HV f EI) as (A1 & A2 & _). pose proof HX as (_ & B1 & B2 & _).
  assert (GS : curve_gates_are x gs).
  { replace gs with (map (klink x) (range (cv_mult x))); [apply klink_gates; auto|]. symmetry. apply nth_error_eq_map; [congruence|]. intros i Hi. apply HPP. lia. }
  split; [constructor; auto; try congruence|split; auto].
  - intros pat k q q' Hin E1 E2. apply In_nth_error in Hin. destruct Hin as (p & EPt). assert (Hp : p < m) by (rewrite <- EM; apply nth_error_Some; congruence).
    rewrite (pat_proto_eq x VX p pat EPt) in E1, E2. cbn [pr_cubes] in E1, E2. destruct (HPP p Hp) as ((_ & (z & (Z1 & Z2) & [_ _ _ Z6]) & _) & _). apply (f_equal pr_cubes) in Z1. cbn [cpath pa_proto pr_cubes] in Z1.
    rewrite Z1 in E1, E2. rewrite nth_error_map in E1, E2. destruct (nth_error z k) as [[a l]|] eqn:X1; [|discriminate]. destruct (nth_error z (S k)) as [[a' l']|] eqn:X2; [|discriminate]. cbn in E1, E2. injection E1 as ->. injection E2 as ->.
    apply (Z6 k q l q' l'); auto.
  - exists gs, gs. split; auto. split; auto. assert (HD : forall l, In l gs -> pl_dim d l).
    { intros l Hl. unfold unit_links in HU. rewrite Forall_forall in HU. destruct (HU l Hl) as ((U1 & _) & (U2 & _)). split; auto. }
    clear - HD. induction gs as [|l gs IH]; constructor; [|apply IH; intros; apply HD; cbn; auto]. exists (id_map d). split; [apply wf_id|]. symmetry. destruct (HD l (or_introl eq_refl)) as [D1 D2]. apply (pl_mul_id d); auto.
Qed.

(** the fuzzy curves of one tuple of gates *)
Context (hash : future_t (link (list Qc)) -> Z) (HH : hash_ok hash) (sm : nat) (fm : option nat).
Definition pc_spec (gs : list plink) (cs : list curve) : Prop :=
  (forall f, In f cs -> joined_input d f /\ forall x, chosen_from f x -> search_curve d N m mc x /\ curve_gates_are x gs /\ has_gates d x gs) /\
  (forall c, search_curve d N m mc c -> has_gates d c gs -> exists f x, In f cs /\ chosen_from f x /\
     forall rQ rR M, ratio_ok d rQ rR -> dilation_ge rR x M -> dilation_ge rR c M).
Lemma pcurves_spec gs : length gs = m -> unit_links d gs ->
  exists F cs, (forall fuel, F <= fuel -> gates_pcurves d N mc (M_Gates.SP hash fuel sm fm) gs = Some cs) /\ pc_spec gs cs.
Proof.
  intros HL HU. assert (NE : gs <> []) by (intros ->; cbn in HL; lia). pose proof (S2 d N Hd HN) as H2.
  destruct (C33_tuples d N gs mc gs H2 HU HU) as (g & EG & HT). destruct (HT hash sm fm HH) as (F & res & sres & A & _ & (ND & B & C)).
  assert (EL : pg_links g = gs).
  { unfold mk_generator in EG. destruct (init_exit2next _ _ _ _ _ _) in EG; [|discriminate]. cbn in EG. injection EG as <-. reflexivity. }
  assert (EX : exists cs, omap (fun ps => init_from_paths ps None false) sres = Some cs). { apply omap_some_all. intros ps Hps. apply (tuple_fuzzy d N m Hd HN Hm gs mc); auto. }
  destruct EX as (cs & ECS). exists F, cs. split.
  - intros fuel Hf. unfold gates_pcurves. rewrite EG. cbn [obind sp_hash sp_fuel sp_start sp_finish]. destruct (A fuel Hf) as [_ A2].
    replace (generate_paths point_ops true g hash fuel sm fm None None true) with (Some sres); [exact ECS|]. rewrite <- A2. unfold generate_paths, restrictions. rewrite EL. reflexivity.
  - assert (HIn : forall f, In f cs <-> exists ps, In ps sres /\ init_from_paths ps None false = Some f) by (intros f; exact (omap_In _ _ _ ECS f)). split.
    + intros f Hf. apply HIn in Hf. destruct Hf as (ps & Hps & EI). split; [|intros x HX; apply (class_sound gs ps f x); auto].
      exists N, None, false, ps. split; [apply no_group|]. split; [apply (tuple_valid d N m Hd HN Hm gs mc ps); auto|]. split; [apply (tuple_valid d N m Hd HN Hm gs mc ps); auto|]. apply built_init; auto.
    + intros c HC HG. destruct (class_covered c gs sres HC HG B) as (ps & f & x & I1 & I2 & I3 & I4).
      { intros qs Hqs. destruct (C qs Hqs) as (ps & (P1 & P2) & _). eauto. }
      exists f, x. split; [apply HIn; eauto|]. auto.
Qed.
End Class.
