(** bisect_dilation_fuzzy decides (C38). *)
From Verif Require Import Py L_Py L_Qc L_R M_BaseMaps S_BaseMaps L_BaseMaps P_Actions M_Subsets S_Subsets P_Subsets P_Facets
  M_Paths M_Curves M_Utils M_Heap M_Sat M_Dilation S_Heap P_Heap S_Utils S_Curves S_Paths S_Fuzzy S_Sat P_CurveAct L_Digits P_Core P_Bridge P_Cont P_Subdiv P_Faces P_FuzzyInit P_FuzzyMain P_FuzzyOps P_FuzzyBuilt
  S_Ratio S_Dilation P_Junctions P_JuncLoop P_JuncMain P_Templates P_TemplJunc P_SatCurve P_DilGeo P_DilRatio P_DilBounds P_DilPieces P_DilTree P_DilOps P_DilCreate P_DilSpec.
From Coq Require Import Reals Lra Permutation Classical_Prop.
Local Open Scope nat_scope.

Lemma refines_consistent c0 c x : refines c0 c -> chosen_from c0 x -> consistent c x -> chosen_from c x.
Proof.
  induction 1 as [|c p k s c' HR IH Hp Hk ES]; auto. intros HX HC. apply (specify_chosen c p k s c' x); auto. destruct (specify_keeps c p k s c' ES) as (_ & _ & _ & _ & _ & _ & F7).
  assert (E : get_spec c' p k = Some (Some s)) by (rewrite F7, !Nat.eqb_refl; auto). split; [|apply HC; auto]. apply IH; auto.
  intros p' k' s' E'. apply HC. destruct (specify_sub c p k s c' ES) as (_ & _ & _ & _ & CN). apply CN. auto.
Qed.
Lemma jt_key j j' : jkey j = jkey j' -> jt j = jt j' /\ j_dt j = j_dt j'.
Proof. destruct j, j'. unfold jkey, jt. cbn. intros E. injection E as <- <- <- <-. auto. Qed.
Lemma has_cfg x j : valid_curve x -> has_junction x j -> cfg (core_of x) (jt j) (j_dt j).
Proof.
  intros HC (j' & Hj & E). change (jkey j' = jkey j) in E. destruct (jt_key _ _ E) as [<- <-]. destruct Hj as [Hj|(fuel & js & EJ & Hj)].
  - unfold gen_auto_junctions in Hj. apply in_map_iff in Hj as (p & <- & Hp). unfold range in Hp. apply in_seq in Hp. right. split; auto. exists p. split; auto. cbn [km core_of]. lia.
  - pose proof (gen_spec x HC fuel) as GS. rewrite EJ in GS. cbn [fst snd] in GS. destruct GS as (G1 & _). rewrite Forall_forall in G1. destruct (G1 j' Hj) as (NM & p & cs & cs' & Hp & Hc & _ & He). left. split; [apply NM|]. exists p, cs, cs'. auto.
Qed.
Lemma built_kind d N group dtr paths c : valid_group d group -> valid_paths d N paths -> built group dtr paths c -> cv_kind c <> KCurve.
Proof.
  intros HG HP. induction 1 as [c E|c b p HB IH Hb Hp|c p k s c' HB IH E].
  - destruct (P_FuzzyInit.init_ok d N group dtr paths HG HP c E) as (_ & _ & _ & _ & f & -> & _). discriminate.
  - unfold cv_mul_sp. rewrite cv_mul_eq. cbn [cv_kind]. destruct (cv_kind c); cbn; congruence.
  - destruct (specify_keeps c p k s c' E) as (-> & _). auto.
Qed.
Lemma dilation_le_pnum rR c n M : dilation_le rR (cv_with_pnum c n) M <-> dilation_le rR c M.
Proof. split; intros H; exact H. Qed.
Lemma dilation_ge_pnum rR c n M : dilation_ge rR (cv_with_pnum c n) M <-> dilation_ge rR c M.
Proof. split; intros H; exact H. Qed.

Section Bisect.
Context (d N : nat) (group : option (list base_map)) (dtr : bool) (paths : list (path (list Qc))).
Context (HG : valid_group d group) (HP : valid_paths d N paths) (c : curve) (HB : built group dtr paths c).
Context (ratio : ratio_func) (rR : list R -> R -> R) (RO : ratio_ok (cv_dim c) (ratio (cv_dim c)) rR).
Context (hq : heap_impl bpair) (is_heap : list (node bpair) -> Prop) (HH : IH_ok hq is_heap).
Let HD : dcls c := built_estimable d N group dtr paths c HG HP HB.
Lemma x_valid x : chosen_from c x -> valid_curve x. Proof. apply dcls_chosen. exact HD. Qed.

Section Templates.
Context (fuelT : nat) (T : list (junction * list curve)) (ET : get_junction_templates fuelT c = Some T).
Notation js := (map fst T).
Lemma js_ok j : In j js -> wft (core_of c) (jt j) /\ j_dt j = 1%Z.
Proof.
  intros Hj. apply in_map_iff in Hj as ([j0 l] & E & Hin). cbn in E. subst j0. pose proof (templates_dt fuelT c T ET) as DT. rewrite Forall_forall in DT. split; [|apply (DT _ Hin)].
  destruct (templates_real d N group dtr paths HG HP c HB fuelT T j l ET Hin) as (x & cv & HX & Hcv & HC). destruct (templates_x_end d N group dtr paths HG HP c HB fuelT T x ET HX) as (f0 & HF0). specialize (HF0 f0 (le_n _)).
  destruct (gen_regular_junctions f0 x) as [js0 e] eqn:EJ. cbn in HF0. subst e. pose proof (x_valid x HX) as VX. pose proof (T_dget d N group dtr paths HG HP c HB fuelT T ET j l Hin) as ED.
  destruct (proj2 (templates_exact d N group dtr paths HG HP c HB fuelT T ET x f0 js0 HX EJ j)) as (j' & J1 & J2); [exists l, cv; auto|].
  pose proof (gen_spec x VX f0) as GS. rewrite EJ in GS. cbn [fst snd] in GS. destruct GS as (G1 & _). rewrite Forall_forall in G1. pose proof (genuine_wf x VX j' (G1 j' J1)) as W.
  destruct (jt_key _ _ J2) as [<- _]. pose proof (chosen_sub c x HD HX) as (E1 & E2 & E3 & _). revert W. destruct (jt j') as [[X Y] v]. unfold wft, wfS. cbn [kd km core_of]. rewrite E1, E3. auto.
Qed.
Lemma js_regular fuel js' : regular_junctions fuel c = Some js' -> exists T', get_junction_templates fuel c = Some T' /\ js' = map fst T'.
Proof.
  unfold regular_junctions. pose proof (built_kind d N group dtr paths c HG HP HB) as NK. destruct (cv_kind c); try (exfalso; apply NK; reflexivity); destruct (get_junction_templates fuel c) as [T'|]; try discriminate; intros E; injection E as <-; eauto.
Qed.
Lemma js_cover x : chosen_from c x -> forall p cs cs', p < cv_mult x -> consec (core_of x) cs cs' -> exists j, In j js /\ has_junction x j /\ jeq (cv_dim x) (kpair (core_of x) p cs cs') (jt j).
Proof.
  intros HX p cs cs' Hp Hc. destruct (templates_x_end d N group dtr paths HG HP c HB fuelT T x ET HX) as (f0 & HF0). specialize (HF0 f0 (le_n _)).
  destruct (gen_regular_junctions f0 x) as [js0 e] eqn:EJ. cbn in HF0. subst e. pose proof (gen_spec x (x_valid x HX) f0) as GS. rewrite EJ in GS. cbn [fst snd] in GS. destruct GS as (_ & _ & _ & G4).
  destruct (G4 eq_refl p cs cs' Hp Hc) as (j & Hj & He). destruct (proj1 (templates_exact d N group dtr paths HG HP c HB fuelT T ET x f0 js0 HX EJ j)) as (cvs & cv & D1 & _); [eauto|].
  apply dget_T in D1 as (j' & J1 & J2). exists j'. split; [apply in_map_iff; exists (j', cvs); auto|]. split; [exists j; split; [right; eauto|symmetry; exact J1]|]. rewrite (proj1 (jt_key _ _ J1)). auto.
Qed.
Section Run.
Context (good bad : Qc).
Notation AJ := (all_juncs c js).
Notation tree_ok := (tree_ok rR c AJ is_heap (Some bad) false).
Notation item_ok := (item_ok rR c AJ).
Notation handled := (handled rR).
Let JW : forall j, AJ j -> wft (core_of c) (jt j) := juncs_wft c js js_ok.
Lemma autos_x x : chosen_from c x -> gen_auto_junctions x = gen_auto_junctions c.
Proof. intros HX. destruct (chosen_genus c x HX) as (_ & E1 & E2 & _). unfold gen_auto_junctions. rewrite E1, E2. auto. Qed.
Lemma item_dil i x : item_ok i -> badb bp_lo (Some bad) i = true -> chosen_from c x -> consistent (pp_curve (bp_pair i)) x -> has_junction x (pp_junc (bp_pair i)) -> dilation_ge rR x (qR bad).
Proof.
  intros [HPi HBi] EB HX HC HJ. pose proof HPi as (HR & Hj & P1 & P2 & _). pose proof (refines_consistent c _ x HR HX HC) as HXi. pose proof (x_valid x HX) as VX. pose proof (core_of_full x (valid_curve_fuzzy x VX)) as HF.
  destruct (HBi x HXi) as (B1 & (s & u & t & w & HQ & HL) & _). destruct (B1 _ _ _ _ HQ) as [Hlt _].
  pose proof (refines_dcls c _ HD HR) as HDi. pose proof (chosen_sub _ x HDi HXi) as HS. pose proof (chosen_sub c x HD HX) as HS0.
  pose proof (piece_sub _ x _ _ HS P1) as (_ & (_ & _ & W1 & _) & _). pose proof (piece_sub _ x _ _ HS P2) as (_ & (_ & _ & W2 & _) & _).
  pose proof (wft_sub c x _ HS0 (JW _ Hj)) as WJ.
  assert (HN : kq (core_of x) (jt (pp_junc (bp_pair i))) [] [] s u t w).
  { exact (kq_up (core_of x) HF _ _ _ s u t w WJ (wfc_flip (core_of x) (sp_bm (j_spec1 (pp_junc (bp_pair i)))) _ W1) (wfc_flip (core_of x) (sp_bm (j_spec2 (pp_junc (bp_pair i)))) _ W2) HQ). }
  assert (ROx : ratio_ok (kd (core_of x)) (ratio (cv_dim c)) rR) by (cbn [kd core_of]; rewrite (proj1 HS0); auto).
  pose proof (cfg_real (core_of x) HF _ rR ROx _ _ s u t w (has_cfg x _ VX HJ) HN Hlt) as (p & s' & t' & u' & w' & Hp & A1 & A2 & A3 & A4).
  exists p, s', t', u', w'. split; auto. split; [apply (graph_pattern x VX); auto|]. split; [apply (graph_pattern x VX); auto|]. split; auto. cbn [kd core_of] in A4. rewrite A4.
  unfold badb in EB. apply qleb_ok in EB. apply qR_le in EB. unfold jrho in HL. unfold jt in *. cbn [snd] in *. lra.
Qed.
Definition covered (t : tree) (forb : list (junction * curve)) x j s u t0 w : Prop := handled t x j s u t0 w \/ exists f, In (j, f) forb /\ consistent f x.
Definition covers (t : tree) (forb : list (junction * curve)) : Prop := forall x p s u t0 w, chosen_from c x -> p < cv_mult x ->
  kgraph (core_of x) (Sp (id_map (cv_dim x)) p) s u -> kgraph (core_of x) (Sp (id_map (cv_dim x)) p) t0 w -> (s < t0)%R ->
  exists j s' u' t' w', has_junction x j /\ covered t forb x j s' u' t' w' /\ jrho rR x j s' u' t' w' = rR (diffs (cv_dim x) u w) (t0 - s)%R.
Definition forb_ok (forb : list (junction * curve)) : Prop := forall j f x, In (j, f) forb -> chosen_from c x -> consistent f x -> has_junction x j -> dilation_ge rR x (qR bad).
Definition binv (t : tree) (forb : list (junction * curve)) : Prop := tree_ok t /\ bh_good_thr t = Some good /\ covers t forb /\ forb_ok forb.
Lemma forbid_inv t a0 forb : binv t forb -> exists t' forb', forbid t (forbid_all a0 forb) = (t', forbid_all a0 forb') /\ binv t' forb' /\ bh_bad t' = [] /\ bh_items t' = bh_items t.
Proof.
  intros ((T1 & T2 & T3 & T4 & T5) & Eg & HC & HF). unfold forbid, bh_pop_bad. set (t' := BH _ _ _ _ _ _ _). set (nw := map (fun i => (pp_junc (bp_pair i), pp_curve (bp_pair i))) (bh_bad t)).
  exists t', (forb ++ nw). assert (EA : forall l a, fold_left (fun a i => add_forbid a (pp_junc (bp_pair i)) (pp_curve (bp_pair i))) l a = forbid_all a (map (fun i => (pp_junc (bp_pair i), pp_curve (bp_pair i))) l)) by (induction l as [|i l IH]; intros a; cbn; auto; apply IH).
  split; [rewrite EA; unfold forbid_all, nw; rewrite fold_left_app; auto|].
  split; [|split; reflexivity]. split; [|split; [exact Eg|split]].
  - split; [exact T1|]. split; [exact T2|]. split; [exact T3|]. split; [|intros i []]. intros i [H|[[]|H]]; apply T4; auto.
  - intros x p s u t0 w HX Hp HA HB0 Hst. destruct (HC x p s u t0 w HX Hp HA HB0 Hst) as (j & s' & u' & t1 & w' & Hj & Hcov & ER). exists j, s', u', t1, w'. split; auto. split; auto.
    destruct Hcov as [[Hg|(i & [Hi|Hi] & Hh)]|(f & Hf & Hc)].
    + left. left. exact Hg.
    + left. right. exists i. split; auto.
    + right. destruct Hh as (<- & Hxi & _). exists (pp_curve (bp_pair i)). split; [apply in_or_app; right; apply in_map_iff; eauto|].
      destruct (T4 i (or_intror (or_introl Hi))) as [HPi _]. apply chosen_consistent; auto. eapply refines_dcls; [exact HD|apply HPi].
    + right. exists f. split; auto. apply in_or_app; auto.
  - intros j f x Hin HX Hc Hj. apply in_app_or in Hin as [Hin|Hin]; [eapply HF; eauto|]. apply in_map_iff in Hin as (i & E & Hi). injection E as <- <-. apply (item_dil i); auto.
Qed.
Lemma divide_inv t forb : binv t forb -> bh_items t <> [] -> exists t', divide_tree ratio hq None t = Some t' /\ binv t' forb.
Proof.
  intros (H1 & Eg & HC & HF) NE. destruct (divide_tree_ok ratio rR c HD RO AJ JW None I hq is_heap HH (Some bad) false t H1 NE) as (t' & E & A1 & A2 & _ & A4 & _).
  exists t'. split; auto. split; auto. split; [congruence|]. split; auto. intros x p s u t0 w HX Hp HA HB0 Hst. destruct (HC x p s u t0 w HX Hp HA HB0 Hst) as (j & s' & u' & t1 & w' & Hj & Hcov & ER).
  exists j, s', u', t1, w'. split; auto. split; auto. destruct Hcov as [Hcov|Hcov]; [left; auto|right; auto].
Qed.
(** the end of the search *)
Lemma good_end t forb y : binv t forb -> bh_items t = [] -> bh_bad t = [] -> chosen_from c y -> avoids y forb -> dilation_le rR y (qR good).
Proof.
  intros (H1 & Eg & HC & HF) EI EB HY HA p s t0 u w Hp HA1 HB1 Hst. pose proof (x_valid y HY) as VY. apply (graph_pattern y VY) in HA1, HB1; auto. destruct (HC y p s u t0 w HY Hp HA1 HB1 Hst) as (j & s' & u' & t' & w' & Hj & Hcov & ER).
  rewrite <- ER. destruct Hcov as [[(g & Eg' & Hg)|(i & Hi & _)]|(f & Hf & Hc)].
  - assert (g = good) by congruence. subst g. exact Hg.
  - rewrite EI, EB in Hi. destruct Hi as [[]|[]].
  - exfalso. apply (HA j f Hf Hc Hj).
Qed.
Lemma bad_end forb : forb_ok forb -> (forall x, chosen_from c x -> ~ avoids x forb) -> forall x, chosen_from c x -> dilation_ge rR x (qR bad).
Proof.
  intros HF HN x HX. specialize (HN x HX). apply NNPP. intros ND. apply HN. intros j f Hin HC HJ. apply ND. eapply HF; eauto.
Qed.
Context (fuelA : nat) (a0 : adapter) (HL : ad_load fuelA c = Some a0) (solver : sat_solver) (HS : sat_ok solver) (sched : Z -> Z) (max_iter : option Z).
Definition decided (r : bisect_result) : Prop := match r with
  | BFound x => exists y, chosen_from c y /\ x = pattern_curve y 0 /\ dilation_le rR x (qR good)
  | BNone => forall x, chosen_from c x -> dilation_ge rR x (qR bad)
  | _ => True end.
Lemma loop_decides fuel : forall t forb n k call, binv t forb -> bh_bad t = [] -> decided (fst (bisect_loop ratio hq fuel solver sched max_iter t (forbid_all a0 forb) n k call)) /\
  (forall m, max_iter = Some m -> (m < n + Z.of_nat fuel)%Z -> 1 <= fuel -> fst (bisect_loop ratio hq fuel solver sched max_iter t (forbid_all a0 forb) n k call) <> BError).
Proof.
  assert (FIN : forall t forb call, binv t forb -> bh_items t = [] -> bh_bad t = [] -> decided (fst (finish solver (forbid_all a0 forb) call)) /\ fst (finish solver (forbid_all a0 forb) call) <> BError).
  { intros t forb call HI EI EB. unfold finish. cbn [fst]. pose proof (solve_exact d N group dtr paths HG HP c HB fuelA a0 HL forb solver call HS) as SE. destruct (ad_solve solver call (forbid_all a0 forb)) as [mm|].
    - destruct SE as (y & E & HY & HA & _). rewrite E. split; [|discriminate]. exists y. split; auto. split; auto. apply dilation_le_pnum. eapply good_end; eauto.
    - split; [|discriminate]. intros x HX. apply (bad_end forb); auto. apply HI. }
  induction fuel as [|fuel IH]; intros t forb n k call HI EB; cbn [bisect_loop].
  - destruct (bh_items t) as [|i0 l] eqn:EI; [destruct (FIN t forb call HI EI EB); auto|]. cbn [fst]. split; [exact I|]. intros m Em Hm Hf. lia.
  - destruct (bh_items t) as [|i0 l] eqn:EI; [destruct (FIN t forb call HI EI EB); auto|]. destruct (match max_iter with Some m => _ | None => false end) eqn:EM; [split; [exact I|discriminate]|].
    destruct (divide_inv t forb HI) as (t1 & E1 & HI1); [congruence|]. rewrite E1. destruct (forbid_inv t1 a0 forb HI1) as (t2 & forb2 & E2 & HI2 & EB2 & _). rewrite E2.
    destruct (n + 1 <? k)%Z.
    + destruct (IH t2 forb2 (n + 1)%Z k call HI2 EB2) as [A1 A2]. split; auto. intros m Em Hm _. rewrite Em in EM. apply Z.ltb_ge in EM. apply (A2 m); auto; lia.
    + pose proof (solve_exact d N group dtr paths HG HP c HB fuelA a0 HL forb2 solver call HS) as SE. destruct (ad_solve solver call (forbid_all a0 forb2)) as [mm|].
      * destruct (IH t2 forb2 (n + 1)%Z (sched k) (S call) HI2 EB2) as [A1 A2]. split; auto. intros m Em Hm _. rewrite Em in EM. apply Z.ltb_ge in EM. apply (A2 m); auto; lia.
      * cbn [fst]. split; [|discriminate]. intros x HX. apply (bad_end forb2); auto. apply HI2.
Qed.
End Run.
(** the initial tree *)
Notation AJ := (all_juncs c js).
Let JW : forall j, AJ j -> wft (core_of c) (jt j) := juncs_wft c js js_ok.
Definition covers0 (t : tree) : Prop := forall x p s u t0 w, chosen_from c x -> p < cv_mult x ->
  kgraph (core_of x) (Sp (id_map (cv_dim x)) p) s u -> kgraph (core_of x) (Sp (id_map (cv_dim x)) p) t0 w -> (s < t0)%R ->
  exists j s' u' t' w', has_junction x j /\ handled rR t x j s' u' t' w' /\ jrho rR x j s' u' t' w' = rR (diffs (cv_dim x) u w) (t0 - s)%R.
Lemma create_init g b : exists t, create_tree ratio hq fuelT c g b false None = Some t /\ tree_ok rR c AJ is_heap b false t /\ bh_good_thr t = g /\ bh_bad_thr t = b /\ bh_keep t = false /\ covers0 t.
Proof.
  assert (EJR : regular_junctions fuelT c = Some js).
  { unfold regular_junctions. rewrite ET. pose proof (built_kind d N group dtr paths c HG HP HB) as NK. destruct (cv_kind c); auto. exfalso. apply NK. reflexivity. }
  destruct (create_ok ratio rR c HD RO js js_ok None I hq is_heap HH b false fuelT EJR g) as (t & E & A1 & A2 & _ & A4). exists t. split; auto. split; auto. split; auto.
  split; [apply A1|]. split; [apply A1|]. intros x p s u t0 w HX Hp HA HB0 Hst.
  destruct (create_covers ratio rR c HD RO js js_ok t x (has_junction x) HX) with (p := p) (s := s) (u := u) (t0 := t0) (w := w) as (j & s' & u' & t' & w' & Hj & Hh & ER); auto.
  - intros j k1 k2 s' u' t' w' Hin HQ. eapply A4; eauto.
  - intros q cs cs' Hq Hc. apply js_cover; auto.
  - exists j, s', u', t', w'. split; auto. destruct Hj as [Hj|[_ Hj]]; auto. exists j. split; auto. left. rewrite (autos_x x HX). exact Hj.
Qed.
Lemma copy_init t g b : tree_ok rR c AJ is_heap None false t -> bh_good_thr t = None -> covers0 t ->
  exists t', bh_copy bp_lo bp_up hq t g b = Some t' /\ tree_ok rR c AJ is_heap b false t' /\ bh_good_thr t' = g /\ covers0 t'.
Proof.
  intros HT Eg HC. pose proof HT as ((T1 & T1d & T1b & T1c) & T2 & T3 & T4 & T5).
  assert (EXT : forall l t1, tree_ok rR c AJ is_heap b false t1 -> (forall i, In i l -> item_ok rR c AJ i) -> let t2 := bh_extend bp_lo bp_up hq t1 l in
    tree_ok rR c AJ is_heap b false t2 /\ bh_good_thr t2 = bh_good_thr t1 /\ (forall x j s u t0 w, handled rR t1 x j s u t0 w -> handled rR t2 x j s u t0 w) /\ (forall i x j s u t0 w, In i l -> holds i x j s u t0 w -> handled rR t2 x j s u t0 w)).
  { induction l as [|i l IH]; intros t1 H1 Hl; cbn [bh_extend fold_left].
    - split; auto. split; auto. split; auto. intros i x j s u t0 w [].
    - destruct (push_item rR c AJ hq is_heap HH b false t1 i H1 (Hl i (or_introl eq_refl))) as (B1 & B2 & _ & _ & B5 & B6 & _).
      destruct (IH _ B1 (fun k Hk => Hl k (or_intror Hk))) as (C1 & C2 & C3 & C4). split; [exact C1|]. split; [rewrite <- B2; exact C2|]. split; [intros; apply C3; auto|].
      intros k x j s u t0 w [<-|Hk] Hh; [apply C3, B6; auto|apply (C4 k); auto]. }
  assert (EC : bh_copy bp_lo bp_up hq t g b = Some (bh_extend bp_lo bp_up hq (bh_new g b false) (bh_items t))).
  { unfold bh_copy. rewrite Eg, T1b, T1c. auto. }
  destruct (EXT (bh_items t) (bh_new g b false) (new_ok rR c AJ hq is_heap HH b false g)) as (C1 & C2 & C3 & C4); [intros i Hi; apply T4; auto|].
  eexists. split; [exact EC|]. split; auto. split; auto. intros x p s u t0 w HX Hp HA HB0 Hst. destruct (HC x p s u t0 w HX Hp HA HB0 Hst) as (j & s' & u' & t' & w' & Hj & Hh & ER). exists j, s', u', t', w'. split; auto. split; auto.
  destruct Hh as [(g0 & E0 & _)|(i & [Hi|Hi] & Hh)]; [congruence|apply (C4 i); auto|]. specialize (T5 i Hi). discriminate.
Qed.
Lemma init_binv good bad t : tree_ok rR c AJ is_heap (Some bad) false t -> bh_good_thr t = Some good -> covers0 t -> binv good bad t [].
Proof.
  intros H1 H2 H3. split; auto. split; auto. split; [|intros j f x []]. intros x p s u t0 w HX Hp HA HB0 Hst. destruct (H3 x p s u t0 w HX Hp HA HB0 Hst) as (j & s' & u' & t' & w' & Hj & Hh & ER).
  exists j, s', u', t', w'. split; auto. split; auto. left. auto.
Qed.
End Templates.
(** C38 *)
Notation init_tree_of := (cached_tree ratio hq c). Notation init_adapter_of := (cached_adapter c).
Theorem bisect_decides fuel solver sched max_iter good bad it ia call : sat_ok solver -> init_tree_of it -> init_adapter_of ia ->
  decided good bad (fst (bisect_dilation_fuzzy ratio hq fuel solver sched max_iter c good bad it ia call)) /\
  (forall m, max_iter = Some m -> (m < Z.of_nat fuel)%Z -> 1 <= fuel -> (it = None -> get_junction_templates fuel c <> None) -> (ia = None -> ad_load fuel c <> None) ->
    fst (bisect_dilation_fuzzy ratio hq fuel solver sched max_iter c good bad it ia call) <> BError).
Proof.
  intros HS Hit Hia. unfold bisect_dilation_fuzzy.
  set (ot := match it with None => create_tree ratio hq fuel c (Some good) (Some bad) false None | Some t => bh_copy bp_lo bp_up hq t (Some good) (Some bad) end).
  set (oa := match ia with None => ad_load fuel c | Some a => Some (ad_copy a) end).
  assert (TR : (ot = None /\ it = None /\ get_junction_templates fuel c = None) \/ exists t, ot = Some t /\ exists f T, get_junction_templates f c = Some T /\ binv T good bad t []).
  { destruct it as [t|]; cbn in ot.
    - right. destruct (Hit t eq_refl) as (f & Ef). assert (exists js', regular_junctions f c = Some js') as (js' & EJ). { unfold create_tree in Ef. destruct (regular_junctions f c); [eauto|discriminate]. }
      apply js_regular in EJ as (T & ET & _). destruct (create_init f T ET None None) as (t1 & E1 & A1 & A2 & A3 & A4 & A5). assert (t1 = t) by congruence. subst t1.
      destruct (copy_init T t (Some good) (Some bad) A1 A2 A5) as (t' & E' & B1 & B2 & B3). exists t'. split; auto. exists f, T. split; auto. apply init_binv; auto.
    - destruct (get_junction_templates fuel c) as [T|] eqn:ET.
      + right. destruct (create_init fuel T ET (Some good) (Some bad)) as (t1 & E1 & A1 & A2 & A3 & A4 & A5). exists t1. split; auto. exists fuel, T. split; auto. apply init_binv; auto.
      + left. split; auto. unfold ot, create_tree. destruct (regular_junctions fuel c) as [js|] eqn:EJ; auto. apply js_regular in EJ as (T & ET' & _). congruence. }
  assert (AD : (oa = None /\ ia = None /\ ad_load fuel c = None) \/ exists a, oa = Some a /\ exists f, ad_load f c = Some a).
  { destruct ia as [a|]; cbn in oa.
    - right. destruct (Hia a eq_refl) as (f & Ef). exists a. split; [unfold oa, ad_copy; destruct a; auto|eauto].
    - destruct (ad_load fuel c) as [a|] eqn:EA; [right; exists a; split; [reflexivity|exists fuel; exact EA]|left; auto]. }
  destruct TR as [(-> & E1 & E2)|(t & -> & f & T & ET & HI)]. { cbn [fst]. split; [exact I|]. intros m _ _ _ H _. exfalso. apply H; auto. }
  destruct AD as [(-> & E1 & E2)|(a & -> & fa & EA)]. { cbn [fst]. split; [exact I|]. intros m _ _ _ _ H. exfalso. apply H; auto. }
  change a with (forbid_all a []) at 1 2. destruct (forbid_inv f T ET good bad t a [] HI) as (t1 & forb & EF & HI1 & EB & _). rewrite EF.
  destruct (loop_decides f T ET good bad fa a EA solver HS sched max_iter fuel t1 forb 0%Z 1%Z call HI1 EB) as [A1 A2]. split; auto. intros m Em Hm Hf _ _. apply (A2 m); auto.
Qed.
End Bisect.
Section Total.
Context (d N : nat) (group : option (list base_map)) (dtr : bool) (paths : list (path (list Qc))).
Context (HG : valid_group d group) (HP : valid_paths d N paths) (c : curve) (HB : built group dtr paths c).
Lemma load_total fuel : get_junction_templates fuel c <> None -> ad_load fuel c <> None.
Proof.
  intros HT. unfold ad_load. destruct (omap_some_all (fun pc => option_map (map (VSpec (fst pc) (snd pc))) (gen_allowed_specs c (fst pc) (snd pc))) (list_prod (range (cv_mult c)) (range (cv_genus c)))) as (vs & ->).
  - intros [p k] Hin. apply in_prod_iff in Hin. unfold range in Hin. rewrite !in_seq in Hin. destruct (built_good d N group dtr paths HG HP c HB) as (_ & _ & _ & _ & _ & _ & A). cbn [fst snd]. destruct (A p k) as (l & -> & _); [lia|lia|]. cbn. eauto.
  - destruct (get_junction_templates fuel c); [discriminate|congruence].
Qed.
Lemma templates_fuel : (forall p, In p paths -> joined_path p) -> exists fuel0, forall fuel, fuel0 <= fuel -> get_junction_templates fuel c <> None /\ ad_load fuel c <> None.
Proof.
  intros HJ. destruct (templates_end d N group dtr paths HG HP c HB HJ) as (f0 & T & H). exists f0. intros fuel Hf. assert (E : get_junction_templates fuel c <> None) by (rewrite (H fuel Hf); discriminate). split; auto. apply load_total. auto.
Qed.
End Total.
