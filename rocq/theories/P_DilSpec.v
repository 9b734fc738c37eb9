(** Pieces and bounds in the vocabulary of the specification. *)
From Verif Require Import Py L_Py L_Qc L_R M_BaseMaps S_BaseMaps L_BaseMaps P_Actions M_Subsets S_Subsets P_Subsets P_Facets P_Utils
  M_Paths M_Curves M_Utils M_Heap M_Sat M_Dilation S_Heap P_Heap S_Utils S_Curves S_Fuzzy P_CurveAct L_Digits P_Core P_Bridge P_Cont P_Subdiv P_Faces P_FuzzyInit P_FuzzyOps P_FuzzyBuilt
  S_Ratio P_Ratio S_Dilation P_Junctions P_JuncMain P_DilGeo P_DilRatio P_DilBounds P_DilPieces P_DilTree P_DilOps P_DilCreate P_DilRegular.
From Coq Require Import Reals Lra.
Local Open Scope nat_scope.

Lemma pattern_mul c X : valid_fuzzy c -> wf_spec (cv_dim c) (cv_mult c) X -> exists pat, nth_error (cv_pats c) (sp_pnum X) = Some pat /\ cv_pattern (cv_mul_sp X c) = Some (pat_mul (sp_bm X) pat).
Proof.
  intros HV HX. destruct (nth_pat c HV (sp_pnum X) (proj2 HX)) as (pat & Ep & _). exists pat. split; auto. unfold cv_pattern.
  unfold cv_mul_sp. rewrite cv_pnum_mul, cv_mul_eq; cbn. rewrite nth_error_map, Ep. auto.
Qed.
Lemma position_piece c p pos : valid_fuzzy c -> position_of c p pos <-> piece_ok c p pos.
Proof.
  intros HV. pose proof (core_of_full c HV) as HF. pose proof (full_ok _ HF) as HK. split.
  - intros (Hp & E1 & E2 & init & lst & cubes & f & pat & cube & E3 & E4 & HW & EP & EC). pose proof (fwfS_id c p Hp) as HX0.
    rewrite (fpattern_curve_eq c HV) in HW. apply (walk_inv c HV) in HW as (W & D & E); auto. injection E as -> ->.
    assert (HX : wfS (core_of c) (kst (core_of c) (Sp (id_map (cv_dim c)) p) init)) by (apply kst_wf; auto).
    destruct (pattern_mul c _ HV HX) as (pat0 & Ep0 & Ep1). rewrite EP in Ep1. injection Ep1 as ->. cbn [pat_mul pat_proto] in EC. change (pat_proto (pat_mul (sp_bm (kst (core_of c) (Sp (id_map (cv_dim c)) p) init)) pat0)) with (pr_mul (sp_bm (kst (core_of c) (Sp (id_map (cv_dim c)) p) init)) (pat_proto pat0)) in EC.
    assert (Hl : lst < cv_genus c).
    { destruct (le_lt_dec (cv_genus c) lst) as [Hl|Hl]; auto. rewrite nth_error_ge in EC; [discriminate|]. unfold pr_mul. cbn [pr_cubes]. rewrite map_length. destruct (time_rev _); rewrite ?rev_length, (cubes_length c HV _ _ Ep0); auto. }
    rewrite (pat_mul_cube c HV _ _ _ HX Ep0 Hl) in EC. injection EC as <-.
    split; auto. split; [|exists init, lst; auto]. split; auto. split; auto. rewrite E3, E4. split; [apply Forall_app; split; auto|]. rewrite kcubes_app. reflexivity.
  - intros (Hp & (E1 & E2 & W & E4) & init & lst & E & D). pose proof (fwfS_id c p Hp) as HX0. rewrite E in W. apply Forall_app in W as [W W']. inversion W' as [|? ? Hl _]; subst.
    assert (HX : wfS (core_of c) (kst (core_of c) (Sp (id_map (cv_dim c)) p) init)) by (apply kst_wf; auto).
    destruct (pattern_mul c _ HV HX) as (pat0 & Ep0 & Ep1).
    split; auto. split; auto. split; auto. exists init, lst, (kcubes (core_of c) (Sp (id_map (cv_dim c)) p) init), (cv_mul_sp (kst (core_of c) (Sp (id_map (cv_dim c)) p) init) c), (pat_mul (sp_bm (kst (core_of c) (Sp (id_map (cv_dim c)) p) init)) pat0), (kcb (core_of c) (kst (core_of c) (Sp (id_map (cv_dim c)) p) init) lst).
    split; auto. split; [rewrite E4, E, kcubes_app; reflexivity|]. split; [rewrite (fpattern_curve_eq c HV); apply (walk_def c HV); auto|]. split; auto.
    apply (pat_mul_cube c HV _ _ _ HX Ep0 Hl).
Qed.
Lemma on_piece_kpt x S cnums s u : valid_curve x -> wfS (core_of x) S -> wfc (core_of x) cnums ->
  (on_piece x S cnums s u <-> kpt (core_of x) S (map (kflip (core_of x) (sp_bm S)) cnums) s u).
Proof.
  intros HC HS W. pose proof (valid_curve_fuzzy x HC) as HV. pose proof (core_of_full x HV) as HF. pose proof (full_ok _ HF) as HK.
  assert (E : map (flip_num (sp_bm S) (cv_genus x)) cnums = map (kflip (core_of x) (sp_bm S)) cnums) by reflexivity.
  unfold on_piece, kpt. cbv zeta. rewrite E. set (cs := map (kflip (core_of x) (sp_bm S)) cnums). assert (Wc : wfc (core_of x) cs) by (apply wfc_flip; auto).
  pose proof (walk_eq x HC cs S HS Wc) as EW. split.
  - intros (L & cubes & f & s0 & u0 & E1 & Hg & Es & Eu). rewrite EW in E1. injection E1 as <- <-. split; auto. exists s0, u0. split; [apply (graph_kgraph x HC); auto; apply kst_wf; auto|]. split; auto.
  - intros (L & s0 & u0 & Hg & Es & Eu). split; auto. exists (kcubes (core_of x) S cs), (cv_mul_sp (kst (core_of x) S cs) x), s0, u0. split; auto. split; [apply (graph_kgraph x HC); auto; apply kst_wf; auto|]. split; auto.
Qed.

(** C35 *)
Section Pair.
Context (ratio : ratio_func) (rR : list R -> R -> R) (P : piece_pair) (x : curve) (st : stash).
Notation c := (pp_curve P). Notation j := (pp_junc P). Notation d := (cv_dim (pp_curve P)).
Context (HE : estimable c) (HX : chosen_from c x) (RO : ratio_ok d (ratio d) rR)
  (W1 : wf_spec d (cv_mult c) (j_spec1 j)) (W2 : wf_spec d (cv_mult c) (j_spec2 j)) (Ldx : length (j_dx j) = d)
  (P1 : position_of c (sp_pnum (j_spec1 j)) (pp_pos1 P)) (P2 : position_of c (sp_pnum (j_spec2 j)) (pp_pos2 P))
  (HDp : po_depth (pp_pos1 P) = po_depth (pp_pos2 P) \/ po_depth (pp_pos1 P) = po_depth (pp_pos2 P) + 1)
  (Apart : forall s u t w, on_piece x (j_spec1 j) (po_cnums (pp_pos1 P)) s u -> on_piece x (j_spec2 j) (po_cnums (pp_pos2 P)) t w -> (0 < junction_dt j s t)%R)
  (HST : st = None \/ valid_curve c /\ stash_on c st).
Notation K := (core_of x).
Let HS : sub_curve c x := chosen_sub c x HE HX.
Let HC : valid_curve x := dcls_chosen c x HE HX.
Let HF : core_full K := core_of_full x (valid_curve_fuzzy x HC).
Let HK : core_ok K := full_ok K HF.
Lemma specs_wf : wft K (jt j).
Proof. apply (wft_sub c); auto. split; [exact W1|]. split; [exact W2|]. auto. Qed.
Lemma pos1_ok : pos_ok K (sp_pnum (j_spec1 j)) (pp_pos1 P). Proof. apply (position_piece _ _ _ (proj1 HE)) in P1. apply (piece_sub c x _ _ HS) in P1. apply P1. Qed.
Lemma pos2_ok : pos_ok K (sp_pnum (j_spec2 j)) (pp_pos2 P). Proof. apply (position_piece _ _ _ (proj1 HE)) in P2. apply (piece_sub c x _ _ HS) in P2. apply P2. Qed.
Lemma on1 s u : on_piece x (j_spec1 j) (po_cnums (pp_pos1 P)) s u <-> kpt K (j_spec1 j) (jcs1 K j (pp_pos1 P)) s u.
Proof. apply on_piece_kpt; [auto|apply specs_wf|apply pos1_ok]. Qed.
Lemma on2 s u : on_piece x (j_spec2 j) (po_cnums (pp_pos2 P)) s u <-> kpt K (j_spec2 j) (jcs2 K j (pp_pos2 P)) s u.
Proof. apply on_piece_kpt; [auto|apply specs_wf|apply pos2_ok]. Qed.
Lemma jcs_wf : wfc K (jcs1 K j (pp_pos1 P)) /\ wfc K (jcs2 K j (pp_pos2 P)).
Proof. split; unfold jcs1, jcs2; apply wfc_flip; [apply pos1_ok|apply pos2_ok]. Qed.
Lemma apart_gap e : po_depth (pp_pos1 P) = po_depth (pp_pos2 P) + e -> (kT K (jcs1 K j (pp_pos1 P)) + 1 < pt2 K (j_dt j) e (jcs1 K j (pp_pos1 P)) (jcs2 K j (pp_pos2 P)))%Z.
Proof.
  intros He. pose proof specs_wf as (V1 & V2 & _). destruct jcs_wf as [C1 C2].
  destruct (kgraph_total K HK (kst K (j_spec1 j) (jcs1 K j (pp_pos1 P))) 1 ltac:(apply kst_wf; auto) ltac:(lra)) as [u0 Hu].
  destruct (kgraph_total K HK (kst K (j_spec2 j) (jcs2 K j (pp_pos2 P))) 0 ltac:(apply kst_wf; auto) ltac:(lra)) as [w0 Hw].
  pose proof (kpt_make K HF _ _ _ _ Hu) as Q1. pose proof (kpt_make K HF _ _ _ _ Hw) as Q2.
  apply on1 in Q1. apply on2 in Q2. specialize (Apart _ _ _ _ Q1 Q2). unfold junction_dt in Apart.
  assert (L1 : length (jcs1 K j (pp_pos1 P)) = po_depth (pp_pos1 P)) by apply map_length. assert (L2 : length (jcs2 K j (pp_pos2 P)) = po_depth (pp_pos2 P)) by apply map_length.
  unfold pt2. rewrite L1 in *. rewrite L2 in Apart. rewrite He in *.
  pose proof (kG_ge2 K HK) as HG2. set (g := IZR (Z.of_nat (kG K))) in *. assert (Hg : (0 < g)%R) by (apply IZR_lt; lia).
  pose proof (pow_lt g (po_depth (pp_pos2 P)) Hg) as Hp2. pose proof (pow_lt g e Hg) as Hpe. rewrite pow_add in Apart.
  apply lt_IZR. rewrite !plus_IZR, !mult_IZR, !IZR_pow. rewrite pow_add || idtac. fold g.
  apply Rmult_lt_compat_l with (r := (g ^ po_depth (pp_pos2 P) * g ^ e)%R) in Apart; [|apply Rmult_lt_0_compat; auto].
  match type of Apart with (_ < ?B)%R => match goal with |- (?L < ?M)%R => replace B with (M - L)%R in Apart; [lra|] end end.
  field. lra.
Qed.
Lemma pair_bounds : exists lo up am, get_bounds ratio P st = Some (lo, up, am) /\
  (forall s u t w, on_piece x (j_spec1 j) (po_cnums (pp_pos1 P)) s u -> on_piece x (j_spec2 j) (po_cnums (pp_pos2 P)) t w -> (junction_ratio rR d j s u t w <= qR up)%R) /\
  (exists s u t w, on_piece x (j_spec1 j) (po_cnums (pp_pos1 P)) s u /\ on_piece x (j_spec2 j) (po_cnums (pp_pos2 P)) t w /\ (qR lo <= junction_ratio rR d j s u t w)%R) /\
  (forall a, am = Some a -> am_junc a = j /\ am_pos1 a = pp_pos1 P /\ am_pos2 a = pp_pos2 P /\
    exists w, on_piece x (j_spec1 j) (po_cnums (pp_pos1 P)) (qR (am_t1 a)) (map qR (am_x1 a)) /\
      on_piece x (j_spec2 j) (po_cnums (pp_pos2 P)) (qR (am_t2 a) - IZR (j_dt j))%R w /\ length (am_x2 a) = d /\
      (forall i, (i < d)%nat -> nth i (map qR (am_x2 a)) 0 = nth i w 0 + IZR (nth i (j_dx j) 0%Z))%R /\
      qR lo = rR (diffs d (map qR (am_x1 a)) (map qR (am_x2 a))) (qR (am_t2 a) - qR (am_t1 a))%R) /\
  (st = None -> am = None).
Proof.
  pose proof HS as (Ed & EN & Em & _). set (e := po_depth (pp_pos1 P) - po_depth (pp_pos2 P)). assert (He : po_depth (pp_pos1 P) = po_depth (pp_pos2 P) + e) by (unfold e; lia). assert (He1 : e <= 1) by (unfold e; lia).
  pose proof (apart_gap e He) as Hg. assert (RO' : ratio_ok (kd K) (ratio (kd K)) rR) by (cbn [kd core_of]; rewrite Ed; auto).
  assert (EP : exists pts1 pts2, get_bounds ratio P st = get_pos_bounds ratio j (pp_pos1 P) (pp_pos2 P) pts1 pts2 /\ (st = None -> pts1 = []) /\
     Forall (qpt K (kst K (Sp (id_map (kd K)) (sp_pnum (j_spec1 j))) (po_cnums (pp_pos1 P)))) pts1 /\ Forall (qpt K (kst K (Sp (id_map (kd K)) (sp_pnum (j_spec2 j))) (po_cnums (pp_pos2 P)))) pts2).
  { destruct st as [pts|]; [|exists [], []; auto]. destruct HST as [HST'|[HCc (HL & Hpts)]]; [discriminate|]. pose proof (chosen_curve_eq c x HCc HX) as Ex. pose proof P1 as Q1. pose proof P2 as Q2. apply (position_piece _ _ _ (proj1 HE)) in Q1. apply (position_piece _ _ _ (proj1 HE)) in Q2.
    assert (Hpts' : forall p l, nth_error pts p = Some l -> Forall (qpt (core_of c) (Sp (id_map (cv_dim c)) p)) l).
    { intros p l El. apply Forall_forall. intros [y t] Hin. unfold qpt. cbn [fst snd]. apply (graph_pattern c HCc); [rewrite <- HL; apply nth_error_Some; congruence|]. eapply Hpts; eauto. }
    assert (V1 : wfS (core_of c) (kst (core_of c) (Sp (id_map (cv_dim c)) (sp_pnum (j_spec1 j))) (po_cnums (pp_pos1 P)))).
    { apply kst_wf; [apply full_ok, core_of_full, HE|apply (fwfS_id c); apply Q1|apply Q1]. }
    assert (V2 : wfS (core_of c) (kst (core_of c) (Sp (id_map (cv_dim c)) (sp_pnum (j_spec2 j))) (po_cnums (pp_pos2 P)))).
    { apply kst_wf; [apply full_ok, core_of_full, HE|apply (fwfS_id c); apply Q2|apply Q2]. }
    unfold get_bounds. rewrite !(deep_last c) by auto.
    destruct (nth_error pts (sp_pnum (kst (core_of c) (Sp (id_map (cv_dim c)) (sp_pnum (j_spec1 j))) (po_cnums (pp_pos1 P))))) as [l1|] eqn:N1; [|apply nth_error_None in N1; destruct V1 as [_ V1]; cbn [km core_of] in V1; lia].
    destruct (nth_error pts (sp_pnum (kst (core_of c) (Sp (id_map (cv_dim c)) (sp_pnum (j_spec2 j))) (po_cnums (pp_pos2 P))))) as [l2|] eqn:N2; [|apply nth_error_None in N2; destruct V2 as [_ V2]; cbn [km core_of] in V2; lia].
    do 2 eexists. split; [reflexivity|]. split; [discriminate|]. rewrite Ex. split; [exact (qpt_last c _ _ _ _ HCc Q1 N1 Hpts')|exact (qpt_last c _ _ _ _ HCc Q2 N2 Hpts')]. }
  destruct EP as (pts1 & pts2 & EB & EN0 & F1 & F2).
  destruct (gpb_spec K HF ratio rR RO' j (pp_pos1 P) (pp_pos2 P) e He1 specs_wf pos1_ok pos2_ok He Hg _ _ F1 F2) as (lo & up & am & EG & _ & HA).
  exists lo, up, am. split; [congruence|].
  destruct (gpb_encloses K HF ratio rR RO' j (pp_pos1 P) (pp_pos2 P) e He1 specs_wf pos1_ok pos2_ok He Hg _ _ lo up am F1 F2 EG) as [B1 B2].
  split; [|split; [|split]].
  - intros s u t w H1 H2. destruct (B1 s u t w) as [_ B]; [split; [apply on1; auto|apply on2; auto]|]. unfold junction_ratio, junction_dt. unfold rho in B. cbn [kd core_of] in B. rewrite Ed in B. exact B.
  - destruct B2 as (s & u & t & w & [H1 H2] & B). exists s, u, t, w. split; [apply on1; auto|]. split; [apply on2; auto|]. unfold rho in B. cbn [kd core_of] in B. rewrite Ed in B. exact B.
  - intros a ->. destruct HA as (s & u & t & w & [H1 H2] & EL & (Ej & E1 & E2 & Es & Eu & Et & Lw & Ew)). split; auto. split; auto. split; auto. exists w. rewrite Es, Eu, Et.
    replace (t + IZR (j_dt j) - IZR (j_dt j))%R with t by lra. split; [apply on1; auto|]. split; [apply on2; auto|]. cbn [kd core_of] in *. rewrite Ed in *. split; auto. split; auto.
    rewrite EL. unfold rho. cbn [kd core_of]. rewrite Ed. f_equal. unfold diffs_shifted, diffs. apply map_ext_in. intros k Hk. apply in_seq in Hk. rewrite Ew by lia. auto.
  - intros Est. specialize (EN0 Est). subst pts1. unfold get_pos_bounds, pos_bounds_at in EG. cbn [length Nat.eqb negb andb] in EG.
    destruct (scale_pos _ _ _ _ _ _ _) as [[[[[? ?] ?] ?] ?]|]; [|discriminate]. destruct (ratio _ _ _); [|discriminate]. destruct (ratio _ _ _); [|discriminate]. injection EG as _ _ <-. auto.
Qed.
End Pair.

(** C42 *)
Lemma chosen_position c x p pos : estimable c -> chosen_from c x -> position_of c p pos -> position_of x p pos.
Proof.
  intros HE HX HP. apply (position_piece _ _ _ (valid_curve_fuzzy x (dcls_chosen c x HE HX))). apply (piece_sub c x _ _ (chosen_sub c x HE HX)). apply (position_piece _ _ _ (proj1 HE)). auto.
Qed.
Lemma last_cube c p pos k cube : valid_fuzzy c -> piece_ok c p (po_specify pos k cube) -> grid_cube (cv_dim c) (cv_div c) cube.
Proof.
  intros HV (Hp & (_ & _ & W & E) & _). cbn [po_specify po_cnums po_cubes] in *. pose proof (core_of_full c HV) as HF. pose proof (full_ok _ HF) as HK. pose proof (fwfS_id c p Hp) as HX0. apply Forall_app in W as [W1 W2].
  rewrite kcubes_app in E. apply app_inj_tail in E as [_ E]. subst cube. inversion W2; subst. apply (kcb_grid _ HK); auto. apply kst_wf; auto.
Qed.
Lemma divide_exact c p pos : estimable c -> position_of c p pos -> exists l, piece_divide c p pos = Some l /\
  Forall (fun cp => part_of c p pos (fst cp) (snd cp)) l /\
  forall x k, chosen_from c x -> k < cv_genus c -> exists i cp, nth_error l i = Some cp /\ chosen_from (fst cp) x /\ po_cnums (snd cp) = po_cnums pos ++ [k] /\
    forall i' cp', nth_error l i' = Some cp' -> chosen_from (fst cp') x -> po_cnums (snd cp') = po_cnums pos ++ [k] -> i' = i.
Proof.
  intros HE HP. apply (position_piece _ _ _ (proj1 HE)) in HP. destruct (divide_ok c HE p pos HP) as (l & E & F & H). exists l. split; auto. split; auto.
  revert F. apply Forall_impl. intros [c' pos'] (C1 & C2 & C3 & C4 & C5 & _ & k & cube & Hk & Ek). cbn [fst snd] in *. split; auto. split; [apply (position_piece _ _ _ (proj1 C1)); auto|]. split; auto.
  exists k, cube. subst pos'. split; auto. split; auto. split; auto. pose proof C2 as (E1 & E2 & _). rewrite <- E1, <- E2. eapply last_cube; [apply C1|exact C3].
Qed.
Lemma position_narrow c c' p pos : estimable c -> estimable c' -> sub_curve c c' -> position_of c p pos -> position_of c' p pos.
Proof. intros HE HE' HS HP. apply (position_piece _ _ _ (proj1 HE')). apply (piece_sub c c' _ _ HS). apply (position_piece _ _ _ (proj1 HE)). auto. Qed.
Lemma divide_sub c p pos l : estimable c -> position_of c p pos -> piece_divide c p pos = Some l -> Forall (fun cp => sub_curve c (fst cp)) l.
Proof. intros HE HP E. apply (position_piece _ _ _ (proj1 HE)) in HP. destruct (divide_ok c HE p pos HP) as (l' & E' & F & _). assert (l' = l) by congruence. subst. revert F. apply Forall_impl. intros cp (_ & C2 & _). exact C2. Qed.
Lemma divide_pair_exact P : estimable (pp_curve P) ->
  position_of (pp_curve P) (sp_pnum (j_spec1 (pp_junc P))) (pp_pos1 P) -> position_of (pp_curve P) (sp_pnum (j_spec2 (pp_junc P))) (pp_pos2 P) ->
  let first := Nat.leb (po_depth (pp_pos1 P)) (po_depth (pp_pos2 P)) in
  let other P := if first then pp_pos2 P else pp_pos1 P in let divided P := if first then pp_pos1 P else pp_pos2 P in
  let pn1 := sp_pnum (j_spec1 (pp_junc P)) in let pn2 := sp_pnum (j_spec2 (pp_junc P)) in
  exists l, divide_balanced P = Some l /\
    Forall (fun P' => pp_junc P' = pp_junc P /\ other P' = other P /\ part_of (pp_curve P) (if first then pn1 else pn2) (divided P) (pp_curve P') (divided P') /\
                      position_of (pp_curve P') (if first then pn2 else pn1) (other P')) l /\
    forall x k, chosen_from (pp_curve P) x -> k < cv_genus (pp_curve P) -> exists i P', nth_error l i = Some P' /\ chosen_from (pp_curve P') x /\ po_cnums (divided P') = po_cnums (divided P) ++ [k] /\
      forall i' P'', nth_error l i' = Some P'' -> chosen_from (pp_curve P'') x -> po_cnums (divided P'') = po_cnums (divided P) ++ [k] -> i' = i.
Proof.
  intros HE H1 H2. cbv zeta. unfold divide_balanced. destruct (Nat.ltb_spec (po_depth (pp_pos2 P)) (po_depth (pp_pos1 P))) as [Hlt|Hge].
  - rewrite (proj2 (Nat.leb_gt _ _)) by auto. destruct (divide_exact _ _ _ HE H2) as (l & E & F & HX). pose proof (divide_sub _ _ _ _ HE H2 E) as FS. rewrite E. eexists. split; [reflexivity|]. split.
    + apply Forall_map. rewrite Forall_forall in *. intros [c' pos'] Hin. cbn [pp_junc pp_pos1 pp_pos2 pp_curve]. split; auto. split; auto. specialize (F _ Hin). specialize (FS _ Hin). split; [exact F|].
      apply (position_narrow (pp_curve P)); auto. apply F.
    + intros x k Hx Hk. destruct (HX x k Hx Hk) as (i & cp & Ei & C1 & C2 & C3). exists i. eexists. split; [rewrite nth_error_map, Ei; reflexivity|]. split; auto. split; auto.
      intros i' P'' Ei' Cx' C2'. rewrite nth_error_map in Ei'. destruct (nth_error l i') as [cp'|] eqn:Ec; [|discriminate]. injection Ei' as <-. cbn [pp_pos2 pp_curve] in *. eapply C3; eauto.
  - rewrite (proj2 (Nat.leb_le _ _)) by auto. destruct (divide_exact _ _ _ HE H1) as (l & E & F & HX). pose proof (divide_sub _ _ _ _ HE H1 E) as FS. rewrite E. eexists. split; [reflexivity|]. split.
    + apply Forall_map. rewrite Forall_forall in *. intros [c' pos'] Hin. cbn [pp_junc pp_pos1 pp_pos2 pp_curve]. split; auto. split; auto. specialize (F _ Hin). specialize (FS _ Hin). split; [exact F|].
      apply (position_narrow (pp_curve P)); auto. apply F.
    + intros x k Hx Hk. destruct (HX x k Hx Hk) as (i & cp & Ei & C1 & C2 & C3). exists i. eexists. split; [rewrite nth_error_map, Ei; reflexivity|]. split; auto. split; auto.
      intros i' P'' Ei' Cx' C2'. rewrite nth_error_map in Ei'. destruct (nth_error l i') as [cp'|] eqn:Ec; [|discriminate]. injection Ei' as <-. cbn [pp_pos1 pp_curve] in *. eapply C3; eauto.
Qed.
(** coordinates *)
Lemma coords_nested d N pos pos' k cube : po_dim pos = d -> po_div pos = N -> po_dim pos' = d -> po_div pos' = N -> 1 <= N ->
  po_cnums pos' = po_cnums pos ++ [k] -> po_cubes pos' = po_cubes pos ++ [cube] -> k < N ^ d -> grid_cube d N cube ->
  (snd (po_coords pos') = snd (po_coords pos) * Z.of_nat (N ^ d) + Z.of_nat k)%Z /\
  length (fst (po_coords pos')) = d /\
  forall i, i < d -> (Z.of_nat N * nth i (fst (po_coords pos)) 0 <= nth i (fst (po_coords pos')) 0 < Z.of_nat N * (nth i (fst (po_coords pos)) 0 + 1))%Z /\
    nth i (fst (po_coords pos')) 0%Z = (Z.of_nat N * nth i (fst (po_coords pos)) 0 + nth i cube 0)%Z.
Proof.
  intros E1 E2 E3 E4 HN Ek Ec Hk [Lc Hc]. unfold po_coords. cbn [fst snd]. rewrite !get_int_time_value, !get_int_cube_value, E1, E2, E3, E4, Ek, Ec. split; [|split].
  - rewrite map_app. cbn [map]. rewrite value_snoc, Nat2Z.inj_pow. auto.
  - rewrite map_length, seq_length. auto.
  - intros i Hi. rewrite !(nth_map_seq (fun j => value (Z.of_nat N) (coordj j _))) by auto. unfold coordj. rewrite map_app. cbn [map]. rewrite value_snoc. rewrite Forall_nth_lt with (d := 0%Z) in Hc. specialize (Hc i ltac:(lia)). split; lia.
Qed.
Lemma time_digits G n : 2 <= G -> forall V, (0 <= V < Z.of_nat G ^ Z.of_nat n)%Z -> exists cs, length cs = n /\ Forall (fun k => k < G) cs /\ value (Z.of_nat G) (map Z.of_nat cs) = V.
Proof.
  intros HG. set (B := Z.of_nat G). assert (HB : (2 <= B)%Z) by (unfold B; lia). induction n as [|n IH]; intros V HVr.
  - exists []. split; auto. split; [constructor|]. cbn in *. lia.
  - rewrite Nat2Z.inj_succ, Z.pow_succ_r in HVr by lia. destruct (IH (V / B)%Z) as (cs & L & W & E).
    { split; [apply Z.div_pos; lia|]. apply Z.div_lt_upper_bound; lia. }
    pose proof (Z.mod_pos_bound V B ltac:(lia)) as HM. exists (cs ++ [Z.to_nat (V mod B)]). split; [rewrite app_length; cbn; lia|]. split.
    + apply Forall_app. split; auto. constructor; auto. apply Nat2Z.inj_lt. rewrite Z2Nat.id by lia. fold B. lia.
    + rewrite map_app. cbn [map]. rewrite value_snoc, E, Z2Nat.id by lia. rewrite (Z.div_mod V B) at 3 by lia. lia.
Qed.
(** The positions of depth n of pattern p of a curve: exactly one for every time number and exactly one for every cube. *)
Lemma curve_position c p cs : valid_curve c -> p < cv_mult c -> cs <> [] -> Forall (fun k => k < cv_genus c) cs ->
  position_of c p (Pos (cv_dim c) (cv_div c) cs (kcubes (core_of c) (Sp (id_map (cv_dim c)) p) cs)).
Proof.
  intros HC Hp NE W. apply (position_piece _ _ _ (valid_curve_fuzzy c HC)). split; auto. split; [split; [reflexivity|split; [reflexivity|split; [exact W|reflexivity]]]|].
  destruct (exists_last NE) as (init & lst & E). exists init, lst. cbn [po_cnums]. split; auto. subst cs. apply Forall_app in W as [W _].
  pose proof (fwfS_id c p Hp) as HX0. pose proof (walk_eq c HC init _ HX0 W) as EW. apply (walk_inv c (valid_curve_fuzzy c HC)) in EW; auto. apply EW.
Qed.
Lemma positions_time c p n T : valid_curve c -> p < cv_mult c -> 1 <= n -> (0 <= T < Z.of_nat (cv_genus c) ^ Z.of_nat n)%Z ->
  exists pos, (position_of c p pos /\ po_depth pos = n /\ snd (po_coords pos) = T) /\
    forall pos', position_of c p pos' -> po_depth pos' = n -> snd (po_coords pos') = T -> pos' = pos.
Proof.
  intros HC Hp Hn HT. pose proof (valid_curve_fuzzy c HC) as HV. pose proof (core_of_full c HV) as HF. pose proof (full_ok _ HF) as HK. pose proof (kG_ge2 _ HK) as HG. rewrite kG_genus in HG.
  destruct (time_digits (cv_genus c) n HG T HT) as (cs & L & W & E). assert (NE : cs <> []) by (destruct cs; cbn in L; [lia|discriminate]).
  exists (Pos (cv_dim c) (cv_div c) cs (kcubes (core_of c) (Sp (id_map (cv_dim c)) p) cs)). split.
  - split; [apply curve_position; auto|]. split; [auto|]. unfold po_coords. cbn [snd po_dim po_div po_cnums]. rewrite get_int_time_value, <- Nat2Z.inj_pow. exact E.
  - intros pos' HP' L' E'. apply (position_piece _ _ _ HV) in HP'. destruct HP' as (_ & (E1 & E2 & W' & E4) & _). unfold po_coords in E'. cbn [snd] in E'. rewrite get_int_time_value, E1, E2, <- Nat2Z.inj_pow in E'.
    assert (po_cnums pos' = cs) by (apply (kT_inj (core_of c) HK); auto; [unfold po_depth in L'; congruence|unfold kT; cbn [kd kN core_of] in *; rewrite kG_genus; unfold cv_genus in *; congruence]).
    destruct pos' as [d' N' cs' qs']. cbn in *. congruence.
Qed.
Lemma positions_cube c p n q : valid_curve c -> p < cv_mult c -> 1 <= n -> grid_cube (cv_dim c) (cv_div c ^ n) q ->
  exists pos, (position_of c p pos /\ po_depth pos = n /\ fst (po_coords pos) = q) /\
    forall pos', position_of c p pos' -> po_depth pos' = n -> fst (po_coords pos') = q -> pos' = pos.
Proof.
  intros HC Hp Hn [Lq Hq]. pose proof (valid_curve_fuzzy c HC) as HV. pose proof (core_of_full c HV) as HF. pose proof (full_ok _ HF) as HK. pose proof (fwfS_id c p Hp) as HX0. rewrite Nat2Z.inj_pow in Hq.
  destruct (P_Subdiv.kX_surj (core_of c) HF n Hn n (Sp (id_map (cv_dim c)) p) q HX0 Lq Hq) as (cs & L & W & E). assert (NE : cs <> []) by (destruct cs; cbn in L; [lia|discriminate]).
  exists (Pos (cv_dim c) (cv_div c) cs (kcubes (core_of c) (Sp (id_map (cv_dim c)) p) cs)). split.
  - split; [apply curve_position; auto|]. split; [auto|]. unfold po_coords. cbn [fst po_dim po_div po_cubes]. rewrite get_int_cube_value. apply nth_ext with 0%Z 0%Z; rewrite map_length, seq_length; auto.
    intros i Hi. rewrite nth_map_seq by auto. exact (E i Hi).
  - intros pos' HP' L' E'. apply (position_piece _ _ _ HV) in HP'. destruct HP' as (_ & (E1 & E2 & W' & E4) & _). unfold po_coords in E'. cbn [fst] in E'. rewrite get_int_cube_value, E1, E2, E4 in E'.
    assert (po_cnums pos' = cs). { apply (P_Subdiv.kX_inj (core_of c) HF n Hn _ _ (Sp (id_map (cv_dim c)) p)); auto; [unfold po_depth in L'; congruence|]. intros i Hi. rewrite E by auto. rewrite <- E'. cbn [kd kN core_of] in *. rewrite nth_map_seq by auto. reflexivity. }
    destruct pos' as [d' N' cs' qs']. cbn in *. congruence.
Qed.

(** C37 *)
Lemma regular_spec hq : heapq_ok hq -> forall ratio rR c fuel rti max_iter fd max_depth lo up am, valid_curve c -> ratio_ok (cv_dim c) (ratio (cv_dim c)) rR ->
  match fd with Some f => f <= cv_dim c | None => True end ->
  estimate_dilation_regular ratio hq fuel c rti max_iter fd max_depth = Some (lo, up, am) ->
  dilation_le rR c (qR up) /\ dilation_ge rR c (qR lo) /\
  (forall r, rti = Some r -> (0 < r)%Z -> max_iter = None -> max_depth = None -> (qR up * IZR r <= qR lo * IZR (r + 1))%R) /\
  forall a, am = Some a -> In (am_junc a) (gen_auto_junctions c ++ fst (gen_regular_junctions fuel c)) /\ argmax_attains rR c lo a.
Proof.
  intros HQ ratio rR c fuel rti max_iter fd max_depth lo up am HC RO Hfd E. destruct (heapq_inv hq HQ) as [is_heap HH].
  destruct (estimate_regular_ok ratio rR c hq is_heap HC RO HH fuel rti max_iter fd max_depth lo up am Hfd E) as (js & EJ & (E1 & E2 & E3) & E4).
  split; auto. split; auto. split.
  - intros r -> Hr H1 H2. unfold unless_stopped, tolerance_of in E4. assert (Hz : Zq r <> 0%Qc) by (apply qR_neq0; rewrite qR_Zq; apply not_0_IZR; lia).
    unfold frac in E4. destruct (Qc_eq_dec (Zq r) 0%Qc) as [X|_]; [contradiction|]. specialize (E4 _ eq_refl H1 H2). apply qR_le in E4. rewrite qR_mul, qR_div, !qR_Zq in E4 by auto.
    assert (0 < IZR r)%R by (apply IZR_lt; lia). apply Rmult_le_compat_r with (r := IZR r) in E4; [|lra]. field_simplify in E4; lra.
  - intros a Ea. destruct (E3 a Ea) as [HA HB]. split; [rewrite EJ; cbn [fst]; apply in_or_app; exact HA|exact HB].
Qed.
Lemma position_ranges c p pos : valid_curve c -> position_of c p pos ->
  (0 <= snd (po_coords pos) < Z.of_nat (cv_genus c) ^ Z.of_nat (po_depth pos))%Z /\ grid_cube (cv_dim c) (cv_div c ^ po_depth pos) (fst (po_coords pos)).
Proof.
  intros HC HP. pose proof (valid_curve_fuzzy c HC) as HV. pose proof (core_of_full c HV) as HF. pose proof (full_ok _ HF) as HK. apply (position_piece _ _ _ HV) in HP. destruct HP as (Hp & (E1 & E2 & W & E4) & _). pose proof (fwfS_id c p Hp) as HX0.
  unfold po_coords. cbn [fst snd]. rewrite get_int_time_value, get_int_cube_value, E1, E2, E4. cbn [kd kN core_of]. split.
  - rewrite <- Nat2Z.inj_pow. apply (kT_range (core_of c) HK _ W).
  - split; [rewrite map_length, seq_length; auto|]. apply Forall_forall. intros z Hz. apply in_map_iff in Hz as (i & <- & Hi). apply in_seq in Hi. rewrite Nat2Z.inj_pow. exact (kX_range (core_of c) HK _ _ _ HX0 W (proj2 Hi)).
Qed.
Lemma built_estimable d N group dtr paths c : valid_group d group -> valid_paths d N paths -> built group dtr paths c -> estimable c.
Proof. intros HG HP HB. destruct (built_good d N group dtr paths HG HP c HB) as (V & _ & E1 & _ & _ & _ & H). split; auto. rewrite E1. exact H. Qed.
Lemma estimable_curves : (forall c, valid_curve c -> estimable c /\ chosen_from c c) /\
  forall d N group no_time_rev paths c, valid_group d group -> valid_paths d N paths -> built group no_time_rev paths c -> estimable c.
Proof. split; [|exact built_estimable]. intros c HC. split; [apply dcls_curve; auto|apply chosen_self; auto]. Qed.
Lemma norms_ok d : 1 <= d ->
  ratio_ok d (ratio_linf d) (norm_ratio norm_linf d) /\ ratio_ok d (ratio_l1 d) (norm_ratio norm_l1 d) /\
  (Nat.even d = true -> ratio_ok d (ratio_l2 d) (norm_ratio norm_l2 d)) /\
  ratio_ok d (ratio_l2_squared d) (fun dv dt => (norm_ratio norm_l2 d dv dt)²)%R.
Proof. intros Hd. split; [apply linf_ok; auto|]. split; [apply l1_ok|]. split; [apply l2_ok|apply l2sq_ok]. Qed.
(** pieces of equal depth apart by their numbers are apart in time *)
Lemma apart_numbers x j cs1 cs2 : valid_curve x -> wf_spec (cv_dim x) (cv_mult x) (j_spec1 j) -> wf_spec (cv_dim x) (cv_mult x) (j_spec2 j) ->
  wfc (core_of x) cs1 -> wfc (core_of x) cs2 -> length cs1 = length cs2 ->
  let v := fun S cs => value (Z.of_nat (cv_genus x)) (map Z.of_nat (map (flip_num (sp_bm S) (cv_genus x)) cs)) in
  (v (j_spec1 j) cs1 + 1 < v (j_spec2 j) cs2 + j_dt j * Z.of_nat (cv_genus x) ^ Z.of_nat (length cs1))%Z ->
  forall s u t w, on_piece x (j_spec1 j) cs1 s u -> on_piece x (j_spec2 j) cs2 t w -> (0 < junction_dt j s t)%R.
Proof.
  intros HC V1 V2 C1 C2 EL v H s u t w H1 H2. pose proof (core_of_full x (valid_curve_fuzzy x HC)) as HF. pose proof (full_ok _ HF) as HK. apply on_piece_kpt in H1; auto. apply on_piece_kpt in H2; auto.
  apply (kpt_box (core_of x)) in H1 as [[_ B1] _]; auto; [|apply wfc_flip; auto]. apply (kpt_box (core_of x)) in H2 as [[B2 _] _]; auto; [|apply wfc_flip; auto].
  rewrite map_length in B1, B2. rewrite <- EL in B2. pose proof (kG_ge2 _ HK) as HG. set (g := (IZR (Z.of_nat (kG (core_of x))) ^ length cs1)%R) in *.
  assert (Hg : (0 < g)%R) by (apply pow_lt; apply IZR_lt; lia). apply IZR_lt in H. rewrite !plus_IZR, mult_IZR, <- pow_IZR in H. change (IZR (Z.of_nat (cv_genus x)) ^ length cs1)%R with g in H.
  apply Rmult_lt_reg_l with g; auto. rewrite Rmult_0_r. unfold junction_dt. replace (g * (t + IZR (j_dt j) - s))%R with (t * g + IZR (j_dt j) * g - s * g)%R by lra. unfold v in H. unfold kT in B1, B2. 
  change (flip_num (sp_bm (j_spec1 j)) (cv_genus x)) with (kflip (core_of x) (sp_bm (j_spec1 j))) in H. change (flip_num (sp_bm (j_spec2 j)) (cv_genus x)) with (kflip (core_of x) (sp_bm (j_spec2 j))) in H. change (cv_genus x) with (kG (core_of x)) in H. lra.
Qed.
Lemma face_points_stash c fd : valid_curve c -> fd <= cv_dim c -> exists pts, face_points c fd = Some pts /\ stash_on c (Some pts).
Proof.
  intros HC Hf. destruct (face_points_ok c fd HC Hf) as (pts & E & _ & HL & H). exists pts. split; auto. split; auto. intros p l x t El Hin. apply (graph_pattern c HC); [rewrite <- HL; apply nth_error_Some; congruence|].
  specialize (H p l El). rewrite Forall_forall in H. exact (H _ Hin).
Qed.
