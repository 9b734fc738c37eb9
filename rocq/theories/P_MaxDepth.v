(** The argument max_depth of estimate_dilation_regular: pairs of fractions up to this depth are all looked at. *)
From Verif Require Import Py L_Py L_Qc L_R M_BaseMaps S_BaseMaps L_BaseMaps P_Actions M_Subsets S_Subsets P_Subsets P_Facets P_Combi P_Utils
  M_Paths M_Curves M_Utils M_Heap M_Sat M_Dilation S_Heap P_Heap S_Utils S_Curves S_Fuzzy P_CurveAct L_Digits P_Core P_Bridge P_Cont P_Check P_Subdiv P_Faces P_FuzzyInit P_FuzzyOps P_FuzzyBuilt
  S_Ratio S_Dilation S_MaxDepth P_Junctions P_JuncLoop P_JuncMain P_DilGeo P_DilRatio P_DilBounds P_DilPieces P_DilTree P_DilOps P_DilCreate P_DilRegular P_DilSpec.
From Coq Require Import Reals Lra Permutation.
Local Open Scope nat_scope.

(** Every pair of points given is below the lower bound. *)
Section LowerPoints.
Context (K : core) (HF : core_full K) (ratio : ratio_func) (rR : list R -> R -> R) (RO : ratio_ok (kd K) (ratio (kd K)) rR).
Let HK := full_ok K HF.
Notation G := (kG K). Notation N := (kN K). Notation d := (kd K).
Notation RN := (IZR (Z.of_nat N)). Notation RG := (IZR (Z.of_nat G)).
Context (j : junction) (pos1 pos2 : position) (e : nat) (He : (e <= 1)%nat) (HW : wft K (jt j)) (P1 : pos_ok K (sp_pnum (j_spec1 j)) pos1) (P2 : pos_ok K (sp_pnum (j_spec2 j)) pos2)
  (HL : po_depth pos1 = (po_depth pos2 + e)%nat).
Notation cs1 := (jcs1 K j pos1). Notation cs2 := (jcs2 K j pos2).
Context (Hgap : (kT K cs1 + 1 < pt2 K (j_dt j) e cs1 cs2)%Z).
Local Open Scope R_scope.
(** (s, u) is the point (x, t) of the fraction cs of the curve of S, put to its place *)
Definition placed (S : spec) (cs : list nat) (p : list Qc * Qc) (s : R) (u : list R) : Prop :=
  length u = d /\ s * RG ^ length cs = IZR (kT K cs) + qR (snd p) /\
  forall i, (i < d)%nat -> nth i u 0 * RN ^ length cs = IZR (kX K S cs i) + nth i (map qR (fst p)) 0.
Lemma placed_eq S cs p s u s' u' : placed S cs p s u -> placed S cs p s' u' -> s = s' /\ u = u'.
Proof.
  intros (L & E1 & E2) (L' & E1' & E2'). pose proof (RGp K HK (length cs)) as H1. pose proof (RNp K HK (length cs)) as H2. split; [apply Rmult_eq_reg_r with (RG ^ length cs); lra|].
  apply (nth_eq_len K); auto. intros i Hi. specialize (E2 i Hi). specialize (E2' i Hi). apply Rmult_eq_reg_r with (RN ^ length cs); lra.
Qed.
Lemma gpb_lo_ge pts1 pts2 lo up am p q s u t w :
  Forall (qpt K (kst K (Sp (id_map d) (sp_pnum (j_spec1 j))) (po_cnums pos1))) pts1 -> Forall (qpt K (kst K (Sp (id_map d) (sp_pnum (j_spec2 j))) (po_cnums pos2))) pts2 ->
  get_pos_bounds ratio j pos1 pos2 pts1 pts2 = Some (lo, up, am) -> In p pts1 -> In q pts2 ->
  placed (j_spec1 j) cs1 (cp_mul (sp_bm (j_spec1 j)) p) s u -> placed (j_spec2 j) cs2 (cp_mul (sp_bm (j_spec2 j)) q) t w ->
  rho K rR (j_dt j) (j_dx j) s u t w <= qR lo.
Proof.
  intros F1 F2 E Hp Hq HA HB. pose proof HW as (HX & HY & Hv). rewrite Forall_forall in F1, F2.
  destruct (point1 K HF j pos1 HW P1 p (F1 _ Hp)) as (s1 & u1 & K1 & Lu & Es & Lp & Eu).
  destruct (point2 K HF j pos1 pos2 e He HW P2 HL Hgap q (F2 _ Hq)) as (t1 & w1 & K2 & Lw & Et & Lq & Ew). cbv zeta in Et, Lq, Ew.
  set (PQ := shift_pt _ _ (cp_mul (sp_bm (j_spec1 j)) p)) in *. set (q' := if Nat.eqb e 0 then cp_mul (sp_bm (j_spec2 j)) q else _) in *. set (QQ := shift_pt _ _ q') in *.
  assert (L1 : length cs1 = length (po_cnums pos1)) by apply map_length.
  assert (Lx1 : length (map (px1 K (jt j) cs1) (seq 0 d)) = d) by (rewrite map_length, seq_length; auto).
  assert (Lp0 : length (fst (cp_mul (sp_bm (j_spec1 j)) p)) = d). { unfold cp_mul, pt_mul, apply_x. cbn [fst]. rewrite length_act. apply wf_length, HX. }
  assert (Lq0 : length (fst (cp_mul (sp_bm (j_spec2 j)) q)) = d). { unfold cp_mul, pt_mul, apply_x. cbn [fst]. rewrite length_act. apply wf_length, HY. }
  assert (B1 : s = s1 /\ u = u1).
  { apply (placed_eq (j_spec1 j) cs1 (cp_mul (sp_bm (j_spec1 j)) p)); auto. split; auto. rewrite L1. split.
    - rewrite <- Es. unfold PQ, shift_pt. cbn [snd]. rewrite qR_add, qR_Zq. auto.
    - intros i Hi. rewrite <- Eu by auto. unfold PQ. rewrite (fst_shift_pt_nth K) by auto. rewrite (nth_map_seq (px1 K (jt j) cs1)) by auto. reflexivity. }
  destruct B1 as [<- <-].
  assert (Lcs : length (po_cnums pos1) = (length cs2 + e)%nat). { unfold jcs2. rewrite map_length. exact HL. }
  pose proof (RGp K HK (length (po_cnums pos1))) as HG1. pose proof (RNp K HK (length (po_cnums pos1))) as HN1.
  pose proof (RGp K HK e) as HGe. pose proof (RNp K HK e) as HNe.
  assert (Lx2 : length (map (px2 K (jt j) e cs1 cs2) (seq 0 d)) = d) by (rewrite map_length, seq_length; auto).
  assert (A : length (fst q') = d /\ qR (snd q') = RG ^ e * qR (snd (cp_mul (sp_bm (j_spec2 j)) q)) /\ forall i, (i < d)%nat -> nth i (map qR (fst q')) 0 = nth i (map qR (fst (cp_mul (sp_bm (j_spec2 j)) q))) 0 * RN ^ e).
  { unfold q'. set (q0 := cp_mul (sp_bm (j_spec2 j)) q) in *. destruct (Nat.eqb_spec e 0) as [->|Hne].
    - split; auto. cbn [pow]. split; [lra|]. intros; lra.
    - replace e with 1%nat by lia. cbn [pow]. unfold cp_scale. cbn [fst snd]. rewrite map_length. split; auto. rewrite qR_mul, qR_pow, qR_Zq, Lq0.
      split; [unfold kG; rewrite Nat2Z.inj_pow, IZR_pow; lra|]. intros i Hi. rewrite map_map. rewrite !(map_nth_lt _ _ _ 0%Qc) by lia. rewrite qR_mul, qR_Zq. lra. }
  destruct A as (Lq' & Sq' & Xq').
  assert (B2 : t = t1 /\ w = w1).
  { destruct HB as (Lw' & Et' & Ew'). split.
    - apply Rmult_eq_reg_r with (RG ^ length (po_cnums pos1)); [|lra]. assert (EE : (t1 + IZR (j_dt j)) * RG ^ length (po_cnums pos1) = (t + IZR (j_dt j)) * RG ^ length (po_cnums pos1)); [|lra].
      rewrite <- Et. unfold QQ, shift_pt. cbn [snd]. rewrite qR_add, qR_Zq, Sq'. unfold pt2. rewrite plus_IZR, !mult_IZR, !IZR_pow, L1, Lcs, pow_add. nra.
    - apply (nth_eq_len K); auto. intros i Hi. specialize (Ew i Hi). specialize (Ew' i Hi). unfold QQ in Ew. rewrite (fst_shift_pt_nth K) in Ew by auto. rewrite (Xq' i Hi) in Ew.
      rewrite (nth_map_seq (px2 K (jt j) e cs1 cs2)) in Ew by auto. unfold px2 in Ew. cbn [jt fst snd] in Ew. rewrite plus_IZR, !mult_IZR, !IZR_pow, L1 in Ew.
      apply Rmult_eq_reg_r with (RN ^ length (po_cnums pos1)); [|lra]. rewrite Lcs, pow_add in *. nra. }
  destruct B2 as [<- <-].
  rewrite (gpb_eq K HF ratio j pos1 pos2 e He HW P1 P2 HL) in E. cbv zeta in E.
  destruct (ratio d _ (Zq (pt2 K (j_dt j) e cs1 cs2 + _ - _))) as [lo0|]; [|discriminate]. destruct (ratio d _ (Zq (pt2 K (j_dt j) e cs1 cs2 - _))) as [up0|]; [|discriminate].
  pose proof (bound_gap K HF (jt j) (j_dt j) e cs1 cs2) as BG.
  assert (LCS : length cs1 = (length cs2 + e)%nat) by (rewrite L1; auto).
  pose proof (jcs1_wf K j pos1 P1) as WC1. pose proof (jcs2_wf K j pos2 P2) as WC2.
  (* values of all pairs of points *)
  assert (HV : forall p0 q0, qpt K (kst K (Sp (id_map d) (sp_pnum (j_spec1 j))) (po_cnums pos1)) p0 -> qpt K (kst K (Sp (id_map d) (sp_pnum (j_spec2 j))) (po_cnums pos2)) q0 ->
     let P := shift_pt (map (px1 K (jt j) cs1) (seq 0 d)) (kT K cs1) (cp_mul (sp_bm (j_spec1 j)) p0) in
     let Q := shift_pt (map (px2 K (jt j) e cs1 cs2) (seq 0 d)) (pt2 K (j_dt j) e cs1 cs2) (if Nat.eqb e 0 then cp_mul (sp_bm (j_spec2 j)) q0 else cp_scale (Zq (Z.of_nat N)) (cp_mul (sp_bm (j_spec2 j)) q0)) in
     exists v, ratio d (map (fun xy => (fst xy - snd xy)%Qc) (combine (fst P) (fst Q))) (snd Q - snd P)%Qc = Some v).
  { intros p0 q0 H1 H2 P Q. destruct (point1 K HF j pos1 HW P1 p0 H1) as (sa & ua & Ka & La & Ea & Lpa & Xa). destruct (point2 K HF j pos1 pos2 e He HW P2 HL Hgap q0 H2) as (ta & wa & Kb & Lb & Eb & Lqb & Xb). cbv zeta in Eb, Lqb, Xb. fold P in Ea, Lpa, Xa. fold Q in Eb, Lqb, Xb.
    destruct (ro_value _ _ _ RO (map (fun xy => (fst xy - snd xy)%Qc) (combine (fst P) (fst Q))) (snd Q - snd P)%Qc) as (v & Ev & _).
    - rewrite map_length, combine_length. lia.
    - apply qR_lt. rewrite qR_0, qR_sub, Ea, Eb. assert (HQ : kq K (jt j) cs1 cs2 sa ua ta wa) by (split; auto). pose proof (BG sa ua ta wa HW WC1 WC2 LCS HQ Hgap). nra.
    - eauto. }
  destruct (fold_points ratio d (Z.of_nat N ^ Z.of_nat (length (po_cnums pos1))) (Z.of_nat G ^ Z.of_nat (length (po_cnums pos1))) j pos1 pos2 lo0 (gpb_points K j pos1 pos2 e pts1 pts2)) as (lo' & am' & EF & HI).
  { intros [p0 q0] Hin. unfold gpb_points in Hin. apply in_prod_iff in Hin as [Ha Hb]. apply in_map_iff in Ha as (pa & <- & Ha). apply in_map_iff in Ha as (pb & <- & Ha). apply in_map_iff in Hb as (qa & <- & Hb).
    assert (B : exists q0, In q0 pts2 /\ qa = if Nat.eqb e 0 then cp_mul (sp_bm (j_spec2 j)) q0 else cp_scale (Zq (Z.of_nat N)) (cp_mul (sp_bm (j_spec2 j)) q0)).
    { destruct (Nat.eqb e 0); [apply in_map_iff in Hb as (q0 & <- & Hb); eauto|]. rewrite map_map in Hb. apply in_map_iff in Hb as (q0 & <- & Hb); eauto. }
    destruct B as (qb & Hqb & ->). exact (HV pb qb (F1 _ Ha) (F2 _ Hqb)). }
  rewrite EF in E. cbn [option_map fst snd] in E. injection E as -> -> ->.
  assert (Hin : In (PQ, QQ) (gpb_points K j pos1 pos2 e pts1 pts2)).
  { unfold gpb_points. apply in_prod; apply in_map; [apply in_map; auto|]. unfold q'. destruct (Nat.eqb e 0); [apply in_map; auto|]. apply in_map, in_map; auto. }
  destruct am as [a|]; [|destruct HI as [HI _]; rewrite HI in Hin; destruct Hin]. destruct HI as (_ & _ & _ & _ & HM).
  set (dv := map (fun xy => (fst xy - snd xy)%Qc) (combine (fst PQ) (fst QQ))). assert (Ldv : length dv = d) by (unfold dv; rewrite map_length, combine_length; lia).
  assert (Hlt : s < t + IZR (j_dt j)) by (apply (BG s u t w HW WC1 WC2 LCS); auto; split; auto).
  destruct (ro_value _ _ _ RO dv (snd QQ - snd PQ)%Qc Ldv) as (v & Ev & Vv). { apply qR_lt. rewrite qR_0, qR_sub, Es, Et. nra. }
  specialize (HM (PQ, QQ) v Hin Ev). apply qR_le in HM. refine (Rle_trans _ _ _ _ HM). rewrite Vv, (rho_scaled K HF _ _ RO _ _ (length (po_cnums pos1))) by auto. rewrite qR_sub, Es, Et.
  right. f_equal. apply nth_ext_lt with 0; [rewrite !map_length, seq_length; auto|]. intros i Hi. rewrite map_length, seq_length in Hi.
  rewrite (nth_map_seq (fun j0 => nth j0 u 0 * RN ^ length (po_cnums pos1) - (nth j0 w 0 + IZR (nth j0 (j_dx j) 0%Z)) * RN ^ length (po_cnums pos1))) by auto.
  rewrite <- Eu, <- Ew by auto. unfold dv. rewrite map_map. rewrite (map_nth_lt _ _ _ (0%Qc, 0%Qc)) by (rewrite combine_length; lia). rewrite combine_nth by lia. cbn [fst snd].
  rewrite qR_sub. rewrite !(map_nth_lt qR _ _ 0%Qc) by lia. auto.
Qed.
End LowerPoints.

(** The pairs that lead to the target pair (cs1, cs2) of the junction j0; v is below the lower bound computed for it, and
    below the upper bounds of all pairs on the way. *)
Section Track.
Context (ratio : ratio_func) (rR : list R -> R -> R) (c0 : curve) (HC : valid_curve c0) (RO : ratio_ok (cv_dim c0) (ratio (cv_dim c0)) rR).
Let HD : dcls c0 := dcls_curve c0 HC.
Context (JP : junction -> Prop) (HJ : forall j, JP j -> wft (core_of c0) (jt j)).
Context (st : stash) (HST : points_ok c0 st).
Context (hq : heap_impl bpair) (is_heap : list (node bpair) -> Prop) (HH : IH_ok hq is_heap).
Context (j0 : junction) (cs1 cs2 : list nat) (v : R).
Context (W1 : Forall (fun k => k < cv_genus c0) cs1) (W2 : Forall (fun k => k < cv_genus c0) cs2) (HLc : length cs1 = length cs2 \/ length cs1 = length cs2 + 1).
Notation pair_ok := (pair_ok c0 JP).
Notation item_ok := (item_ok rR c0 JP).
Notation tree_ok := (tree_ok rR c0 JP is_heap None true).
Definition leads (P : piece_pair) : Prop :=
  pp_junc P = j0 /\ (exists r1, cs1 = po_cnums (pp_pos1 P) ++ r1) /\ (exists r2, cs2 = po_cnums (pp_pos2 P) ++ r2).
Definition above (P : piece_pair) : Prop := po_depth (pp_pos1 P) + po_depth (pp_pos2 P) < length cs1 + length cs2.
Context (Hv : forall i, item_ok i -> leads (bp_pair i) -> (v <= qR (bp_up i))%R).
Context (Hv0 : forall P lo up am, pair_ok P -> leads P -> ~ above P -> get_bounds ratio P st = Some (lo, up, am) -> (v <= qR lo)%R).
Definition found (t : tree) : Prop :=
  (exists g, bh_good_thr t = Some g /\ (v <= qR g)%R) \/ (exists m, bh_max t = Some m /\ (v <= qR (bp_lo m))%R) \/
  exists i, In i (bh_items t) /\ leads (bp_pair i) /\ above (bp_pair i).
Lemma leads_depth P : leads P -> po_depth (pp_pos1 P) <= length cs1 /\ po_depth (pp_pos2 P) <= length cs2.
Proof. clear HLc. intros (_ & (r1 & E1) & r2 & E2). unfold po_depth. rewrite E1, E2, !app_length. lia. Qed.
Lemma push_found t P t' : tree_ok t -> pair_ok P -> push_tree ratio hq st t P = Some t' -> tree_ok t' /\ bh_good_thr t' = bh_good_thr t /\ (found t \/ leads P -> found t').
Proof.
  intros Ht HP E. unfold push_tree in E. destruct (bounds_ok ratio rR c0 HD RO JP HJ st P HST HP) as (lo & up & am & EB & HB). rewrite EB in E. injection E as <-.
  set (i := BP lo up P am). assert (Hi : item_ok i) by (exact (conj HP HB)).
  destruct (push_item rR c0 JP hq is_heap HH None true t i Ht Hi) as (B1 & B2 & B3 & _). split; auto. split; auto.
  destruct Ht as (H1 & _). destruct (push_ok bp_lo bp_up hq is_heap HH None true t i H1) as (_ & _ & A3 & _ & A5).
  intros [[(g & Eg & Hg)|[(m & Em & Hm)|(k & Hk & Hkl)]]|HLd].
  - left. exists g. split; auto. congruence.
  - right; left. destruct (new_max_some (bh_max t) i) as (m' & E' & _ & _ & L'). exists m'. split; [congruence|]. rewrite Em in L'. apply qR_le in L'. lra.
  - right; right. exists k. split; auto. apply (Permutation_in _ (Permutation_sym A5)). apply in_or_app; auto.
  - destruct (lt_dec (po_depth (pp_pos1 P) + po_depth (pp_pos2 P)) (length cs1 + length cs2)) as [Hlt|Hge].
    + destruct (activeb bp_lo bp_up (bh_good_thr t) None i) eqn:EA.
      * right; right. exists i. split; [apply (Permutation_in _ (Permutation_sym A5)); left; auto|]. auto.
      * left. unfold activeb in EA. cbn [badb negb] in EA. rewrite andb_true_r in EA. apply negb_false_iff in EA. unfold goodb in EA. destruct (bh_good_thr t) as [g|] eqn:Eg; [|discriminate].
        apply qleb_ok in EA. apply qR_le in EA. exists g. split; auto. specialize (Hv i Hi HLd). lra.
    + right; left. destruct (new_max_some (bh_max t) i) as (m' & E' & L' & _). exists m'. split; [congruence|]. apply qR_le in L'. specialize (Hv0 P lo up am HP HLd Hge EB). cbn [bp_lo i] in L'. lra.
Qed.
Lemma push_list_found {A} (f : A -> option piece_pair) (l : list A) : forall t t', tree_ok t -> (forall a, In a l -> exists P, f a = Some P /\ pair_ok P) ->
  fold_left (fun acc a => obind acc (fun t => match f a with Some p => push_tree ratio hq st t p | None => None end)) l (Some t) = Some t' ->
  tree_ok t' /\ bh_good_thr t' = bh_good_thr t /\ (found t \/ (exists a P, In a l /\ f a = Some P /\ leads P) -> found t').
Proof.
  induction l as [|a l IH]; intros t t' Ht HP E; cbn [fold_left] in E.
  - injection E as <-. split; auto. split; auto. intros [H|(a & P & [] & _)]; auto.
  - destruct (HP a (or_introl eq_refl)) as (P & EP & HPP). unfold obind at 2 in E. rewrite EP in E.
    destruct (push_tree_ok ratio rR c0 HD RO JP HJ st HST hq is_heap None true t P Ht HPP) as (t1 & i & E1 & _). rewrite E1 in E.
    destruct (push_found t P t1 Ht HPP E1) as (B1 & B2 & B3). destruct (IH t1 t' B1) as (C1 & C2 & C3); auto; [intros a' Ha'; apply HP; right; auto|].
    split; auto. split; [congruence|]. intros [H|(a' & P' & [<-|Ha'] & EP' & HL')]; apply C3; auto.
    + left. apply B3. right. congruence.
    + right. eauto.
Qed.
Lemma divide_leads P l : pair_ok P -> leads P -> above P -> divide_balanced P = Some l -> exists P', In P' l /\ leads P'.
Proof.
  intros HP HLd HA E. pose proof HP as (HR & Hj & P1 & P2 & HDp & _). pose proof (leads_depth P HLd) as [D1 D2]. destruct HLd as (EJ & (r1 & E1) & r2 & E2).
  pose proof (refines_dcls c0 _ HD HR) as HDc. pose proof (refines_curve c0 _ HC HR) as EC. unfold above in HA. unfold divide_balanced in E.
  destruct (Nat.ltb_spec (po_depth (pp_pos2 P)) (po_depth (pp_pos1 P))) as [Hlt|Hge].
  - destruct (divide_ok (pp_curve P) HDc _ _ P2) as (l0 & El & _ & HX). rewrite El in E. injection E as <-.
    destruct r2 as [|k r2]; [exfalso; rewrite app_nil_r in E2; apply (f_equal (@length nat)) in E2; unfold po_depth in *; lia|].
    assert (Hk : k < cv_genus (pp_curve P)). { rewrite EC. rewrite E2 in W2. apply Forall_app in W2 as [_ W]. inversion W; auto. }
    destruct (HX c0 k) as (i & [c' pos'] & Hi & _ & Ec & _); [rewrite EC; apply chosen_self; auto|auto|]. cbn [fst snd] in Ec.
    exists (PP c' (pp_junc P) (pp_pos1 P) pos'). split; [apply in_map_iff; exists (c', pos'); split; auto; eapply nth_error_In; eauto|].
    split; auto. cbn [pp_pos1 pp_pos2]. split; [exists r1; auto|]. exists r2. rewrite Ec, <- app_assoc. exact E2.
  - destruct (divide_ok (pp_curve P) HDc _ _ P1) as (l0 & El & _ & HX). rewrite El in E. injection E as <-.
    destruct r1 as [|k r1]; [exfalso; rewrite app_nil_r in E1; apply (f_equal (@length nat)) in E1; unfold po_depth in *; lia|].
    assert (Hk : k < cv_genus (pp_curve P)). { rewrite EC. rewrite E1 in W1. apply Forall_app in W1 as [_ W]. inversion W; auto. }
    destruct (HX c0 k) as (i & [c' pos'] & Hi & _ & Ec & _); [rewrite EC; apply chosen_self; auto|auto|]. cbn [fst snd] in Ec.
    exists (PP c' (pp_junc P) pos' (pp_pos2 P)). split; [apply in_map_iff; exists (c', pos'); split; auto; eapply nth_error_In; eauto|].
    split; auto. cbn [pp_pos1 pp_pos2]. split; [|exists r2; auto]. exists r1. rewrite Ec, <- app_assoc. exact E1.
Qed.
Lemma divide_found t t' : tree_ok t -> divide_tree ratio hq st t = Some t' -> found t -> found t'.
Proof.
  intros Ht E HFd.
  assert (NE : bh_items t <> []). { intros E0. unfold divide_tree, bh_pop in E. destruct Ht as ((Hh & _) & _). unfold bh_items in E0. apply map_eq_nil in E0. rewrite E0 in *. rewrite (proj1 (proj2 (proj2 HH))) in E. discriminate. }
  destruct (pop_item rR c0 JP hq is_heap HH None true t Ht NE) as (i & t1 & A1 & A2 & A3 & A4 & A5 & A6 & A7 & A8 & A9). unfold divide_tree in E. rewrite A1 in E.
  destruct (divide_pair c0 HD JP HJ (bp_pair i) (proj1 A3)) as (l & El & F & _). rewrite El in E. unfold obind at 1 in E. unfold push_all in E.
  destruct (push_list_found Some l t1 t' A2) as (_ & _ & C3); auto. { intros a Ha. exists a. split; auto. rewrite Forall_forall in F. auto. }
  apply C3. destruct HFd as [(g & Eg & Hg)|[(m & Em & Hm)|(k & Hk & Hkl & Hka)]].
  - left; left. exists g. split; auto. congruence.
  - left; right; left. exists m. split; auto. congruence.
  - apply (Permutation_in _ A7) in Hk. destruct Hk as [<-|Hk].
    + right. destruct (divide_leads (bp_pair i) l (proj1 A3) Hkl Hka El) as (P' & HP' & HL'). exists P', P'. auto.
    + left; right; right. exists k. auto.
Qed.
Lemma update_found t t' g : tree_ok t -> match bh_good_thr t with Some g0 => (g0 <= g)%Qc | None => True end -> bh_update bp_lo bp_up hq t g = Some t' -> found t -> found t'.
Proof.
  intros Ht Hg E HFd. destruct (update_tree_ok rR c0 JP hq is_heap HH None true t g Ht Hg) as (t2 & E2 & B1 & B2 & B3 & _ & B5 & _). assert (t2 = t') by congruence. subst t2.
  destruct HFd as [(g0 & Eg & Hg0)|[(m & Em & Hm)|(k & Hk & Hkl & Hka)]].
  - left. exists g. split; auto. rewrite Eg in Hg. apply qR_le in Hg. lra.
  - right; left. exists m. split; auto. congruence.
  - destruct (activeb bp_lo bp_up (Some g) None k) eqn:EA.
    + right; right. exists k. split; auto. apply B5. auto.
    + left. exists g. split; auto. unfold activeb in EA. cbn [badb negb] in EA. rewrite andb_true_r in EA. apply negb_false_iff in EA. unfold goodb in EA. apply qleb_ok in EA. apply qR_le in EA.
      destruct Ht as (_ & _ & _ & Hok & _). specialize (Hv k (Hok k (or_introl Hk)) Hkl). lra.
Qed.
(** the loop *)
Lemma loop_found m fuel : forall t lo up am n r, tree_ok t -> bh_good_thr t = Some lo -> (exists i, bh_max t = Some i /\ (bp_lo i <= lo)%Qc) -> found t ->
  (Z.of_nat (Nat.min (length cs1) (length cs2)) <= m)%Z ->
  regular_loop ratio hq fuel st None None (Some m) t lo up am n = Some r -> (v <= qR (fst (fst r)))%R.
Proof.
  induction fuel as [|fuel IH]; intros t lo up am n r Ht Eg (i & Em & Hm) HFd Hd E; [discriminate|]. cbn [regular_loop] in E.
  destruct (forallb _ (bh_items t)) eqn:EP.
  { injection E as <-. cbn [fst]. destruct HFd as [(g0 & Eg0 & Hg0)|[(m' & Em' & Hm')|(k & Hk & Hkl & Hka)]].
    - congruence.
    - assert (m' = i) by congruence. subst m'. apply qR_le in Hm. lra.
    - exfalso. rewrite forallb_forall in EP. specialize (EP k Hk). apply Z.ltb_lt in EP. pose proof (leads_depth _ Hkl). unfold pp_depth in EP. lia. }
  destruct (divide_tree ratio hq st t) as [t1|] eqn:ED; [|discriminate]. destruct (bh_max t1) as [item|] eqn:EI; [|discriminate].
  pose proof (divide_found t t1 Ht ED HFd) as HF1.
  assert (NE : bh_items t <> []). { intros E0. unfold divide_tree, bh_pop in ED. destruct Ht as ((Hh & _) & _). unfold bh_items in E0. apply map_eq_nil in E0. rewrite E0 in *. rewrite (proj1 (proj2 (proj2 HH))) in ED. discriminate. }
  destruct (divide_tree_ok ratio rR c0 HD RO JP HJ st HST hq is_heap HH None true t Ht NE) as (t1' & E1' & A1 & A2 & _).
  assert (t1' = t1) by congruence. subst t1'.
  destruct (qltb lo (bp_lo item)) eqn:EB.
  - apply qltb_ok in EB. assert (Hge : match bh_good_thr t1 with Some g0 => (g0 <= bp_lo item)%Qc | None => True end) by (rewrite A2, Eg; apply Qclt_le_weak; auto).
    destruct (update_tree_ok rR c0 JP hq is_heap HH None true t1 (bp_lo item) A1 Hge) as (t2 & E2 & B1 & B2 & B3 & _). rewrite E2 in E. destruct (bh_top t2) as [top|]; [|discriminate].
    refine (IH t2 _ _ _ _ r B1 B2 _ (update_found t1 t2 _ A1 Hge E2 HF1) Hd E). exists item. split; [congruence|apply Qcle_refl].
  - apply qltb_false in EB. destruct (bh_top t1) as [top|]; [|discriminate]. refine (IH t1 _ _ _ _ r A1 _ _ HF1 Hd E); [congruence|]. exists item. auto.
Qed.
End Track.

(** Faces under base maps. *)
Definition fliph (e : option Z) : option Z := option_map (fun v => (1 - v)%Z) e.
Lemma invol_fliph : invol fliph. Proof. intros [v|]; unfold fliph; cbn [option_map]; auto. f_equal. lia. Qed.
Definition face_act (g : base_map) (face : list (option Z)) : list (option Z) := act fliph None g face.
Definition is_free (e : option Z) : bool := match e with None => true | _ => false end.
Lemma face_act_valid d g face : wf_bm d g -> valid_face d face -> valid_face d (face_act g face) /\ face_free (face_act g face) = face_free face.
Proof.
  intros Hg [HL HF]. split; [split; [unfold face_act; rewrite length_act; apply wf_length; auto|]|].
  - apply (act_Forall _ _ d); auto. intros e [-> | [-> | ->]]; cbn; auto.
  - unfold face_free, face_act. fold is_free. destruct (act_Permutation fliph None d g face Hg HL) as (y & HP & HF2).
    rewrite (Permutation_length (filter_perm is_free _ _ HP)). clear HP. induction HF2 as [|a b l l' H _ IH]; cbn; auto.
    assert (E : is_free b = is_free a) by (destruct H as [->| ->]; [auto|]; destruct a; auto). rewrite E. destruct (is_free a); cbn; lia.
Qed.
Lemma on_face_act d g face x : wf_bm d g -> length face = d -> length x = d -> on_face face x -> on_face (face_act g face) (gx g x).
Proof.
  intros Hg HL Hx H j e E. assert (Hj : j < d). { rewrite <- (wf_length d g Hg). rewrite <- (length_act fliph None g face). apply nth_error_Some. unfold face_act in E. congruence. }
  pose proof (nth_error_nth _ _ None E) as E'. unfold face_act in E'. rewrite nth_act in E' by (rewrite (wf_length d); auto). unfold gx. rewrite nth_act by (rewrite (wf_length d); auto).
  pose proof (wf_nth_lt d g j Hg Hj) as Hk. set (k := fst (nth j (coords g) (0, false))) in *.
  destruct (nth_error face k) as [o|] eqn:Ek; [|apply nth_error_None in Ek; lia]. rewrite (nth_error_nth _ _ None Ek) in E'.
  destruct (snd (nth j (coords g) (0, false))).
  - destruct o as [z|]; [|discriminate]. cbn in E'. assert (Ez : (1 - z = e)%Z) by (injection E'; auto). rewrite (H k z Ek). rewrite <- Ez, minus_IZR. auto.
  - subst o. apply (H k e Ek).
Qed.
(** The key points of a fraction are the images of the points in the stash. *)
Lemma key_in_points c X fd pts s0 u0 : valid_curve c -> check c = Some true -> wfS (core_of c) X -> fd <= cv_dim c -> face_points c fd = Some pts ->
  face_moment_of (cv_mul_sp X c) fd s0 u0 ->
  exists l p, nth_error pts (sp_pnum X) = Some l /\ In p l /\ length (fst p) = cv_dim c /\ s0 = gt (sp_bm X) (qR (snd p)) /\ u0 = gx (sp_bm X) (map qR (fst p)).
Proof.
  intros HC Hch HX Hfd Ep (Hg & face & HV & Hfree & Hon & Hext). pose proof HX as [Hb Hq]. set (b := sp_bm X) in *. set (q := sp_pnum X) in *. set (d := cv_dim c) in *.
  pose proof (core_of_full c (valid_curve_fuzzy c HC)) as HF. pose proof (full_ok _ HF) as HK.
  assert (HI : wfS (core_of c) (Sp (id_map d) q)) by (apply (wfS_id c); auto).
  assert (EX : bm_mul_sp b (Sp (id_map d) q) = X) by (apply (spec_id_mul (core_of c)); auto).
  assert (Hbi : wf_bm d (bm_inv b)) by (apply wf_inv; auto).
  assert (EG : forall s u, length u = d -> graph (pattern_curve c q) s u <-> graph (cv_mul_sp X c) (gt b s) (gx b u)).
  { intros s u Lu. rewrite (graph_pattern c HC) by auto. rewrite (graph_kgraph c HC) by auto. rewrite <- EX. symmetry. apply (kgraph_mul_iff (core_of c) HK); auto. }
  assert (Hdim : cv_dim (cv_mul_sp X c) = d) by (unfold cv_mul_sp; rewrite cv_mul_eq; auto). rewrite Hdim in HV.
  assert (Lu0 : length u0 = d) by (apply (graph_kgraph c HC) in Hg; auto; apply Hg).
  set (u1 := gx (bm_inv b) u0). assert (Lu1 : length u1 = d) by (apply (gx_length (core_of c)); auto).
  assert (Eu : gx b u1 = u0) by (apply (gx_inv_r (core_of c)); auto).
  assert (Es : gt b (gt b s0) = s0) by apply gt_gt.
  assert (Hg1 : graph (pattern_curve c q) (gt b s0) u1) by (apply EG; auto; rewrite Eu, Es; auto).
  set (face1 := face_act (bm_inv b) face). destruct (face_act_valid d (bm_inv b) face Hbi HV) as [HV1 Hfree1]. fold face1 in HV1, Hfree1.
  assert (Hon1 : on_face face1 u1) by (apply (on_face_act d); auto; apply HV).
  assert (EF : face_act b face1 = face) by (apply (act_inv_r _ _ d); auto; [apply invol_fliph|apply HV]).
  assert (HL : exists lst, forall s' u', graph (pattern_curve c q) s' u' -> on_face face1 u' -> if lst : bool then (s' <= gt b s0)%R else (gt b s0 <= s')%R).
  { assert (Hm : forall s' u', graph (pattern_curve c q) s' u' -> on_face face1 u' -> graph (cv_mul_sp X c) (gt b s') (gx b u') /\ on_face face (gx b u')).
    { intros s' u' Hg' Hf'. assert (Lu' : length u' = d) by (apply (graph_pattern c HC) in Hg'; auto; apply Hg'). split; [apply EG; auto|]. rewrite <- EF. apply (on_face_act d); auto. apply HV1. }
    unfold gt in *. destruct Hext as [He|He]; destruct (time_rev b).
    - exists true. intros s' u' H1 H2. destruct (Hm s' u' H1 H2) as [H3 H4]. specialize (He _ _ H3 H4). lra.
    - exists false. intros s' u' H1 H2. destruct (Hm s' u' H1 H2) as [H3 H4]. specialize (He _ _ H3 H4). lra.
    - exists false. intros s' u' H1 H2. destruct (Hm s' u' H1 H2) as [H3 H4]. specialize (He _ _ H3 H4). lra.
    - exists true. intros s' u' H1 H2. destruct (Hm s' u' H1 H2) as [H3 H4]. specialize (He _ _ H3 H4). lra. }
  destruct HL as [lst HL]. destruct (face_moment_ok c HC face1 HV1 lst q Hq) as (x & t & _ & Ept & Hgt & Hof & Hex).
  assert (Et : gt b s0 = qR t). { pose proof (HL _ _ Hgt Hof) as H1. pose proof (Hex _ _ Hg1 Hon1) as H2. destruct lst; lra. }
  assert (Exu : u1 = map qR x). { apply (graph_single c HC q (qR t)); auto. rewrite <- Et. auto. }
  (* membership *)
  unfold face_points in Ep. destruct (gen_faces_exact d fd Hfd) as (fs & Efs & _ & Hin). unfold d in Efs. rewrite Efs in Ep.
  destruct (omap_nth _ _ _ q q Ep) as (l & El & Efl). { unfold range. rewrite (nth_error_nth' _ 0) by (rewrite seq_length; auto). rewrite seq_nth; auto. }
  destruct (omap _ (list_prod fs [false; true])) as [r|] eqn:Er; [|discriminate]. cbn [option_map] in Efl. injection Efl as <-.
  assert (Hi : In (face1, lst) (list_prod fs [false; true])).
  { apply in_prod; [|destruct lst; cbn; auto]. apply Hin. split; [apply HV1|]. split; [congruence|apply HV1]. }
  apply In_nth_error in Hi as (n & Hn). destruct (omap_nth _ _ _ n _ Er Hn) as (p & Hp & E2). cbn [fst snd] in E2. assert (p = (x, t)) by congruence. subst p.
  eexists. exists (x, t). split; [exact El|]. cbn [fst snd]. split; [|split; [|split]].
  - apply (Permutation_in _ (Permutation_sym (sorted_perm cp_cmp (dedup cp_eqb r)))). apply (In_dedup cp_eqb cp_eqb_ok). eapply nth_error_In; eauto.
  - rewrite <- Lu1, Exu, map_length. auto.
  - rewrite <- Et. auto.
  - rewrite <- Exu. auto.
Qed.

Lemma kpt_prefix K S a b s u : core_full K -> wfS K S -> wfc K (a ++ b) -> kpt K S (a ++ b) s u -> kpt K S a s u.
Proof.
  intros HF HS. induction b as [|k b IH] using rev_ind; intros W H; [rewrite app_nil_r in H; auto|]. rewrite app_assoc in *. apply Forall_app in W as [W Wk].
  apply IH; auto. apply (kpt_join K HF _ k); auto. inversion Wk; auto.
Qed.
Lemma cp_mul_R d b p : wf_bm d b -> length (fst p) = d -> qR (snd (cp_mul b p)) = gt b (qR (snd p)) /\ map qR (fst (cp_mul b p)) = gx b (map qR (fst p)).
Proof.
  intros Hb HL. unfold cp_mul. cbn [fst snd]. split.
  - unfold gt, apply_t. destruct (time_rev b); auto. rewrite qR_sub, qR_1. auto.
  - unfold pt_mul, apply_x, gx. apply (act_map _ _ _ _ _ d); auto. intros v. rewrite qR_sub, qR_1. auto.
Qed.

Section Main.
Context (ratio : ratio_func) (rR : list R -> R -> R) (c : curve) (HC : valid_curve c) (RO : ratio_ok (cv_dim c) (ratio (cv_dim c)) rR) (HCh : check c = Some true).
Context (hq : heap_impl bpair) (is_heap : list (node bpair) -> Prop) (HH : IH_ok hq is_heap).
Context (fd : nat) (Hfd : fd <= cv_dim c) (pts : list (list (list Qc * Qc))) (Epts : face_points c fd = Some pts) (HST : points_ok c (Some pts)).
Context (js : list junction) (HJS : forall j, In j js -> wft (core_of c) (jt j) /\ j_dt j = 1%Z).
Notation K := (core_of c). Notation AJ := (all_juncs c js).
Let HF : core_full K := core_of_full c (valid_curve_fuzzy c HC).
Let HK : core_ok K := full_ok K HF.
Context (j : junction) (Hj : AJ j) (cs1 cs2 : list nat) (HFP : fraction_pair c j cs1 cs2) (s : R) (u : list R) (t : R) (w : list R)
  (K1 : key_on_piece c (j_spec1 j) cs1 fd s u) (K2 : key_on_piece c (j_spec2 j) cs2 fd t w).
Notation d := (cv_dim c).
Let HJ : forall j, AJ j -> wft K (jt j) := juncs_wft c js HJS.
Lemma key_placed X cnums s1 u1 : wfS K X -> wfc K cnums -> key_on_piece c X cnums fd s1 u1 ->
  exists l p, let Y := kst K (Sp (id_map d) (sp_pnum X)) cnums in nth_error pts (sp_pnum Y) = Some l /\ In p l /\
    placed K X (map (kflip K (sp_bm X)) cnums) (cp_mul (sp_bm X) (cp_mul (sp_bm Y) p)) s1 u1.
Proof.
  intros HX W (L & cubes & f & s0 & u0 & EW & HM & E1 & E2). set (cs := map (flip_num (sp_bm X) (cv_genus c)) cnums) in *.
  assert (Wc : wfc K cs) by (apply (wfc_flip K (sp_bm X) cnums W)). rewrite (walk_eq c HC cs X HX Wc) in EW. injection EW as <- <-.
  set (Y := kst K (Sp (id_map d) (sp_pnum X)) cnums).
  assert (HI : wfS K (Sp (id_map d) (sp_pnum X))) by (apply (wfS_id c), HX).
  assert (HY : wfS K Y) by (apply kst_wf; auto).
  assert (EK : kst K X cs = bm_mul_sp (sp_bm X) Y).
  { rewrite <- (spec_id_mul K X HX) at 1. rewrite (kst_mul K HK); auto; [|apply HX]. unfold Y. do 2 f_equal. apply (map_flip_flip K); auto. }
  rewrite EK in HM. assert (HW2 : wfS K (bm_mul_sp (sp_bm X) Y)) by (apply (wfS_mul K); auto; apply HX).
  destruct (key_in_points c _ fd pts s0 u0 HC HCh HW2 Hfd Epts HM) as (l & p & Hl & Hp & Lp & Es & Eu). cbn [bm_mul_sp sp_bm sp_pnum] in Hl, Es, Eu.
  exists l, p. cbv zeta. split; auto. split; auto.
  assert (Lr : length (map qR (fst p)) = d) by (rewrite map_length; auto).
  pose proof (proj1 HX) as Hb. pose proof (proj1 HY) as Hb'. cbn [kd core_of] in Hb, Hb'.
  destruct (cp_mul_R d (sp_bm Y) p Hb' Lp) as [R1 R2].
  assert (Lq : length (fst (cp_mul (sp_bm Y) p)) = d) by (rewrite <- (map_length qR), R2; apply (gx_length K); auto).
  destruct (cp_mul_R d (sp_bm X) (cp_mul (sp_bm Y) p) Hb Lq) as [R3 R4].
  rewrite gt_mul in Es. rewrite (gx_mul K) in Eu by auto. rewrite <- R1, <- R3 in Es. rewrite <- R2, <- R4 in Eu. subst s0 u0.
  split; auto.
Qed.
Lemma fp_wf : wfc K cs1 /\ wfc K cs2. Proof. split; apply HFP. Qed.
Lemma key_kpt X cnums s1 u1 : wfS K X -> wfc K cnums -> key_on_piece c X cnums fd s1 u1 -> kpt K X (map (kflip K (sp_bm X)) cnums) s1 u1.
Proof.
  intros HX W (L & cubes & f & s0 & u0 & EW & [HM _] & E1 & E2). apply (on_piece_kpt c); auto. split; auto. exists cubes, f, s0, u0. auto.
Qed.
Definition kv : R := junction_ratio rR d j s u t w.
Lemma kv_up i : item_ok rR c AJ i -> leads j cs1 cs2 (bp_pair i) -> (kv <= qR (bp_up i))%R.
Proof.
  intros [HP HB] (EJ & (r1 & E1) & r2 & E2). pose proof (HJ j Hj) as (X1 & X2 & _). cbn [jt fst snd] in X1, X2. destruct fp_wf as [W1 W2].
  assert (HR : refines c (pp_curve (bp_pair i))) by apply HP. pose proof (refines_curve c _ HC HR) as EC.
  destruct (HB c) as (B1 & _); [rewrite EC; apply chosen_self; auto|]. destruct (B1 s u t w) as [_ B]; [|unfold jrho in B; rewrite EJ in B; exact B].
  unfold pair_kq, kq, jt, jcs1, jcs2. rewrite EJ. split.
  - apply kpt_prefix with (map (kflip K (sp_bm (j_spec1 j))) r1); auto; rewrite <- map_app, <- E1; [apply (wfc_flip K); auto|apply key_kpt; auto].
  - apply kpt_prefix with (map (kflip K (sp_bm (j_spec2 j))) r2); auto; rewrite <- map_app, <- E2; [apply (wfc_flip K); auto|apply key_kpt; auto].
Qed.
Lemma kv_lo P lo up am : pair_ok c AJ P -> leads j cs1 cs2 P -> ~ above cs1 cs2 P -> get_bounds ratio P (Some pts) = Some (lo, up, am) -> (kv <= qR lo)%R.
Proof.
  intros HP HLd HA E. pose proof (leads_depth j cs1 cs2 P HLd) as [D1 D2]. destruct HLd as (EJ & (r1 & E1) & r2 & E2). unfold above in HA.
  assert (r1 = []). { destruct r1; auto. exfalso. unfold po_depth in *. apply (f_equal (@length nat)) in E1. rewrite app_length in E1. cbn in E1. lia. }
  assert (r2 = []). { destruct r2; auto. exfalso. unfold po_depth in *. apply (f_equal (@length nat)) in E2. rewrite app_length in E2. cbn in E2. lia. }
  subst r1 r2. rewrite app_nil_r in E1, E2. pose proof HP as (HR & _ & P1 & P2 & _). pose proof (refines_curve _ _ HC HR) as EC. rewrite EC in P1, P2.
  destruct HST as (_ & HL & Hpts). unfold get_bounds in E. rewrite EC in E. pose proof (dcls_curve c HC) as HD.
  rewrite !deep_last in E by auto. rewrite EJ in *. rewrite <- E1, <- E2 in E.
  pose proof (HJ j Hj) as HW. pose proof HW as (X1 & X2 & _). cbn [jt fst snd] in X1, X2. destruct fp_wf as [W1 W2].
  destruct (key_placed (j_spec1 j) cs1 s u X1 W1 K1) as (l1 & p1 & N1 & I1 & Q1). destruct (key_placed (j_spec2 j) cs2 t w X2 W2 K2) as (l2 & p2 & N2 & I2 & Q2).
  rewrite N1, N2 in E.
  assert (F1 : Forall (qpt K (kst K (Sp (id_map (kd K)) (sp_pnum (j_spec1 j))) (po_cnums (pp_pos1 P)))) (map (cp_mul (sp_bm (kst K (Sp (id_map d) (sp_pnum (j_spec1 j))) cs1))) l1)).
  { rewrite E1 in *. apply (qpt_last c _ _ pts); auto. }
  assert (F2 : Forall (qpt K (kst K (Sp (id_map (kd K)) (sp_pnum (j_spec2 j))) (po_cnums (pp_pos2 P)))) (map (cp_mul (sp_bm (kst K (Sp (id_map d) (sp_pnum (j_spec2 j))) cs2))) l2)).
  { rewrite E2 in *. apply (qpt_last c _ _ pts); auto. }
  destruct (pair_setup ratio rR c RO AJ HJ P c HP) as (e & He & _ & RO' & _ & O1 & O2 & HLd & Hg); [rewrite EC; apply sub_refl|apply HD|]. rewrite EJ in O1, O2, Hg.
  apply (gpb_lo_ge K HF ratio rR RO' j (pp_pos1 P) (pp_pos2 P) e He HW O1 O2 HLd Hg _ _ lo up am _ _ s u t w F1 F2 E (in_map _ _ _ I1) (in_map _ _ _ I2)).
  - unfold jcs1. rewrite <- E1. exact Q1.
  - unfold jcs2. rewrite <- E2. exact Q2.
Qed.
Lemma fp_data k1 r1 k2 r2 : cs1 = k1 :: r1 -> cs2 = k2 :: r2 -> In (j, k1, k2) (pair_data c js).
Proof.
  intros E1 E2. destruct HFP as (W1 & W2 & _ & k1' & r1' & k2' & r2' & E1' & E2' & HA). assert (k1' = k1 /\ k2' = k2) as [-> ->] by (split; congruence).
  rewrite E1 in W1. rewrite E2 in W2. apply Forall_inv in W1, W2. apply (pair_data_in c (dcls_curve c HC) js).
  destruct Hj as [H|H].
  - left. split; auto. apply auto_in in H as (p & Hp & ->). cbn in HA. unfold flip_num in HA. cbn in HA. lia.
  - right. split; auto. split; auto. split; auto. destruct (HJS j H) as [_ Ed]. rewrite Ed in HA. intros E. change (flip_num (sp_bm (j_spec1 j)) (cv_genus c) k1) with (kflip K (sp_bm (j_spec1 j)) k1) in HA.
    change (flip_num (sp_bm (j_spec2 j)) (cv_genus c) k2) with (kflip K (sp_bm (j_spec2 j)) k2) in HA. injection E as Ea Eb. rewrite Ea, Eb in HA. pose proof (G_pos c (valid_curve_fuzzy c HC)). lia.
Qed.
Lemma max_depth_main fuel m lo up am : regular_junctions fuel c = Some js -> (Z.of_nat (Nat.min (length cs1) (length cs2)) <= m)%Z ->
  estimate_dilation_regular ratio hq fuel c None None (Some fd) (Some m) = Some (lo, up, am) -> (kv <= qR lo)%R.
Proof.
  intros EJ Hm E. unfold estimate_dilation_regular in E. rewrite Epts in E. cbn [option_map] in E. pose proof (dcls_curve c HC) as HD.
  destruct (create_tree ratio hq fuel c None None true (Some pts)) as [t0|] eqn:ECT; [|discriminate].
  pose proof ECT as ECT'. unfold create_tree in ECT'. rewrite EJ in ECT'. destruct fp_wf as [W1 W2].
  destruct (push_list_found ratio rR c HC RO AJ HJ (Some pts) HST hq is_heap HH j cs1 cs2 kv kv_up kv_lo
     (fun jcc => init_first_order c (fst (fst jcc)) (snd (fst jcc)) (snd jcc)) (pair_data c js) (bh_new None None true) t0) as (T1 & T2 & T3); auto.
  { exact (new_ok rR c AJ hq is_heap HH None true None). }
  { intros [[j' k1] k2] Hin. cbn [fst snd]. destruct (init_ok c HD js HJS j' k1 k2 Hin) as (P & EP & HP & _). eauto. }
  assert (HF0 : found j cs1 cs2 kv t0).
  { apply T3. right. pose proof HFP as (_ & _ & _ & k1 & r1 & k2 & r2 & E1 & E2 & _). pose proof (fp_data k1 r1 k2 r2 E1 E2) as Hin.
    destruct (init_ok c HD js HJS j k1 k2 Hin) as (P & EP & HP & Ec & Ej & Q1 & Q2). exists (j, k1, k2), P. split; auto. split; [exact EP|]. split; auto. split; [exists r1|exists r2]; rewrite ?Q1, ?Q2; auto. }
  destruct (bh_max t0) as [item|] eqn:EI; [|discriminate].
  assert (Hg0 : match bh_good_thr t0 with Some g0 => (g0 <= bp_lo item)%Qc | None => True end) by (rewrite T2; exact I).
  destruct (update_tree_ok rR c AJ hq is_heap HH None true t0 (bp_lo item) T1 Hg0) as (t1 & EU & B1 & B2 & B3 & _). rewrite EU in E.
  destruct (bh_top t1) as [top|]; [|discriminate].
  change lo with (fst (fst (lo, up, am))). refine (loop_found ratio rR c HC RO AJ HJ (Some pts) HST hq is_heap HH j cs1 cs2 kv W1 W2 _ kv_up kv_lo m fuel t1 (bp_lo item) (bp_up top) (bp_argmax item) 0 (lo, up, am) B1 B2 _ _ Hm E).
  - apply HFP.
  - exists item. split; [congruence|apply Qcle_refl].
  - exact (update_found rR c AJ hq is_heap HH j cs1 cs2 kv kv_up t0 t1 (bp_lo item) T1 Hg0 EU HF0).
Qed.
End Main.

Lemma max_depth_lo hq : heapq_ok hq -> forall ratio rR c fuel fd m lo up am, valid_curve c -> check c = Some true -> ratio_ok (cv_dim c) (ratio (cv_dim c)) rR -> fd <= cv_dim c ->
  estimate_dilation_regular ratio hq fuel c None None (Some fd) (Some m) = Some (lo, up, am) ->
  forall j cs1 cs2 s u t w, In j (gen_auto_junctions c ++ fst (gen_regular_junctions fuel c)) -> fraction_pair c j cs1 cs2 -> (Z.of_nat (Nat.min (length cs1) (length cs2)) <= m)%Z ->
  key_on_piece c (j_spec1 j) cs1 fd s u -> key_on_piece c (j_spec2 j) cs2 fd t w -> (junction_ratio rR (cv_dim c) j s u t w <= qR lo)%R.
Proof.
  intros HQ ratio rR c fuel fd m lo up am HC HCh RO Hfd E j cs1 cs2 s u t w Hj HFP Hm K1 K2. destruct (heapq_inv hq HQ) as [is_heap HH].
  destruct (face_points_ok c fd HC Hfd) as (pts & Ep & HST). assert (EK : cv_kind c = KCurve) by apply HC.
  destruct (gen_regular_junctions fuel c) as [js e] eqn:EJ. cbn [fst] in Hj.
  pose proof (gen_spec c HC fuel) as GS. rewrite EJ in GS. cbn [fst snd] in GS. cbv zeta in GS. destruct GS as (G1 & _).
  assert (Ee : e = GDone). { unfold estimate_dilation_regular in E. rewrite Ep in E. cbn [option_map] in E. destruct e; auto; unfold create_tree, regular_junctions in E; rewrite EK, EJ in E; discriminate. }
  subst e. assert (EJR : regular_junctions fuel c = Some js) by (unfold regular_junctions; rewrite EK, EJ; auto).
  refine (max_depth_main ratio rR c HC RO HCh hq is_heap HH fd Hfd pts Ep HST js (js_wft c HC js G1) j _ cs1 cs2 HFP s u t w K1 K2 fuel m lo up am EJR Hm E).
  apply in_app_or; auto.
Qed.
