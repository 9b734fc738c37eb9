(** Termination of estimate_dilation_regular: the tree never becomes empty, and its measure decreases. *)
From Verif Require Import Py L_Py L_Qc L_R M_BaseMaps S_BaseMaps L_BaseMaps P_Actions M_Subsets S_Subsets P_Subsets P_Facets P_Combi
  M_Paths M_Curves M_Utils M_Heap M_Sat M_Dilation S_Heap P_Heap S_Utils P_Utils S_Curves S_Fuzzy P_CurveAct L_Digits P_Core P_Bridge P_Cont P_Subdiv P_Faces P_FuzzyInit P_FuzzyOps P_FuzzyBuilt P_Templates
  S_Ratio S_Term S_Dilation P_Junctions P_JuncLoop P_JuncMain P_DilGeo P_DilRatio P_DilBounds P_DilPieces P_DilTree P_DilOps P_DilCreate P_DilRegular P_Conv P_TermOps.
From Coq Require Import Reals Lra Lia Permutation.
Local Open Scope nat_scope.

Section Sharp.
Context (K : core) (HF : core_full K) (rQ : list Qc -> Qc -> option Qc) (rR : list R -> R -> R) (RO : ratio_ok (kd K) rQ rR).
Let HK := full_ok K HF.
Notation G := (kG K). Notation N := (kN K). Notation d := (kd K).
Notation RN := (IZR (Z.of_nat N)). Notation RG := (IZR (Z.of_nat G)).
Local Open Scope R_scope.
Lemma bound_lo2 t dt e cs1 cs2 : wft K t -> wfc K cs1 -> wfc K cs2 -> length cs1 = (length cs2 + e)%nat ->
  (kT K cs1 + 1 < pt2 K dt e cs1 cs2)%Z ->
  exists s u t' w, kq K t cs1 cs2 s u t' w /\ rR (pbx K t e cs1 cs2) ((t' + IZR dt) * RG ^ length cs1 - s * RG ^ length cs1) <= rho K rR dt (snd t) s u t' w.
Proof.
  intros HW W1 W2 L Hgap. set (m := (Z.of_nat N ^ Z.of_nat e)%Z).
  set (E := fun j => (Z.abs (px1 K t cs1 j - px2 K t e cs1 cs2 j - m) <=? Z.abs (px1 K t cs1 j - px2 K t e cs1 cs2 j + 1))%Z).
  pose proof HW as HW'. destruct t as [[X Y] v]. destruct HW as (HX & HY & Hv).
  destruct (kpt_corner K HF X cs1 E HX W1) as (s & u & HA & EA). destruct (kpt_corner K HF Y cs2 (fun j => negb (E j)) HY W2) as (t' & w & HB & EB).
  exists s, u, t', w. assert (HQ : kq K (X, Y, v) cs1 cs2 s u t' w) by (split; auto). split; auto.
  destruct (pair_box K HF _ dt e cs1 cs2 s u t' w HW' W1 W2 L HQ) as (B1 & B2 & _ & _).
  pose proof (bound_gap K HF _ dt e cs1 cs2 s u t' w HW' W1 W2 L HQ Hgap) as Hlt. rewrite (rho_scaled K HF rQ rR RO dt _ (length cs1)) by auto.
  apply (ro_mono _ _ _ RO).
  2:{ apply IZR_lt in Hgap. rewrite plus_IZR in Hgap. lra. }
  unfold pbx, bx. apply Forall2_map_seq. intros j Hj. rewrite (Rabs_right (IZR _)) by (apply Rle_ge, IZR_le; lia).
  rewrite (EA j Hj). assert (EW : (nth j w 0 + IZR (nth j v 0%Z)) * RN ^ length cs1 = IZR (px2 K (X, Y, v) e cs1 cs2 j) + (if E j then 0 else IZR m)).
  { unfold px2. cbn [fst snd]. rewrite plus_IZR, !mult_IZR, !IZR_pow, L, pow_add. unfold m. rewrite IZR_pow. specialize (EB j Hj). destruct (E j); cbn in EB; nra. }
  cbn [snd]. rewrite EW. change (kX K X cs1 j) with (px1 K (X, Y, v) cs1 j). fold m. unfold E. destruct (Z.leb_spec (Z.abs (px1 K (X, Y, v) cs1 j - px2 K (X, Y, v) e cs1 cs2 j - m)) (Z.abs (px1 K (X, Y, v) cs1 j - px2 K (X, Y, v) e cs1 cs2 j + 1))) as [Hl|Hl].
  - rewrite Z.max_l by lia. rewrite abs_IZR. apply Req_le. f_equal. rewrite plus_IZR, minus_IZR. lra.
  - rewrite Z.max_r by lia. rewrite abs_IZR. apply Req_le. f_equal. rewrite !minus_IZR. lra.
Qed.
End Sharp.

Section TermReg.
Context (ratio : ratio_func) (rR : list R -> R -> R) (c0 : curve) (HD : dcls c0) (RO : ratio_ok (cv_dim c0) (ratio (cv_dim c0)) rR).
Context (p : nat) (RP : ratio_power p rR).
Context (hq : heap_impl bpair) (is_heap : list (node bpair) -> Prop) (HH : IH_ok hq is_heap).
Context (JP : junction -> Prop) (HJ : forall j, JP j -> wft (core_of c0) (jt j)).
Notation pair_ok := (pair_ok c0 JP).
Notation tree_x := (tree_x ratio rR c0 JP None is_heap None true).
Notation exact_item := (exact_item ratio None).
Notation RG := (IZR (Z.of_nat (cv_genus c0))).

Lemma strict_dt dv s t : (floor1 rR c0 <= rR dv 1)%R -> (0 < s < t)%R -> (rR dv t < rR dv s)%R.
Proof.
  intros Hf [Hs Hst]. pose proof (floor_pos rR c0 HD p RP) as Hp. assert (Ht : (0 < t)%R) by lra. pose proof (rp_dt _ _ RP dv s Hs) as D1. pose proof (rp_dt _ _ RP dv t Ht) as D2.
  pose proof (pow_lt s p Hs) as Q1. pose proof (Rlt_pow_base s t p Hs Hst (rp_p _ _ RP)) as Q2. 
  assert (0 < rR dv t)%R by (apply (Rmult_lt_reg_r (t ^ p)); [apply pow_lt; auto|lra]).
  apply (Rmult_lt_reg_r (s ^ p)); auto. rewrite D1, <- D2. apply Rmult_lt_compat_l; auto.
Qed.
(** the first moment of the first fraction *)
Definition left_end (x : curve) (P : piece_pair) (s : R) : Prop := (s * RG ^ po_depth (pp_pos1 P) = IZR (kT (core_of x) (jcs1 (core_of x) (pp_junc P) (pp_pos1 P))))%R.
(** [lo] is below a value reached by some curve of the pair, strictly unless reached at the first moment of the first fraction *)
Definition wit (P : piece_pair) (lo : Qc) : Prop := exists x s u t w, chosen_from (pp_curve P) x /\ pair_kq P x s u t w /\ ((qR lo < jrho rR x (pp_junc P) s u t w)%R \/ ((qR lo <= jrho rR x (pp_junc P) s u t w)%R /\ left_end x P s)).
Lemma pair_chosen P : pair_ok P -> exists x, chosen_from (pp_curve P) x.
Proof.
  intros HP. pose proof (refines_dcls c0 _ HD (proj1 HP)) as HDc. apply chosen_exists. intros q k Hq Hk. destruct (proj2 HDc q k Hq Hk) as (l & E & _ & NE & _). eauto.
Qed.
Lemma pair_data_of P x : pair_ok P -> chosen_from (pp_curve P) x -> exists e, let K := core_of x in let j := pp_junc P in let cs1 := jcs1 K j (pp_pos1 P) in let cs2 := jcs2 K j (pp_pos2 P) in
  e <= 1 /\ core_full K /\ kG K = cv_genus c0 /\ ratio_ok (kd K) (ratio (kd K)) rR /\ wft K (jt j) /\ wfc K cs1 /\ wfc K cs2 /\ length cs1 = po_depth (pp_pos1 P) /\ length cs1 = length cs2 + e /\ (kT K cs1 + 1 < pt2 K (j_dt j) e cs1 cs2)%Z /\
  (floor1 rR c0 <= rR (pbx K (jt j) e cs1 cs2) 1)%R /\
  forall lo up am, get_bounds ratio P None = Some (lo, up, am) -> qR up = rR (pbx K (jt j) e cs1 cs2) (IZR (pt2 K (j_dt j) e cs1 cs2 - (kT K cs1 + 1))) /\
    qR lo = rR (pbx K (jt j) e cs1 cs2) (IZR (pt2 K (j_dt j) e cs1 cs2 + Z.of_nat (cv_genus c0) ^ Z.of_nat e - kT K cs1)).
Proof.
  intros HP Hx. pose proof (refines_dcls c0 _ HD (proj1 HP)) as HDc. pose proof (chosen_sub _ _ HDc Hx) as HS. pose proof (valid_curve_fuzzy _ (dcls_chosen _ _ HDc Hx)) as HVx.
  pose proof (sub_trans _ _ _ (refines_sub _ _ (proj1 HP)) HS) as HS0. assert (EG : kG (core_of x) = cv_genus c0) by apply (sub_G c0 _ HS0).
  destruct (pair_setup ratio rR c0 RO JP HJ P x HP HS HVx) as (e & He & HF & RO' & HW & O1 & O2 & HLd & Hg).
  exists e. cbv zeta. set (K := core_of x) in *. split; auto. split; auto. split; auto. split; auto. split; auto. pose proof O1 as (_ & _ & W1 & _). pose proof O2 as (_ & _ & W2 & _). split; [apply wfc_flip; auto|]. split; [apply wfc_flip; auto|].
  split; [unfold jcs1; rewrite map_length; auto|]. split; [unfold jcs1, jcs2; rewrite !map_length; auto|]. split; auto. split.
  - apply (ro_mono _ _ _ RO); [|lra]. unfold floor1. replace (cv_dim c0) with (kd K) by apply HS0. apply bx_ones.
    pose proof (ok_N _ (full_ok _ HF)). assert (0 < Z.of_nat (kN K) ^ Z.of_nat e)%Z by (apply Z.pow_pos_nonneg; lia). lia.
  - intros lo up am E. destruct (gpb_spec _ HF ratio rR RO' (pp_junc P) (pp_pos1 P) (pp_pos2 P) e He HW O1 O2 HLd Hg [] [] (Forall_nil _) (Forall_nil _)) as (lo' & up' & am' & EGP & Eup & HA').
    unfold get_bounds in E. rewrite E in EGP. injection EGP as <- <- <-. split; auto.
    assert (Eam : am = None).
    { rewrite (gpb_eq _ HF ratio (pp_junc P) (pp_pos1 P) (pp_pos2 P) e He HW O1 O2 HLd) in E. cbv zeta in E.
      destruct (ratio _ _ _); [|discriminate]. destruct (ratio _ _ _); [|discriminate]. cbn in E. congruence. }
    subst am. rewrite <- EG. apply HA'.
Qed.
Lemma wit_self i : pair_ok (bp_pair i) -> exact_item i -> wit (bp_pair i) (bp_lo i).
Proof.
  intros HP HX. destruct (pair_chosen _ HP) as (x & Hx). destruct (pair_data_of _ x HP Hx) as (e & He & HF & EG & RO' & HW & W1 & W2 & L1 & L2 & Hg & Hf & HE). destruct (HE _ _ _ HX) as [_ El].
  set (K := core_of x) in *.
  destruct (bound_lo2 K HF _ rR RO' _ _ e _ _ HW W1 W2 L2 Hg) as (s & u & t & w & HQ & HR).
  destruct (pair_box K HF _ (j_dt (pp_junc (bp_pair i))) e _ _ s u t w HW W1 W2 L2 HQ) as (B1 & B2 & _ & _). pose proof (bound_gap K HF _ _ e _ _ s u t w HW W1 W2 L2 HQ Hg) as Hlt.
  exists x, s, u, t, w. split; auto. split; [exact HQ|]. unfold jrho. fold K. change (snd (jt (pp_junc (bp_pair i)))) with (j_dx (pp_junc (bp_pair i))) in HR.
  set (cs1 := jcs1 K (pp_junc (bp_pair i)) (pp_pos1 (bp_pair i))) in *. set (cs2 := jcs2 K (pp_junc (bp_pair i)) (pp_pos2 (bp_pair i))) in *.
  rewrite minus_IZR, plus_IZR, IZR_pow in El. pose proof (RGp K (full_ok K HF) (length cs1)) as HG. pose proof (RGp K (full_ok K HF) e) as HGe. rewrite EG in *.
  set (q := (((t + IZR (j_dt (pp_junc (bp_pair i)))) * RG ^ length cs1 - s * RG ^ length cs1))%R) in *.
  assert (Hq : (0 < q)%R) by (unfold q; nra). assert (Hq' : (q <= IZR (pt2 K (j_dt (pp_junc (bp_pair i))) e cs1 cs2) + RG ^ e - IZR (kT K cs1))%R) by (unfold q; lra).
  destruct Hq' as [Hq'|Hq'].
  - left. pose proof (strict_dt (pbx K (jt (pp_junc (bp_pair i))) e cs1 cs2) _ _ Hf (conj Hq Hq')). lra.
  - right. split; [rewrite El, <- Hq'; exact HR|]. unfold left_end. fold K cs1. rewrite <- L1. unfold q in Hq'. lra.
Qed.
Lemma wit_up i lo : pair_ok (bp_pair i) -> exact_item i -> wit (bp_pair i) lo -> (qR lo < qR (bp_up i))%R.
Proof.
  intros HP HX (x & s & u & t & w & Hx & HQ & HW'). destruct (pair_data_of _ x HP Hx) as (e & He & HF & EG & RO' & HW & W1 & W2 & L1 & L2 & Hg & Hf & HE). destruct (HE _ _ _ HX) as [Eu _].
  unfold left_end in HW'. rewrite <- L1 in HW'. set (K := core_of x) in *.
  set (j := pp_junc (bp_pair i)) in *. set (cs1 := jcs1 K j (pp_pos1 (bp_pair i))) in *. set (cs2 := jcs2 K j (pp_pos2 (bp_pair i))) in *.
  assert (HQ' : kq K (jt j) cs1 cs2 s u t w) by exact HQ.
  pose proof (bound_up K HF _ rR RO' _ (j_dt j) e _ _ s u t w HW W1 W2 L2 HQ' Hg) as BU. change (snd (jt j)) with (j_dx j) in BU.
  destruct HW' as [HW'|[HW' HL]].
  - unfold jrho in HW'. rewrite Eu. fold K in HW'. lra.
  - destruct (pair_box K HF _ (j_dt j) e _ _ s u t w HW W1 W2 L2 HQ') as (B1 & B2 & _ & _). pose proof (bound_gap K HF _ _ e _ _ s u t w HW W1 W2 L2 HQ' Hg) as Hlt.
    apply IZR_lt in Hg. rewrite plus_IZR in Hg.
    assert (B3 : (jrho rR x j s u t w <= rR (pbx K (jt j) e cs1 cs2) (IZR (pt2 K (j_dt j) e cs1 cs2) - IZR (kT K cs1)))%R).
    { unfold jrho. apply (bound_pre K HF _ rR RO' (jt j) (j_dt j) e cs1 cs2 s u t w HW W1 W2 L2 HQ'); auto; rewrite ?EG in *; lra. }
    rewrite Eu. eapply Rle_lt_trans; [|apply strict_dt; auto]; [eapply Rle_trans; [exact HW'|exact B3]|]. rewrite minus_IZR, plus_IZR. lra.
Qed.
Lemma divide_cnums P l P' : pair_ok P -> divide_balanced P = Some l -> In P' l -> pp_junc P' = pp_junc P /\ (po_cnums (pp_pos1 P') = po_cnums (pp_pos1 P) \/ exists k, po_cnums (pp_pos1 P') = po_cnums (pp_pos1 P) ++ [k]).
Proof.
  intros HP E Hin. pose proof HP as (HR & Hj & P1 & P2 & _). pose proof (refines_dcls c0 _ HD HR) as HDc. unfold divide_balanced in E. destruct (Nat.ltb _ _).
  - destruct (divide_ok (pp_curve P) HDc _ _ P2) as (l' & El & _ & _). rewrite El in E. injection E as <-. apply in_map_iff in Hin as (cp & <- & _). cbn. auto.
  - destruct (divide_ok (pp_curve P) HDc _ _ P1) as (l' & El & F & _). rewrite El in E. injection E as <-. apply in_map_iff in Hin as (cp & <- & Hin). cbn. split; auto. right.
    rewrite Forall_forall in F. destruct (F cp Hin) as (_ & _ & _ & _ & _ & _ & k & cube & Hk & Ek). exists k. rewrite Ek. reflexivity.
Qed.
Lemma wit_divide P l lo : pair_ok P -> divide_balanced P = Some l -> wit P lo -> exists P', In P' l /\ pair_ok P' /\ wit P' lo.
Proof.
  intros HP E (x & s & u & t & w & Hx & HQ & HW). destruct (divide_pair c0 HD JP HJ P HP) as (l' & El & F & FJ & FX). assert (l' = l) by congruence. subst l'.
  destruct (FX x s u t w Hx HQ) as (P' & Hin & Hx' & HQ'). exists P'. split; auto.
  rewrite Forall_forall in F. pose proof (F P' Hin) as HP'. split; auto. exists x, s, u, t, w. split; auto. split; auto. destruct (divide_cnums P l P' HP E Hin) as [EJ HK'].
  rewrite EJ. destruct HW as [HW|[HW HL]]; auto. right. split; auto. unfold left_end in *. rewrite EJ. destruct HK' as [Ec|(k & Ec)].
  - unfold po_depth, jcs1 in *. rewrite Ec. exact HL.
  - destruct (pair_data_of _ x HP' Hx') as (e & He & HF & EG & RO' & HWf & W1 & W2 & L1 & L2 & Hg & Hf & _). destruct (pair_box (core_of x) HF _ (j_dt (pp_junc P')) e _ _ s u t w HWf W1 W2 L2 HQ') as ((B1 & _) & _).
    rewrite L1, EG in B1. rewrite EJ in *. assert (EL : po_depth (pp_pos1 P') = S (po_depth (pp_pos1 P))) by (unfold po_depth; rewrite Ec, app_length; cbn; lia).
    apply Rle_antisym; auto.
    rewrite EL. cbn [pow]. replace (s * (RG * RG ^ po_depth (pp_pos1 P)))%R with (s * RG ^ po_depth (pp_pos1 P) * RG)%R by ring. rewrite HL. rewrite <- mult_IZR. apply IZR_le.
    unfold jcs1. rewrite Ec, map_app. cbn [map]. rewrite kT_snoc. rewrite EG. lia.
Qed.
Definition linv (t : tree) (lo up : Qc) : Prop :=
  tree_x t /\ bh_good_thr t = Some lo /\ (exists m, bh_max t = Some m /\ (bp_lo m <= lo)%Qc) /\ (exists i, In i (bh_items t) /\ wit (bp_pair i) lo) /\
  (forall top, bh_top t = Some top -> (up <= bp_up top)%Qc).
Lemma act_up g i : activeb bp_lo bp_up (Some g) None i = true <-> (g < bp_up i)%Qc.
Proof. unfold activeb. cbn. rewrite andb_true_r, negb_true_iff, qleb_false. tauto. Qed.
Lemma items_ok t i : tree_x t -> In i (bh_items t) -> pair_ok (bp_pair i) /\ exact_item i.
Proof. intros [Ht HX] Hi. split; [|auto]. destruct Ht as (_ & _ & _ & H & _). apply H. auto. Qed.
Lemma top_some t i : tree_x t -> In i (bh_items t) -> exists top, bh_top t = Some top.
Proof. intros [Ht _] Hi. destruct (top_ok rR c0 JP hq is_heap HH None true t Ht) as [_ T]. destruct T as (top & E & _); eauto. intros E. rewrite E in Hi. destruct Hi. Qed.
(** one iteration *)
Lemma loop_step t lo up : linv t lo up -> exists i t1 item t2, bh_top t = Some i /\ psum (bp_pair i) <= 2 * po_depth (pp_pos1 (bp_pair i)) /\ exact_item i /\ pair_ok (bp_pair i) /\ (bp_lo i <= lo)%Qc /\
  divide_tree ratio hq None t = Some t1 /\ bh_max t1 = Some item /\
  (if qltb lo (bp_lo item) then bh_update bp_lo bp_up hq t1 (bp_lo item) else Some t1) = Some t2 /\
  (exists top, bh_top t2 = Some top /\ linv t2 (if qltb lo (bp_lo item) then bp_lo item else lo) (if qltb (bp_up top) up then bp_up top else up)) /\
  forall B, psum (bp_pair i) < B -> mass B t2 < mass B t.
Proof.
  intros (I1 & I2 & (m0 & M1 & M2) & (iw & W1 & W2) & I5). assert (NE : bh_items t <> []) by (intros E; rewrite E in W1; destruct W1).
  destruct (divide_x ratio rR c0 HD RO JP HJ None I hq is_heap HH None true t I1 NE) as (i & l & t0 & t1 & A1 & A2 & A3 & A4 & A5 & A6 & A7 & A8 & A9 & A10 & A11 & A12 & A13).
  destruct A8 as (B1 & B2 & B3 & B4 & B5 & B6 & _).
  assert (HT1 : bh_good_thr t1 = Some lo) by congruence.
  assert (Hlo : (bp_lo i <= lo)%Qc). { destruct I1 as [(_ & _ & H3 & _) _]. specialize (H3 i A2). rewrite M1 in H3. destruct (stable_new_max true _ _ H3 eq_refl) as (m' & E' & L'). assert (m' = m0) by congruence. subst m'. eapply Qcle_trans; eauto. }
  assert (WT1 : exists i', In i' (bh_items t1) /\ wit (bp_pair i') lo).
  { apply (Permutation_in _ A9) in W1. destruct W1 as [<-|W1]; [|exists iw; split; auto].
    destruct (wit_divide (bp_pair i) l lo A5 A6 W2) as (P' & Hin & HP' & HW'). destruct (B3 P' Hin) as (k & K1 & K2 & K3). exists k. subst P'. split; auto. apply K3. rewrite A10, I2. apply act_up. apply qR_lt. apply (wit_up k lo HP' K2 HW'). }
  assert (exists item, bh_max t1 = Some item) as (item & EI). { destruct B5 as [B5|(k & B5 & _)]; [exists m0; congruence|eauto]. }
  exists i, t1, item.
  assert (DP : psum (bp_pair i) <= 2 * po_depth (pp_pos1 (bp_pair i))) by (unfold psum; destruct A5 as (_ & _ & _ & _ & A5 & _); lia).
  destruct (qltb lo (bp_lo item)) eqn:EB.
  - apply qltb_ok in EB. destruct (update_x ratio rR c0 JP None hq is_heap HH None true t1 (bp_lo item) A12) as (t2 & E2 & C1 & C2 & C3 & _ & C5 & C6). { rewrite HT1. apply Qclt_le_weak; auto. }
    exists t2. repeat (split; auto); [|intros B HB; specialize (A13 B HB); specialize (C6 B); lia].
    assert (HI : In item (bh_items t2) /\ wit (bp_pair item) (bp_lo item)).
    { destruct B5 as [B5|(k & K1 & K2 & K3 & K4)]. { exfalso. rewrite EI, A11, M1 in B5. injection B5 as ->. apply Qclt_not_le in EB. apply EB. auto. }
      assert (k = item) by congruence. subst k. assert (HPi : pair_ok (bp_pair item)). { destruct A12 as [(_ & _ & _ & H & _) _]. apply H. auto. }
      pose proof (wit_self item HPi K2) as HW. pose proof (wit_up item _ HPi K2 HW) as HU. apply qR_lt in HU. split; auto. apply C5. split; [|apply act_up; auto]. apply K4. rewrite A10, I2. apply act_up. eapply Qclt_trans; eauto. }
    destruct (top_some t2 item C1 (proj1 HI)) as (top & ET). exists top. split; auto. split; auto. split; auto. split; [exists item; split; [congruence|apply Qcle_refl]|]. split; [exists item; auto|].
    intros top' ET'. assert (top' = top) by congruence. subst top'. destruct (qltb (bp_up top) up) eqn:EU; [apply Qcle_refl|apply qltb_false; auto].
  - apply qltb_false in EB. exists t1. repeat (split; auto). destruct WT1 as (i' & J1 & J2). destruct (top_some t1 i' A12 J1) as (top & ET). exists top. split; auto. split; auto. split; auto. split; [exists item; auto|]. split; [exists i'; auto|].
    intros top' ET'. assert (top' = top) by congruence. subst top'. destruct (qltb (bp_up top) up) eqn:EU; [apply Qcle_refl|apply qltb_false; auto].
Qed.
Lemma regular_total_tol tl max_iter max_depth D : 
  (forall P lo up am, pair_ok P -> D <= po_depth (pp_pos1 P) -> get_bounds ratio P None = Some (lo, up, am) -> (qR up <= qR lo * qR tl)%R) -> (0 <= qR tl)%R ->
  forall fuel t lo up am n, linv t lo up -> mass (2 * D) t < fuel -> exists r, regular_loop ratio hq fuel None (Some tl) max_iter max_depth t lo up am n = Some r.
Proof.
  intros HDp H0. induction fuel as [|fuel IH]; intros t lo up am n HI HM; [lia|]. cbn [regular_loop]. destruct (qleb up (lo * tl)%Qc) eqn:ET; [eauto|].
  destruct (match max_iter with Some m => _ | None => false end); [eauto|]. destruct (match max_depth with Some m => _ | None => false end); [eauto|].
  destruct (loop_step t lo up HI) as (i & t1 & item & t2 & A1 & A2 & A3 & A4 & A5 & A6 & A7 & A8 & (top & A9 & A10) & A11). rewrite A6, A7, A8, A9. apply IH; auto.
  assert (psum (bp_pair i) < 2 * D); [|specialize (A11 (2 * D) H); lia]. apply Nat.nle_gt. intros Hge. apply qleb_false in ET.
  assert (HL : D <= po_depth (pp_pos1 (bp_pair i))) by lia. specialize (HDp _ _ _ _ A4 HL A3). destruct HI as (_ & _ & _ & _ & HT). specialize (HT i A1). apply qR_le in HT, A5. apply qR_lt in ET. rewrite qR_mul in ET. nra.
Qed.
Lemma regular_total_iter tol m max_depth : forall fuel t lo up am n, linv t lo up -> 0 < fuel -> (m - n < Z.of_nat fuel)%Z -> exists r, regular_loop ratio hq fuel None tol (Some m) max_depth t lo up am n = Some r.
Proof.
  induction fuel as [|fuel IH]; intros t lo up am n HI HL HM; [lia|]. cbn [regular_loop].
  destruct (match tol with Some tl => _ | None => false end); [eauto|]. destruct (Z.ltb_spec m (n + 1)); [eauto|]. destruct (match max_depth with Some m => _ | None => false end); [eauto|].
  destruct (loop_step t lo up HI) as (i & t1 & item & t2 & A1 & A2 & A3 & A4 & A5 & A6 & A7 & A8 & (top & A9 & A10) & A11). rewrite A6, A7, A8, A9. apply IH; auto; lia.
Qed.
End TermReg.
