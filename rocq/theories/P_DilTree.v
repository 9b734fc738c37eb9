(** The tree of pairs of fractions: pairs, bounds, pushing, dividing. *)
From Verif Require Import Py L_Py L_Qc L_R M_BaseMaps S_BaseMaps L_BaseMaps P_Actions M_Subsets S_Subsets P_Subsets P_Facets
  M_Paths M_Curves M_Utils M_Heap M_Sat M_Dilation S_Heap P_Heap S_Utils S_Curves S_Fuzzy P_CurveAct L_Digits P_Core P_Bridge P_Cont P_Subdiv P_Faces P_FuzzyInit P_FuzzyOps P_FuzzyBuilt
  S_Ratio S_Dilation P_Junctions P_DilGeo P_DilRatio P_DilBounds P_DilPieces.
From Coq Require Import Reals Lra Permutation.
Local Open Scope nat_scope.

Lemma wft_sub c x t : sub_curve c x -> wft (core_of c) t -> wft (core_of x) t.
Proof. intros (E1 & E2 & E3 & _). destruct t as [[X Y] v]. unfold wft, wfS. cbn [kd km core_of]. rewrite E1, E3. auto. Qed.
Lemma gap_deep K k1 r1 k2 r2 dt e : core_ok K -> wfc K (k1 :: r1) -> wfc K (k2 :: r2) -> length (k1 :: r1) = length (k2 :: r2) + e ->
  (Z.of_nat k1 + 1 < Z.of_nat k2 + dt * Z.of_nat (kG K))%Z -> (kT K (k1 :: r1) + 1 < pt2 K dt e (k1 :: r1) (k2 :: r2))%Z.
Proof.
  intros HK W1 W2 HL Hg. unfold pt2. rewrite !kT_cons. inversion W1 as [|? ? _ V1]; inversion W2 as [|? ? _ V2]; subst.
  pose proof (kT_range K HK r1 V1) as R1. pose proof (kT_range K HK r2 V2) as R2. cbn [length] in *. pose proof (kG_ge2 K HK) as HG.
  assert (EL : length r1 = length r2 + e) by lia.
  assert (P1 : (Z.of_nat (kG K) ^ Z.of_nat (S (length r1)) = Z.of_nat (kG K) * Z.of_nat (kG K) ^ Z.of_nat (length r1))%Z) by (rewrite Nat2Z.inj_succ, Z.pow_succ_r; lia).
  assert (P2 : (Z.of_nat (kG K) ^ Z.of_nat (length r1) = Z.of_nat (kG K) ^ Z.of_nat (length r2) * Z.of_nat (kG K) ^ Z.of_nat e)%Z) by (rewrite EL, Nat2Z.inj_add, Z.pow_add_r; lia).
  assert (P3 : (0 < Z.of_nat (kG K) ^ Z.of_nat e)%Z) by (apply Z.pow_pos_nonneg; lia).
  assert (P4 : (0 < Z.of_nat (kG K) ^ Z.of_nat (length r1))%Z) by (apply Z.pow_pos_nonneg; lia).
  rewrite P1. set (g := (Z.of_nat (kG K) ^ Z.of_nat (length r1))%Z) in *. set (h := (Z.of_nat (kG K) ^ Z.of_nat (length r2))%Z) in *. set (f := (Z.of_nat (kG K) ^ Z.of_nat e)%Z) in *.
  clearbody f g h. assert (0 <= kT K r2 * f)%Z by nia. rewrite Z.mul_add_distr_r.
  replace (Z.of_nat k2 * h * f)%Z with (Z.of_nat k2 * g)%Z by (rewrite P2; ring). nia.
Qed.

Section Tree.
Context (ratio : ratio_func) (rR : list R -> R -> R) (c0 : curve) (HD : dcls c0) (RO : ratio_ok (cv_dim c0) (ratio (cv_dim c0)) rR).
Context (JP : junction -> Prop) (HJ : forall j, JP j -> wft (core_of c0) (jt j)).
Notation G := (cv_genus c0).
Notation digit b k := (kflip (core_of c0) b k).
(** Pairs of fractions that are not neighbours. *)
Definition apart_first (j : junction) (k1 k2 : nat) : Prop :=
  (Z.of_nat (digit (sp_bm (j_spec1 j)) k1) + 1 < Z.of_nat (digit (sp_bm (j_spec2 j)) k2) + j_dt j * Z.of_nat G)%Z.
Definition pair_ok (P : piece_pair) : Prop :=
  let j := pp_junc P in
  refines c0 (pp_curve P) /\ JP j /\ piece_ok (pp_curve P) (sp_pnum (j_spec1 j)) (pp_pos1 P) /\ piece_ok (pp_curve P) (sp_pnum (j_spec2 j)) (pp_pos2 P) /\
  (po_depth (pp_pos1 P) = po_depth (pp_pos2 P) \/ po_depth (pp_pos1 P) = po_depth (pp_pos2 P) + 1) /\
  exists k1 r1 k2 r2, po_cnums (pp_pos1 P) = k1 :: r1 /\ po_cnums (pp_pos2 P) = k2 :: r2 /\ apart_first j k1 k2.
(** Two moments of a curve chosen from the pair, in its fractions. *)
Definition pair_kq (P : piece_pair) (x : curve) (s : R) (u : list R) (t : R) (w : list R) : Prop :=
  kq (core_of x) (jt (pp_junc P)) (jcs1 (core_of x) (pp_junc P) (pp_pos1 P)) (jcs2 (core_of x) (pp_junc P) (pp_pos2 P)) s u t w.
Definition jrho (x : curve) (j : junction) (s : R) (u : list R) (t : R) (w : list R) : R := rho (core_of x) rR (j_dt j) (j_dx j) s u t w.
Definition bnd_ok (P : piece_pair) (lo up : Qc) (am : option argmax) : Prop := forall x, chosen_from (pp_curve P) x ->
  (forall s u t w, pair_kq P x s u t w -> (s < t + IZR (j_dt (pp_junc P)) /\ jrho x (pp_junc P) s u t w <= qR up)%R) /\
  (exists s u t w, pair_kq P x s u t w /\ (qR lo <= jrho x (pp_junc P) s u t w)%R) /\
  (forall a, am = Some a -> exists s u t w, pair_kq P x s u t w /\ qR lo = jrho x (pp_junc P) s u t w /\
     am_is (core_of x) (pp_junc P) (pp_pos1 P) (pp_pos2 P) a s u t w).
(** Points for lower bounds: only for a curve, on its graph. *)
Definition points_ok (st : stash) : Prop := match st with
  | None => True
  | Some pts => valid_curve c0 /\ length pts = cv_mult c0 /\ forall p l, nth_error pts p = Some l -> Forall (qpt (core_of c0) (Sp (id_map (cv_dim c0)) p)) l
  end.

Lemma pair_setup P x : pair_ok P -> sub_curve (pp_curve P) x -> valid_fuzzy x -> let K := core_of x in let j := pp_junc P in
  exists e, e <= 1 /\ core_full K /\ ratio_ok (kd K) (ratio (kd K)) rR /\ wft K (jt j) /\ pos_ok K (sp_pnum (j_spec1 j)) (pp_pos1 P) /\ pos_ok K (sp_pnum (j_spec2 j)) (pp_pos2 P) /\
    po_depth (pp_pos1 P) = po_depth (pp_pos2 P) + e /\ (kT K (jcs1 K j (pp_pos1 P)) + 1 < pt2 K (j_dt j) e (jcs1 K j (pp_pos1 P)) (jcs2 K j (pp_pos2 P)))%Z.
Proof.
  intros (HR & Hj & P1 & P2 & HDp & k1 & r1 & k2 & r2 & E1 & E2 & HA) HS HV K j. pose proof (sub_trans _ _ _ (refines_sub _ _ HR) HS) as HS0.
  pose proof (piece_sub _ x _ _ HS P1) as (_ & Q1 & _). pose proof (piece_sub _ x _ _ HS P2) as (_ & Q2 & _).
  assert (HF : core_full K) by (apply core_of_full; auto). pose proof HS0 as (Ed & EN & Em & _).
  exists (po_depth (pp_pos1 P) - po_depth (pp_pos2 P)). split; [lia|]. split; auto. split; [cbn [kd core_of K]; rewrite Ed; exact RO|]. split; [apply (wft_sub c0); auto|]. split; auto. split; auto. split; [lia|].
  unfold jcs1, jcs2. rewrite E1, E2. cbn [map]. fold K in Q1, Q2. destruct Q1 as (_ & _ & W1 & _). destruct Q2 as (_ & _ & W2 & _). unfold po_depth in *. rewrite E1, E2 in *. apply gap_deep.
  - apply full_ok; auto.
  - apply (wfc_flip K (sp_bm (j_spec1 j)) _ W1).
  - apply (wfc_flip K (sp_bm (j_spec2 j)) _ W2).
  - cbn [length]. rewrite !map_length. cbn [length] in *. lia.
  - unfold apart_first in HA. fold j in HA. unfold K. rewrite !(sub_flip c0 x HS0), (sub_G c0 x HS0). exact HA.
Qed.
Lemma deep_last c p pos : dcls c -> valid_curve c -> piece_ok c p pos -> last_spec c p pos = Some (kst (core_of c) (Sp (id_map (cv_dim c)) p) (po_cnums pos)).
Proof.
  intros HDc HC (Hp & (_ & _ & W & _) & _). unfold last_spec, get_deep_spec. apply deep_spec_from; auto. apply (fwfS_id c); auto.
Qed.
Lemma qpt_last c p pos pts l : valid_curve c -> piece_ok c p pos -> nth_error pts (sp_pnum (kst (core_of c) (Sp (id_map (cv_dim c)) p) (po_cnums pos))) = Some l ->
  (forall p l, nth_error pts p = Some l -> Forall (qpt (core_of c) (Sp (id_map (cv_dim c)) p)) l) ->
  Forall (qpt (core_of c) (kst (core_of c) (Sp (id_map (kd (core_of c))) p) (po_cnums pos))) (map (cp_mul (sp_bm (kst (core_of c) (Sp (id_map (cv_dim c)) p) (po_cnums pos)))) l).
Proof.
  intros HC (Hp & (_ & _ & W & _) & _) El H. pose proof (core_of_full c (valid_curve_fuzzy c HC)) as HF.
  assert (HS : wfS (core_of c) (kst (core_of c) (Sp (id_map (cv_dim c)) p) (po_cnums pos))) by (apply kst_wf; auto; [apply full_ok; auto|apply (fwfS_id c); auto]).
  apply Forall_map. specialize (H _ _ El). revert H. apply Forall_impl. intros q Hq. cbn [kd core_of]. set (S := kst (core_of c) (Sp (id_map (cv_dim c)) p) (po_cnums pos)) in *.
  assert (A : qpt (core_of c) (bm_mul_sp (sp_bm S) (Sp (id_map (cv_dim c)) (sp_pnum S))) (cp_mul (sp_bm S) q)) by (apply (qpt_mul (core_of c) HF); auto; [apply HS|apply (fwfS_id c); apply HS]).
  pose proof (spec_id_mul (core_of c) S HS) as E. cbn [kd core_of] in E. rewrite E in A. exact A.
Qed.
Lemma bounds_ok st P : points_ok st -> pair_ok P -> exists lo up am, get_bounds ratio P st = Some (lo, up, am) /\ bnd_ok P lo up am.
Proof.
  intros HST HP. pose proof HP as (HR & Hj & P1 & P2 & HDp & _). pose proof (refines_dcls c0 _ HD HR) as HDc. destruct st as [pts|].
  - destruct HST as (HC & HL & Hpts). pose proof (refines_curve _ _ HC HR) as EC. rewrite EC in *. unfold get_bounds. rewrite EC.
    rewrite !deep_last by auto. pose proof (core_of_full c0 (proj1 HD)) as HF.
    destruct P1 as (I1 & I2 & I3). pose proof (conj I1 (conj I2 I3) : piece_ok c0 (sp_pnum (j_spec1 (pp_junc P))) (pp_pos1 P)) as P1.
    destruct P2 as (J1 & J2 & J3). pose proof (conj J1 (conj J2 J3) : piece_ok c0 (sp_pnum (j_spec2 (pp_junc P))) (pp_pos2 P)) as P2.
    assert (W1 : wfS (core_of c0) (kst (core_of c0) (Sp (id_map (cv_dim c0)) (sp_pnum (j_spec1 (pp_junc P)))) (po_cnums (pp_pos1 P)))).
    { apply kst_wf; [apply full_ok; auto|apply (fwfS_id c0); auto|apply I2]. }
    assert (W2 : wfS (core_of c0) (kst (core_of c0) (Sp (id_map (cv_dim c0)) (sp_pnum (j_spec2 (pp_junc P)))) (po_cnums (pp_pos2 P)))).
    { apply kst_wf; [apply full_ok; auto|apply (fwfS_id c0); auto|apply J2]. }
    destruct (nth_error pts (sp_pnum (kst (core_of c0) (Sp (id_map (cv_dim c0)) (sp_pnum (j_spec1 (pp_junc P)))) (po_cnums (pp_pos1 P))))) as [l1|] eqn:N1; [|apply nth_error_None in N1; destruct W1 as [_ W1]; cbn [km core_of] in W1; lia].
    destruct (nth_error pts (sp_pnum (kst (core_of c0) (Sp (id_map (cv_dim c0)) (sp_pnum (j_spec2 (pp_junc P)))) (po_cnums (pp_pos2 P))))) as [l2|] eqn:N2; [|apply nth_error_None in N2; destruct W2 as [_ W2]; cbn [km core_of] in W2; lia].
    pose proof (qpt_last c0 _ _ _ _ HC P1 N1 Hpts) as F1. pose proof (qpt_last c0 _ _ _ _ HC P2 N2 Hpts) as F2.
    destruct (pair_setup P c0 HP) as (e & He & _ & RO' & HW & O1 & O2 & HLd & Hg); [rewrite EC; apply sub_refl|apply HD|].
    destruct (gpb_spec (core_of c0) HF ratio rR RO' (pp_junc P) (pp_pos1 P) (pp_pos2 P) e He HW O1 O2 HLd Hg _ _ F1 F2) as (lo & up & am & EG & _ & HA).
    exists lo, up, am. split; [exact EG|]. intros x Hx. rewrite EC in Hx. apply chosen_curve_eq in Hx; auto. subst x.
    destruct (gpb_encloses (core_of c0) HF ratio rR RO' (pp_junc P) (pp_pos1 P) (pp_pos2 P) e He HW O1 O2 HLd Hg _ _ lo up am F1 F2 EG) as [B1 B2].
    split; [exact B1|]. split; [exact B2|]. intros a ->. exact HA.
  - unfold get_bounds. destruct (pair_setup P (pp_curve P) HP (sub_refl _) (proj1 HDc)) as (e & He & HF & RO' & HW & O1 & O2 & HLd & Hg).
    destruct (gpb_spec _ HF ratio rR RO' (pp_junc P) (pp_pos1 P) (pp_pos2 P) e He HW O1 O2 HLd Hg [] [] (Forall_nil _) (Forall_nil _)) as (lo & up & am & EG & _ & _).
    exists lo, up, am. split; [exact EG|]. intros x Hx. pose proof (chosen_sub _ _ HDc Hx) as HS. pose proof (valid_curve_fuzzy _ (dcls_chosen _ _ HDc Hx)) as HVx.
    clear e He HF RO' HW O1 O2 HLd Hg. destruct (pair_setup P x HP HS HVx) as (e & He & HF & RO' & HW & O1 & O2 & HLd & Hg).
    destruct (gpb_encloses _ HF ratio rR RO' (pp_junc P) (pp_pos1 P) (pp_pos2 P) e He HW O1 O2 HLd Hg [] [] lo up am (Forall_nil _) (Forall_nil _) EG) as [B1 B2].
    split; [exact B1|]. split; [exact B2|]. intros a ->.
    destruct (gpb_spec _ HF ratio rR RO' (pp_junc P) (pp_pos1 P) (pp_pos2 P) e He HW O1 O2 HLd Hg [] [] (Forall_nil _) (Forall_nil _)) as (lo' & up' & am' & EG' & _ & HA).
    rewrite EG in EG'. injection EG' as <- <- <-. exact HA.
Qed.

(** Division of a pair *)
Lemma child_cnums P k cube : po_cnums (po_specify P k cube) = po_cnums P ++ [k]. Proof. reflexivity. Qed.
Lemma divide_pair P : pair_ok P -> exists l, divide_balanced P = Some l /\ Forall pair_ok l /\
  (forall P', In P' l -> pp_junc P' = pp_junc P /\ (forall x, chosen_from (pp_curve P') x -> chosen_from (pp_curve P) x) /\
     po_depth (pp_pos1 P') + po_depth (pp_pos2 P') = S (po_depth (pp_pos1 P) + po_depth (pp_pos2 P))) /\
  forall x s u t w, chosen_from (pp_curve P) x -> pair_kq P x s u t w -> exists P', In P' l /\ chosen_from (pp_curve P') x /\ pair_kq P' x s u t w.
Proof.
  intros HP. pose proof HP as (HR & Hj & P1 & P2 & HDp & k1 & r1 & k2 & r2 & E1 & E2 & HA). pose proof (refines_dcls c0 _ HD HR) as HDc. unfold divide_balanced.
  destruct (Nat.ltb_spec (po_depth (pp_pos2 P)) (po_depth (pp_pos1 P))) as [Hlt|Hge].
  - destruct (divide_ok (pp_curve P) HDc _ _ P2) as (l & El & HF & HX). rewrite El. cbn [option_map]. eexists. split; [reflexivity|]. split; [|split].
    + apply Forall_map. revert HF. apply Forall_impl. intros [c' pos'] (C1 & C2 & C3 & C4 & C5 & (q & k' & s' & Hq & Hk' & ES) & k & cube & Hk & Ek). cbn [fst snd] in *. subst pos'.
      split; [exact (ref_step c0 (pp_curve P) q k' s' c' HR Hq Hk' ES)|]. cbn [pp_junc pp_curve pp_pos1 pp_pos2]. split; auto. split; [eapply piece_sub; eauto|]. split; auto.
      split; [unfold po_depth in *; rewrite child_cnums, app_length; cbn; lia|]. exists k1, r1, k2, (r2 ++ [k]). rewrite child_cnums, E2. auto.
    + intros P' HP'. apply in_map_iff in HP' as ([c' pos'] & <- & Hin). rewrite Forall_forall in HF. destruct (HF _ Hin) as (_ & _ & _ & _ & C5 & _ & k & cube & _ & Ek). cbn [fst snd pp_junc pp_curve pp_pos1 pp_pos2] in *. split; auto. split; auto. subst pos'.
      unfold po_depth. rewrite child_cnums, app_length. cbn. lia.
    + intros x s u t w Hx [HQ1 HQ2]. pose proof (chosen_sub _ _ HDc Hx) as HS. pose proof (dcls_chosen _ _ HDc Hx) as HCx. pose proof (core_of_full x (valid_curve_fuzzy _ HCx)) as HFx.
      pose proof (sub_trans _ _ _ (refines_sub _ _ HR) HS) as HS0. pose proof (HJ _ Hj) as HW. apply (wft_sub c0 x) in HW; auto. destruct HW as (W1 & W2 & _).
      pose proof (piece_sub _ x _ _ HS P2) as (_ & (_ & _ & WC & _) & _).
      apply (kpt_split (core_of x) HFx) in HQ2; auto; [|apply wfc_flip; auto]. destruct HQ2 as (k & Hk & HQ2). pose proof (kflip_lt _ (sp_bm (j_spec2 (pp_junc P))) k Hk) as Hk'.
      rewrite (sub_G _ x HS) in Hk'. destruct (HX x _ Hx Hk') as (i & [c' pos'] & Hi & Hc' & Ec & _). cbn [fst snd] in *. exists (PP c' (pp_junc P) (pp_pos1 P) pos').
      split; [apply in_map_iff; exists (c', pos'); split; auto; eapply nth_error_In; eauto|]. split; auto. split; auto. cbn [fst snd jt pp_junc pp_pos2]. unfold jcs2. rewrite Ec, map_app. cbn [map].
      rewrite (kflip_flip _ _ _ Hk). exact HQ2.
  - destruct (divide_ok (pp_curve P) HDc _ _ P1) as (l & El & HF & HX). rewrite El. cbn [option_map]. eexists. split; [reflexivity|]. split; [|split].
    + apply Forall_map. revert HF. apply Forall_impl. intros [c' pos'] (C1 & C2 & C3 & C4 & C5 & (q & k' & s' & Hq & Hk' & ES) & k & cube & Hk & Ek). cbn [fst snd] in *. subst pos'.
      split; [exact (ref_step c0 (pp_curve P) q k' s' c' HR Hq Hk' ES)|]. cbn [pp_junc pp_curve pp_pos1 pp_pos2]. split; auto. split; auto. split; [eapply piece_sub; eauto|].
      split; [unfold po_depth in *; rewrite child_cnums, app_length; cbn; lia|]. exists k1, (r1 ++ [k]), k2, r2. rewrite child_cnums, E1. auto.
    + intros P' HP'. apply in_map_iff in HP' as ([c' pos'] & <- & Hin). rewrite Forall_forall in HF. destruct (HF _ Hin) as (_ & _ & _ & _ & C5 & _ & k & cube & _ & Ek). cbn [fst snd pp_junc pp_curve pp_pos1 pp_pos2] in *. split; auto. split; auto. subst pos'.
      unfold po_depth. rewrite child_cnums, app_length. cbn. lia.
    + intros x s u t w Hx [HQ1 HQ2]. pose proof (chosen_sub _ _ HDc Hx) as HS. pose proof (dcls_chosen _ _ HDc Hx) as HCx. pose proof (core_of_full x (valid_curve_fuzzy _ HCx)) as HFx.
      pose proof (sub_trans _ _ _ (refines_sub _ _ HR) HS) as HS0. pose proof (HJ _ Hj) as HW. apply (wft_sub c0 x) in HW; auto. destruct HW as (W1 & W2 & _).
      pose proof (piece_sub _ x _ _ HS P1) as (_ & (_ & _ & WC & _) & _).
      apply (kpt_split (core_of x) HFx) in HQ1; auto; [|apply wfc_flip; auto]. destruct HQ1 as (k & Hk & HQ1). pose proof (kflip_lt _ (sp_bm (j_spec1 (pp_junc P))) k Hk) as Hk'.
      rewrite (sub_G _ x HS) in Hk'. destruct (HX x _ Hx Hk') as (i & [c' pos'] & Hi & Hc' & Ec & _). cbn [fst snd] in *. exists (PP c' (pp_junc P) pos' (pp_pos2 P)).
      split; [apply in_map_iff; exists (c', pos'); split; auto; eapply nth_error_In; eauto|]. split; auto. split; auto. cbn [fst snd jt pp_junc pp_pos1]. unfold jcs1. rewrite Ec, map_app. cbn [map].
      rewrite (kflip_flip _ _ _ Hk). exact HQ1.
Qed.
End Tree.
