(** The bounds computed by get_pos_bounds (core level). *)
From Verif Require Import Py L_Py L_Qc M_BaseMaps S_BaseMaps L_BaseMaps P_Actions P_GenMaps M_Subsets S_Subsets P_Subsets P_Points P_Facets
  M_Paths M_Utils M_Curves M_Dilation S_Utils L_R P_Utils S_Curves S_Junctions P_CurveAct L_Digits P_Core P_Bridge P_Paths P_Entrance P_Cont P_Check P_Subdiv
  P_Junctions P_JuncLoop P_JuncMain P_Heap S_Ratio S_Dilation P_DilGeo P_DilRatio.
From Coq Require Import Reals Lra Lia.
Local Open Scope nat_scope.

Lemma fold_points ratio dim mx mt j pos1 pos2 lo :
  let val (pq : (list Qc * Qc) * (list Qc * Qc)) := ratio dim (map (fun xy => (fst xy - snd xy)%Qc) (combine (fst (fst pq)) (fst (snd pq)))) (snd (snd pq) - snd (fst pq))%Qc in
  let am_of (pq : (list Qc * Qc) * (list Qc * Qc)) := AM (map (fun x => (x / Zq mx)%Qc) (fst (fst pq))) (snd (fst pq) / Zq mt)%Qc
                                  (map (fun x => (x / Zq mx)%Qc) (fst (snd pq))) (snd (snd pq) / Zq mt)%Qc j pos1 pos2 in
  forall l, (forall pq, In pq l -> exists v, val pq = Some v) ->
  exists lo' am', fold_left (point_step ratio dim mx mt j pos1 pos2) l (Some (lo, None)) = Some (lo', am') /\
    match am' with
    | None => l = [] /\ lo' = lo
    | Some a => exists pq, In pq l /\ val pq = Some lo' /\ a = am_of pq /\ forall pq' v', In pq' l -> val pq' = Some v' -> (v' <= lo')%Qc
    end.
Proof.
  intros val am_of l. induction l as [|pq l IH] using rev_ind; intros H.
  - exists lo, None. split; auto.
  - destruct IH as (lo' & am' & E & HI). { intros q Hq. apply H, in_or_app; auto. }
    rewrite fold_left_app, E. cbn [fold_left]. unfold point_step at 1. destruct (H pq) as (v & Ev); [apply in_or_app; cbn; auto|].
    unfold val in Ev. rewrite Ev. cbv zeta. fold (am_of pq).
    destruct am' as [a|].
    + destruct HI as (pq0 & H0 & V0 & A0 & M0). rewrite orb_false_r. destruct (qltb lo' v) eqn:L.
      * apply qltb_ok in L. eexists. eexists. split; [reflexivity|]. exists pq. split; [apply in_or_app; cbn; auto|]. split; auto. split; auto.
        intros pq' v' Hin Hv. apply in_app_or in Hin as [Hin|[<-|[]]].
        -- apply Qclt_le_weak. apply Qcle_lt_trans with lo'; eauto.
        -- unfold val in Hv. rewrite Ev in Hv. injection Hv as ->. apply Qcle_refl.
      * eexists. eexists. split; [reflexivity|]. exists pq0. split; [apply in_or_app; auto|]. split; auto. split; auto.
        intros pq' v' Hin Hv. apply in_app_or in Hin as [Hin|[<-|[]]]; eauto.
        unfold val in Hv. rewrite Ev in Hv. injection Hv as <-. apply Qcnot_lt_le. intros X. apply qltb_ok in X. congruence.
    + destruct HI as [-> ->]. rewrite orb_true_r. eexists. eexists. split; [reflexivity|]. exists pq. split; [apply in_or_app; cbn; auto|]. split; auto. split; auto.
      intros pq' v' [<-|[]] Hv. unfold val in Hv. rewrite Ev in Hv. injection Hv as ->. apply Qcle_refl.
Qed.

Section Bounds.
Context (K : core) (HF : core_full K) (ratio : ratio_func) (rR : list R -> R -> R) (RO : ratio_ok (kd K) (ratio (kd K)) rR).
Let HK := full_ok K HF.
Notation G := (kG K). Notation N := (kN K). Notation d := (kd K).
Notation RN := (IZR (Z.of_nat N)). Notation RG := (IZR (Z.of_nat G)).

Definition pos_ok (p : nat) (pos : position) : Prop :=
  po_dim pos = d /\ po_div pos = N /\ wfc K (po_cnums pos) /\ po_cubes pos = kcubes K (Sp (id_map d) p) (po_cnums pos).
Lemma kflip_id_map k : kflip K (id_map d) k = k. Proof. reflexivity. Qed.
Lemma spec_id_mul X : wfS K X -> bm_mul_sp (sp_bm X) (Sp (id_map d) (sp_pnum X)) = X.
Proof. intros [H _]. destruct X as [b p]. unfold bm_mul_sp. cbn [sp_bm sp_pnum] in *. rewrite (mul_id_r d); auto. Qed.
Lemma coords_x X pos : wfS K X -> pos_ok (sp_pnum X) pos ->
  apply_cube (sp_bm X) (Z.of_nat N ^ Z.of_nat (po_depth pos)) (fst (po_coords pos)) = map (kX K X (map (kflip K (sp_bm X)) (po_cnums pos))) (seq 0 d).
Proof.
  intros HX (E1 & E2 & W & E3). pose proof HX as [Hb Hp]. unfold po_coords. cbn [fst]. rewrite get_int_cube_value, E1, E2, E3.
  pose proof (wfS_idp K _ Hp) as HI.
  apply nth_ext_lt with 0%Z; [unfold apply_cube; rewrite length_act, map_length, seq_length; apply wf_length; auto|].
  intros i Hi. unfold apply_cube in Hi. rewrite length_act, (wf_length d) in Hi by auto.
  rewrite (nth_map_seq (kX K X (map (kflip K (sp_bm X)) (po_cnums pos)))) by auto.
  unfold apply_cube. rewrite nth_act by (rewrite (wf_length d); auto). pose proof (wf_nth_lt d _ i Hb Hi) as Hk.
  rewrite (nth_map_seq (fun j => value (Z.of_nat N) (coordj j (kcubes K (Sp (id_map d) (sp_pnum X)) (po_cnums pos))))) by auto.
  unfold kX. assert (EC : kcubes K X (map (kflip K (sp_bm X)) (po_cnums pos)) = map (apply_cube (sp_bm X) (Z.of_nat N)) (kcubes K (Sp (id_map d) (sp_pnum X)) (po_cnums pos))).
  { rewrite <- (spec_id_mul X HX) at 1. rewrite (kcubes_mul K HK) by (auto; apply wfc_flip; auto). rewrite (map_flip_flip K) by auto. auto. }
  rewrite EC.
  rewrite (place_apply K); auto. 2:{ eapply Forall_impl; [|apply (kcubes_grid K HK); auto]. intros q Hq. apply Hq. }
  rewrite (kcubes_length K). unfold place_of, coordj, po_depth. cbv zeta. destruct (snd (nth i (coords (sp_bm X)) (0, false))); lia.
Qed.
Lemma ZG_ZN n : ((Z.of_nat N ^ Z.of_nat n) ^ Z.of_nat d = Z.of_nat G ^ Z.of_nat n)%Z.
Proof. unfold kG. rewrite Nat2Z.inj_pow, <- !Z.pow_mul_r by lia. f_equal. lia. Qed.
Lemma coords_t X pos : wfS K X -> pos_ok (sp_pnum X) pos ->
  apply_cnum (sp_bm X) ((Z.of_nat N ^ Z.of_nat (po_depth pos)) ^ Z.of_nat d) (snd (po_coords pos)) = kT K (map (kflip K (sp_bm X)) (po_cnums pos)).
Proof.
  intros HX (E1 & E2 & W & E3). unfold po_coords. cbn [snd]. rewrite get_int_time_value, E1, E2, (kT_flip K) by auto.
  rewrite ZG_ZN. replace (Z.of_nat N ^ Z.of_nat d)%Z with (Z.of_nat G) by (unfold kG; rewrite Nat2Z.inj_pow; auto). reflexivity.
Qed.
(** a rational point (x, t) on the curve of a spec *)
Definition qpt (X : spec) (p : list Qc * Qc) : Prop := kgraph K X (qR (snd p)) (map qR (fst p)).
Lemma map_qR_act b x : wf_bm d b -> length x = d -> map qR (pt_mul b x) = gx b (map qR x).
Proof.
  intros Hb L. apply nth_ext_lt with 0%R; [rewrite map_length; unfold pt_mul, apply_x, gx; rewrite !length_act; auto|]. intros i Hi.
  rewrite map_length in Hi. unfold pt_mul, apply_x in *. rewrite length_act in Hi. rewrite (map_nth_lt _ _ _ 0%Qc) by (rewrite length_act; auto).
  unfold gx. rewrite !nth_act by auto. rewrite (wf_length d) in Hi by auto. pose proof (wf_nth_lt d b i Hb Hi).
  rewrite (map_nth_lt _ _ _ 0%Qc) by lia. destruct (snd (nth i (coords b) (0, false))); auto. rewrite qR_sub, qR_1. auto.
Qed.
Lemma qpt_mul b X p : wf_bm d b -> wfS K X -> qpt X p -> qpt (bm_mul_sp b X) (cp_mul b p).
Proof.
  intros Hb HX H. unfold qpt, cp_mul in *. cbn [fst snd]. assert (L : length (fst p) = d). { destruct H as [L _]. rewrite map_length in L. auto. }
  rewrite map_qR_act by auto. replace (qR (apply_t b 1 (snd p))) with (gt b (qR (snd p))); [apply (kgraph_mul K HK); auto|].
  unfold gt, apply_t. destruct (time_rev b); auto. rewrite qR_sub, qR_1. auto.
Qed.
Local Open Scope R_scope.
Lemma fst_shift_pt_nth x t p i : length x = d -> length (fst p) = d -> (i < d)%nat -> nth i (map qR (fst (shift_pt x t p))) 0 = IZR (nth i x 0%Z) + nth i (map qR (fst p)) 0.
Proof.
  intros L1 L2 Hi. unfold shift_pt. cbn [fst]. rewrite map_map.
  assert (Lc : length (combine x (fst p)) = d) by (rewrite combine_length; lia).
  rewrite (map_nth_lt _ _ _ (0%Z, 0%Qc)) by lia. rewrite combine_nth by lia. cbn [fst snd]. rewrite qR_add, qR_Zq. rewrite (map_nth_lt _ _ _ 0%Qc) by lia. auto.
Qed.
Lemma shift_length x t p : length x = d -> length (fst p) = d -> length (fst (shift_pt x t p)) = d.
Proof. intros. unfold shift_pt. cbn [fst]. rewrite map_length, combine_length. lia. Qed.
Lemma Zq_pos z : (0 < z)%Z -> (Zq z <> 0)%Qc.
Proof. intros H E. apply (f_equal qR) in E. rewrite qR_Zq, qR_0 in E. apply eq_IZR in E. lia. Qed.

Context (j : junction) (pos1 pos2 : position) (e : nat) (He : (e <= 1)%nat) (HW : wft K (jt j)) (P1 : pos_ok (sp_pnum (j_spec1 j)) pos1) (P2 : pos_ok (sp_pnum (j_spec2 j)) pos2)
  (HL : po_depth pos1 = (po_depth pos2 + e)%nat).
Definition jcs1 : list nat := map (kflip K (sp_bm (j_spec1 j))) (po_cnums pos1).
Definition jcs2 : list nat := map (kflip K (sp_bm (j_spec2 j))) (po_cnums pos2).
Let n1 := length (po_cnums pos1).
Context (Hgap : (kT K jcs1 + 1 < pt2 K (j_dt j) e jcs1 jcs2)%Z).

Lemma jcs1_wf : wfc K jcs1. Proof. apply wfc_flip, P1. Qed.
Lemma jcs2_wf : wfc K jcs2. Proof. apply wfc_flip, P2. Qed.
Lemma jcs1_len : length jcs1 = n1. Proof. apply map_length. Qed.
Lemma jcs_len : length jcs1 = (length jcs2 + e)%nat. Proof. unfold jcs1, jcs2. rewrite !map_length. exact HL. Qed.
Lemma kst_jcs1 : kst K (j_spec1 j) jcs1 = bm_mul_sp (sp_bm (j_spec1 j)) (kst K (Sp (id_map d) (sp_pnum (j_spec1 j))) (po_cnums pos1)).
Proof.
  destruct HW as (HX & _). pose proof HX as [Hb Hp]. rewrite <- (spec_id_mul _ HX) at 1. rewrite (kst_mul K HK); auto using jcs1_wf; [|apply (wfS_idp K); auto].
  unfold jcs1. rewrite (map_flip_flip K); auto. apply P1.
Qed.
Lemma kst_jcs2 : kst K (j_spec2 j) jcs2 = bm_mul_sp (sp_bm (j_spec2 j)) (kst K (Sp (id_map d) (sp_pnum (j_spec2 j))) (po_cnums pos2)).
Proof.
  destruct HW as (_ & HX & _). pose proof HX as [Hb Hp]. rewrite <- (spec_id_mul _ HX) at 1. rewrite (kst_mul K HK); auto using jcs2_wf; [|apply (wfS_idp K); auto].
  unfold jcs2. rewrite (map_flip_flip K); auto. apply P2.
Qed.
Let x1 := map (px1 K (jt j) jcs1) (seq 0 d).
Let x2 := map (px2 K (jt j) e jcs1 jcs2) (seq 0 d).
Let t1 := kT K jcs1.
Let t2 := pt2 K (j_dt j) e jcs1 jcs2.
Let mx := (Z.of_nat N ^ Z.of_nat n1)%Z.
Let mt := (Z.of_nat G ^ Z.of_nat n1)%Z.
Definition gpb_points (pts1 pts2 : list (list Qc * Qc)) : list ((list Qc * Qc) * (list Qc * Qc)) :=
  list_prod (map (shift_pt x1 t1) (map (cp_mul (sp_bm (j_spec1 j))) pts1))
            (map (shift_pt x2 t2) (if Nat.eqb e 0 then map (cp_mul (sp_bm (j_spec2 j))) pts2 else map (cp_scale (Zq (Z.of_nat N))) (map (cp_mul (sp_bm (j_spec2 j))) pts2))).
Lemma list_prod_nil_r {A B} (l : list A) : list_prod l (@nil B) = []. Proof. induction l; cbn; auto. Qed.
Lemma gpb_eq pts1 pts2 : get_pos_bounds ratio j pos1 pos2 pts1 pts2 =
  let dx := map Zq (max_dxs (Z.of_nat N ^ Z.of_nat e) x1 x2) in
  match ratio d dx (Zq (t2 + Z.of_nat G ^ Z.of_nat e - t1)), ratio d dx (Zq (t2 - (t1 + 1))) with
  | Some lo, Some up => option_map (fun r => (fst r, up, snd r)) (fold_left (point_step ratio d mx mt j pos1 pos2) (gpb_points pts1 pts2) (Some (lo, None)))
  | _, _ => None
  end.
Proof.
  pose proof HW as (HX & HY & Hv). pose proof P1 as (D1 & N1 & W1 & C1). pose proof P2 as (D2 & N2 & W2 & C2).
  unfold get_pos_bounds, pos_bounds_at. cbv zeta. rewrite D1, N1, (coords_x _ _ HX P1), (coords_x _ _ HY P2), (coords_t _ _ HX P1), (coords_t _ _ HY P2).
  change (po_depth pos1) with n1. change (map (kX K (j_spec1 j) (map (kflip K (sp_bm (j_spec1 j))) (po_cnums pos1))) (seq 0 d)) with x1.
  change (kT K (map (kflip K (sp_bm (j_spec1 j))) (po_cnums pos1))) with t1. rewrite ZG_ZN. fold mx mt.
  assert (ES : scale_pos (Z.of_nat N) d n1 (po_depth pos2) (map (kX K (j_spec2 j) jcs2) (seq 0 d)) (kT K jcs2) (map (cp_mul (sp_bm (j_spec2 j))) pts2) =
     Some ((Z.of_nat N ^ Z.of_nat e)%Z, (Z.of_nat G ^ Z.of_nat e)%Z, map (fun i => kX K (j_spec2 j) jcs2 i * Z.of_nat N ^ Z.of_nat e)%Z (seq 0 d), (kT K jcs2 * Z.of_nat G ^ Z.of_nat e)%Z,
           if Nat.eqb e 0 then map (cp_mul (sp_bm (j_spec2 j))) pts2 else map (cp_scale (Zq (Z.of_nat N))) (map (cp_mul (sp_bm (j_spec2 j))) pts2))).
  { unfold scale_pos. assert (L1 : n1 = (po_depth pos2 + e)%nat) by exact HL. destruct (Nat.eqb_spec n1 (po_depth pos2)) as [En|En].
    - replace e with 0%nat by lia. cbn [Nat.eqb]. rewrite !Z.pow_0_r, Z.mul_1_r. do 2 f_equal. f_equal. f_equal. apply map_ext. intros; lia.
    - replace e with 1%nat by lia. rewrite (proj2 (Nat.eqb_eq n1 (po_depth pos2 + 1))) by lia. cbn [Nat.eqb]. change (Z.of_nat 1) with 1%Z. rewrite !Z.pow_1_r.
      unfold kG at 1 2. rewrite Nat2Z.inj_pow. do 3 f_equal. f_equal. rewrite map_map. auto. }
  unfold jcs2 in ES. rewrite ES. fold jcs2.
  assert (EX : map (fun xd => (fst xd + snd xd * mx)%Z) (combine (map (fun i => (kX K (j_spec2 j) jcs2 i * Z.of_nat N ^ Z.of_nat e)%Z) (seq 0 d)) (j_dx j)) = x2).
  { apply nth_ext_lt with 0%Z; [unfold x2; rewrite !map_length, combine_length, map_length, seq_length; cbn in Hv; lia|]. intros i Hi.
    rewrite map_length, combine_length, map_length, seq_length in Hi. unfold jt in Hv. cbn [snd] in Hv.
    unfold x2. rewrite (nth_map_seq (px2 K (jt j) e jcs1 jcs2)) by lia. rewrite (map_nth_lt _ _ _ (0%Z, 0%Z)) by (rewrite combine_length, map_length, seq_length; lia).
    rewrite combine_nth by (rewrite map_length, seq_length; lia). cbn [fst snd]. rewrite (nth_map_seq (fun i => (kX K (j_spec2 j) jcs2 i * Z.of_nat N ^ Z.of_nat e)%Z)) by lia.
    unfold px2. cbn [jt fst snd]. rewrite jcs1_len. reflexivity. }
  rewrite EX. change (kT K jcs2 * Z.of_nat G ^ Z.of_nat e + j_dt j * mt)%Z with (kT K jcs2 * Z.of_nat G ^ Z.of_nat e + j_dt j * Z.of_nat G ^ Z.of_nat n1)%Z.
  replace (kT K jcs2 * Z.of_nat G ^ Z.of_nat e + j_dt j * Z.of_nat G ^ Z.of_nat n1)%Z with t2 by (unfold t2, pt2; rewrite jcs1_len; auto).
  destruct (ratio d (map Zq (max_dxs (Z.of_nat N ^ Z.of_nat e) x1 x2)) (Zq (t2 + Z.of_nat G ^ Z.of_nat e - t1))) as [lo|]; auto.
  destruct (ratio d (map Zq (max_dxs (Z.of_nat N ^ Z.of_nat e) x1 x2)) (Zq (t2 - (t1 + 1)))) as [up|]; auto.
  unfold gpb_points. destruct pts1 as [|a pts1]; [reflexivity|]. destruct pts2 as [|b pts2].
  - cbn [negb andb length Nat.eqb]. destruct (Nat.eqb e 0); cbn [map]; rewrite list_prod_nil_r; reflexivity.
  - reflexivity.
Qed.
Lemma bx_qR : map qR (map Zq (max_dxs (Z.of_nat N ^ Z.of_nat e) x1 x2)) = pbx K (jt j) e jcs1 jcs2.
Proof.
  unfold max_dxs, pbx, bx. rewrite !map_map. unfold x1, x2.
  apply nth_ext_lt with 0; [rewrite !map_length, combine_length, !map_length, seq_length; lia|]. intros i Hi.
  rewrite map_length, combine_length, !map_length, seq_length in Hi.
  rewrite (map_nth_lt _ _ _ (0%Z, 0%Z)) by (rewrite combine_length, !map_length, seq_length; lia). rewrite combine_nth by (rewrite !map_length; auto).
  cbn [fst snd]. rewrite qR_Zq, (nth_map_seq (px1 K (jt j) jcs1)), (nth_map_seq (px2 K (jt j) e jcs1 jcs2)) by lia.
  rewrite (nth_map_seq (fun j0 => IZR (Z.max (Z.abs (px1 K (jt j) jcs1 j0 - px2 K (jt j) e jcs1 jcs2 j0 + 1)) (Z.abs (px1 K (jt j) jcs1 j0 - px2 K (jt j) e jcs1 jcs2 j0 - Z.of_nat N ^ Z.of_nat e))))) by lia.
  auto.
Qed.
(** the points of the pairs *)
Definition am_is (a : argmax) (s : R) (u : list R) (t : R) (w : list R) : Prop :=
  am_junc a = j /\ am_pos1 a = pos1 /\ am_pos2 a = pos2 /\ qR (am_t1 a) = s /\ map qR (am_x1 a) = u /\ qR (am_t2 a) = t + IZR (j_dt j) /\
  length (am_x2 a) = d /\ forall i, (i < d)%nat -> nth i (map qR (am_x2 a)) 0 = nth i w 0 + IZR (nth i (j_dx j) 0%Z).
Lemma RGp1 : 0 < RG ^ n1. Proof. apply (RGp K HK). Qed.
Lemma RNp1 : 0 < RN ^ n1. Proof. apply (RNp K HK). Qed.
Lemma point1 p : qpt (kst K (Sp (id_map d) (sp_pnum (j_spec1 j))) (po_cnums pos1)) p ->
  exists s u, kpt K (j_spec1 j) jcs1 s u /\ length u = d /\ qR (snd (shift_pt x1 t1 (cp_mul (sp_bm (j_spec1 j)) p))) = s * RG ^ n1 /\
    length (fst (shift_pt x1 t1 (cp_mul (sp_bm (j_spec1 j)) p))) = d /\
    forall i, (i < d)%nat -> nth i (map qR (fst (shift_pt x1 t1 (cp_mul (sp_bm (j_spec1 j)) p)))) 0 = nth i u 0 * RN ^ n1.
Proof.
  intros H. pose proof HW as (HX & _). pose proof HX as [Hb Hp]. pose proof P1 as (_ & _ & W1 & _). pose proof RGp1. pose proof RNp1.
  apply (qpt_mul (sp_bm (j_spec1 j))) in H; auto; [|apply (kst_wf K HK); auto; apply (wfS_idp K); auto]. rewrite <- kst_jcs1 in H. unfold qpt in H.
  set (q := cp_mul (sp_bm (j_spec1 j)) p) in *. assert (Lq : length (fst q) = d) by (destruct H as [L _]; rewrite map_length in L; auto).
  assert (Lx : length x1 = d) by (unfold x1; rewrite map_length, seq_length; auto).
  pose proof (kpt_make K HF _ _ _ _ H) as HP. do 2 eexists. split; [exact HP|]. rewrite jcs1_len.
  split; [rewrite map_length, seq_length; auto|]. split; [unfold shift_pt; cbn [snd]; rewrite qR_add, qR_Zq; unfold t1; field; lra|].
  split; [apply shift_length; auto|]. intros i Hi. rewrite fst_shift_pt_nth by auto.
  rewrite (nth_map_seq (fun j0 => (IZR (kX K (j_spec1 j) jcs1 j0) + nth j0 (map qR (fst q)) 0) / RN ^ n1)) by auto. unfold x1. rewrite (nth_map_seq (px1 K (jt j) jcs1)) by auto.
  unfold px1. cbn [jt fst]. field. lra.
Qed.
Lemma point2 p : qpt (kst K (Sp (id_map d) (sp_pnum (j_spec2 j))) (po_cnums pos2)) p ->
  let q := cp_mul (sp_bm (j_spec2 j)) p in let q' := if Nat.eqb e 0 then q else cp_scale (Zq (Z.of_nat N)) q in
  exists t w, kpt K (j_spec2 j) jcs2 t w /\ length w = d /\ qR (snd (shift_pt x2 t2 q')) = (t + IZR (j_dt j)) * RG ^ n1 /\
    length (fst (shift_pt x2 t2 q')) = d /\
    forall i, (i < d)%nat -> nth i (map qR (fst (shift_pt x2 t2 q'))) 0 = (nth i w 0 + IZR (nth i (j_dx j) 0%Z)) * RN ^ n1.
Proof.
  intros H. pose proof HW as (_ & HX & _). pose proof HX as [Hb Hp]. pose proof P2 as (_ & _ & W2 & _).
  apply (qpt_mul (sp_bm (j_spec2 j))) in H; auto; [|apply (kst_wf K HK); auto; apply (wfS_idp K); auto]. rewrite <- kst_jcs2 in H. unfold qpt in H. intros q q'.
  fold q in H. assert (Lq : length (fst q) = d) by (destruct H as [L _]; rewrite map_length in L; auto).
  assert (Lx : length x2 = d) by (unfold x2; rewrite map_length, seq_length; auto).
  assert (A : length (fst q') = d /\ qR (snd q') = RG ^ e * qR (snd q) /\ forall i, (i < d)%nat -> nth i (map qR (fst q')) 0 = nth i (map qR (fst q)) 0 * RN ^ e).
  { unfold q'. destruct (Nat.eqb_spec e 0) as [->|Hne].
    - split; auto. cbn [pow]. split; [lra|]. intros; lra.
    - replace e with 1%nat by lia. cbn [pow]. unfold cp_scale. cbn [fst snd]. rewrite map_length. split; auto. rewrite qR_mul, qR_pow, qR_Zq, Lq.
      split; [unfold kG; rewrite Nat2Z.inj_pow, IZR_pow; lra|]. intros i Hi. rewrite map_map. rewrite !(map_nth_lt _ _ _ 0%Qc) by lia. rewrite qR_mul, qR_Zq. lra. }
  clearbody q'. destruct A as (L' & Es & Ex). assert (Ln : length jcs1 = (length jcs2 + e)%nat) by apply jcs_len. rewrite jcs1_len in Ln.
  pose proof (RGp K HK (length jcs2)). pose proof (RNp K HK (length jcs2)).
  pose proof (kpt_make K HF _ _ _ _ H) as HP. do 2 eexists. split; [exact HP|]. rewrite Ln.
  split; [rewrite map_length, seq_length; auto|]. split.
  { unfold shift_pt. cbn [snd]. rewrite qR_add, qR_Zq, Es. unfold t2, pt2. rewrite plus_IZR, !mult_IZR, !IZR_pow, jcs1_len, Ln, pow_add. field. lra. }
  split; [apply shift_length; auto|]. intros i Hi. rewrite fst_shift_pt_nth by auto. rewrite (Ex i Hi).
  rewrite (nth_map_seq (fun j0 => (IZR (kX K (j_spec2 j) jcs2 j0) + nth j0 (map qR (fst q)) 0) / RN ^ length jcs2)) by auto. unfold x2. rewrite (nth_map_seq (px2 K (jt j) e jcs1 jcs2)) by auto.
  unfold px2. cbn [jt fst snd]. rewrite plus_IZR, !mult_IZR, !IZR_pow, jcs1_len, Ln, pow_add. field. lra.
Qed.
(** what get_pos_bounds computes *)
Lemma gpb_spec pts1 pts2 :
  Forall (qpt (kst K (Sp (id_map d) (sp_pnum (j_spec1 j))) (po_cnums pos1))) pts1 -> Forall (qpt (kst K (Sp (id_map d) (sp_pnum (j_spec2 j))) (po_cnums pos2))) pts2 ->
  exists lo up am, get_pos_bounds ratio j pos1 pos2 pts1 pts2 = Some (lo, up, am) /\
    qR up = rR (pbx K (jt j) e jcs1 jcs2) (IZR (t2 - (t1 + 1))) /\
    match am with
    | None => (pts1 = [] \/ pts2 = []) /\ qR lo = rR (pbx K (jt j) e jcs1 jcs2) (IZR (t2 + Z.of_nat G ^ Z.of_nat e - t1))
    | Some a => exists s u t w, kq K (jt j) jcs1 jcs2 s u t w /\ qR lo = rho K rR (j_dt j) (j_dx j) s u t w /\ am_is a s u t w
    end.
Proof.
  intros F1 F2. rewrite gpb_eq. cbv zeta. set (dx := map Zq (max_dxs (Z.of_nat N ^ Z.of_nat e) x1 x2)).
  assert (Ldx : length dx = d) by (unfold dx, max_dxs, x1, x2; rewrite !map_length, combine_length, !map_length, seq_length; lia).
  assert (HG : (0 < Z.of_nat G ^ Z.of_nat e)%Z) by (apply Z.pow_pos_nonneg; [pose proof (kG_ge2 K HK)|]; lia).
  pose proof Hgap as Hg. fold t1 t2 in Hg.
  destruct (ro_value _ _ _ RO dx (Zq (t2 + Z.of_nat G ^ Z.of_nat e - t1)) Ldx) as (lo & Elo & Vlo). { apply qR_lt. rewrite qR_0, qR_Zq. apply IZR_lt. lia. }
  destruct (ro_value _ _ _ RO dx (Zq (t2 - (t1 + 1))) Ldx) as (up & Eup & Vup). { apply qR_lt. rewrite qR_0, qR_Zq. apply IZR_lt. lia. }
  rewrite Elo, Eup. unfold dx in Vlo, Vup. rewrite bx_qR, qR_Zq in Vlo, Vup. clear Elo Eup.
  assert (HV : forall pq, In pq (gpb_points pts1 pts2) -> exists s u t w v, kq K (jt j) jcs1 jcs2 s u t w /\
     ratio d (map (fun xy => (fst xy - snd xy)%Qc) (combine (fst (fst pq)) (fst (snd pq)))) (snd (snd pq) - snd (fst pq))%Qc = Some v /\ qR v = rho K rR (j_dt j) (j_dx j) s u t w /\
     am_is (AM (map (fun x => (x / Zq mx)%Qc) (fst (fst pq))) (snd (fst pq) / Zq mt)%Qc (map (fun x => (x / Zq mx)%Qc) (fst (snd pq))) (snd (snd pq) / Zq mt)%Qc j pos1 pos2) s u t w).
  { intros [p q] Hin. unfold gpb_points in Hin. apply in_prod_iff in Hin as [Hp Hq]. rewrite in_map_iff in Hp, Hq. destruct Hp as (p' & <- & Hp). destruct Hq as (q' & <- & Hq).
    apply in_map_iff in Hp as (p0 & <- & Hp). rewrite Forall_forall in F1, F2. destruct (point1 p0 (F1 _ Hp)) as (s & u & K1 & Lu & Es & Lp & Eu).
    assert (B : exists q0, In q0 pts2 /\ q' = if Nat.eqb e 0 then cp_mul (sp_bm (j_spec2 j)) q0 else cp_scale (Zq (Z.of_nat N)) (cp_mul (sp_bm (j_spec2 j)) q0)).
    { destruct (Nat.eqb e 0); [apply in_map_iff in Hq as (q0 & <- & Hq); eauto|]. rewrite map_map in Hq. apply in_map_iff in Hq as (q0 & <- & Hq); eauto. }
    destruct B as (q0 & Hq0 & Eq). destruct (point2 q0 (F2 _ Hq0)) as (t & w & K2 & Lw & Et & Lq & Ew). cbv zeta in Et, Lq, Ew. rewrite <- Eq in Et, Lq, Ew. clear Eq Hq.
    set (P := shift_pt x1 t1 (cp_mul (sp_bm (j_spec1 j)) p0)) in *. set (Q := shift_pt x2 t2 q') in *. clearbody P Q. cbn [fst snd].
    pose proof RGp1 as HG1. pose proof RNp1 as HN1. assert (HQ : kq K (jt j) jcs1 jcs2 s u t w) by (split; auto).
    pose proof (bound_gap K HF (jt j) (j_dt j) e jcs1 jcs2 s u t w HW jcs1_wf jcs2_wf jcs_len HQ Hgap) as Hlt.
    set (dv := map (fun xy => (fst xy - snd xy)%Qc) (combine (fst P) (fst Q))). assert (Ldv : length dv = d) by (unfold dv; rewrite map_length, combine_length; lia).
    destruct (ro_value _ _ _ RO dv (snd Q - snd P)%Qc Ldv) as (v & Ev & Vv). { apply qR_lt. rewrite qR_0, qR_sub, Es, Et. nra. }
    exists s, u, t, w, v. split; auto. split; auto. split.
    - rewrite Vv, (rho_scaled K HF _ _ RO _ _ n1) by auto. rewrite qR_sub, Es, Et. f_equal. apply nth_ext_lt with 0; [rewrite !map_length, seq_length; exact Ldv|].
      intros i Hi. rewrite map_length, Ldv in Hi. rewrite (nth_map_seq (fun j0 => nth j0 u 0 * RN ^ n1 - (nth j0 w 0 + IZR (nth j0 (j_dx j) 0%Z)) * RN ^ n1)) by auto.
      rewrite <- Eu, <- Ew by auto. unfold dv. rewrite map_map. rewrite (map_nth_lt _ _ _ (0%Qc, 0%Qc)) by (rewrite combine_length; lia). rewrite combine_nth by lia. cbn [fst snd].
      rewrite qR_sub. rewrite !(map_nth_lt qR _ _ 0%Qc) by lia. auto.
    - assert (Zmx : (Zq mx <> 0)%Qc) by (apply Zq_pos; unfold mx; apply Z.pow_pos_nonneg; [pose proof (ok_N K HK)|]; lia).
      assert (Zmt : (Zq mt <> 0)%Qc) by (apply Zq_pos; unfold mt; apply Z.pow_pos_nonneg; [pose proof (kG_ge2 K HK)|]; lia).
      unfold am_is. cbn [am_junc am_pos1 am_pos2 am_t1 am_x1 am_t2 am_x2]. do 3 (split; [auto|]). unfold mx, mt in *. split; [rewrite qR_div, Es, qR_Zq, IZR_pow by auto; field; lra|]. split.
      { apply nth_ext_lt with 0; [rewrite !map_length; lia|]. intros i Hi. rewrite !map_length in Hi. rewrite map_map. rewrite (map_nth_lt _ _ _ 0%Qc) by auto.
        rewrite qR_div, qR_Zq, IZR_pow by auto. rewrite <- (map_nth_lt qR _ _ 0%Qc 0) by auto. rewrite Eu by lia. field. lra. }
      split; [rewrite qR_div, Et, qR_Zq, IZR_pow by auto; field; lra|]. split; [rewrite map_length; auto|].
      intros i Hi. rewrite map_map. rewrite (map_nth_lt _ _ _ 0%Qc) by lia.
      rewrite qR_div, qR_Zq, IZR_pow by auto. rewrite <- (map_nth_lt qR _ _ 0%Qc 0) by lia. rewrite Ew by lia. field. lra. }
  destruct (fold_points ratio d mx mt j pos1 pos2 lo (gpb_points pts1 pts2)) as (lo' & am' & EF & HI).
  { intros pq Hin. destruct (HV pq Hin) as (_ & _ & _ & _ & v & _ & Ev & _). eauto. }
  rewrite EF. cbn [option_map fst snd]. exists lo', up, am'. split; auto. split; auto. destruct am' as [a|].
  - destruct HI as (pq & Hin & Ev & -> & _). destruct (HV pq Hin) as (s & u & t & w & v & HQ & Ev' & Vv & HA). exists s, u, t, w. split; auto.
    assert (v = lo') as -> by congruence. split; auto.
  - destruct HI as [EL ->]. split; auto. unfold gpb_points in EL. destruct pts1 as [|a pts1]; auto. destruct pts2 as [|b pts2]; auto. exfalso. destruct (Nat.eqb e 0); discriminate.
Qed.
(** ... so it encloses *)
Lemma gpb_encloses pts1 pts2 lo up am :
  Forall (qpt (kst K (Sp (id_map d) (sp_pnum (j_spec1 j))) (po_cnums pos1))) pts1 -> Forall (qpt (kst K (Sp (id_map d) (sp_pnum (j_spec2 j))) (po_cnums pos2))) pts2 ->
  get_pos_bounds ratio j pos1 pos2 pts1 pts2 = Some (lo, up, am) ->
  (forall s u t w, kq K (jt j) jcs1 jcs2 s u t w -> s < t + IZR (j_dt j) /\ rho K rR (j_dt j) (j_dx j) s u t w <= qR up) /\
  (exists s u t w, kq K (jt j) jcs1 jcs2 s u t w /\ qR lo <= rho K rR (j_dt j) (j_dx j) s u t w).
Proof.
  intros F1 F2 E. destruct (gpb_spec pts1 pts2 F1 F2) as (lo' & up' & am' & E' & Vup & HA). rewrite E in E'. injection E' as <- <- <-. split.
  - intros s u t w HQ. split; [apply (bound_gap K HF (jt j) (j_dt j) e jcs1 jcs2 s u t w); auto using jcs1_wf, jcs2_wf, jcs_len|].
    rewrite Vup. apply (bound_up K HF _ _ RO (jt j)); auto using jcs1_wf, jcs2_wf, jcs_len.
  - destruct am as [a|].
    + destruct HA as (s & u & t & w & HQ & EL & _). exists s, u, t, w. split; auto. lra.
    + destruct HA as [_ EL]. rewrite EL. apply (bound_lo K HF _ _ RO (jt j)); auto using jcs1_wf, jcs2_wf, jcs_len.
Qed.
End Bounds.
