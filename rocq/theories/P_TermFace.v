(** Termination of estimate_dilation_regular when the lower bounds come from points of the curve (face moments). *)
From Verif Require Import Py L_Py L_Qc L_R M_BaseMaps S_BaseMaps L_BaseMaps P_Actions M_Subsets S_Subsets P_Subsets P_Facets P_Combi
  M_Paths M_Curves M_Utils M_Heap M_Sat M_Dilation S_Heap P_Heap S_Utils P_Utils S_Curves S_Fuzzy P_CurveAct L_Digits P_Core P_Bridge P_Cont P_Check P_Subdiv P_Faces P_FuzzyInit P_FuzzyOps P_FuzzyBuilt
  S_Ratio S_Term S_Dilation P_Junctions P_JuncLoop P_JuncMain P_JuncFacts P_DilGeo P_DilRatio P_DilBounds P_DilPieces P_DilTree P_DilOps P_DilCreate P_DilRegular P_Conv P_TermOps P_TermReg P_TermReg2 P_TermNorms P_TermStream.
From Coq Require Import Reals Lra Lia Permutation.
Local Open Scope nat_scope.

Lemma top_some_st ratio rR c0 JP st hq is_heap : IH_ok hq is_heap -> forall t i, tree_x ratio rR c0 JP st is_heap None true t -> In i (bh_items t) -> exists top, bh_top t = Some top.
Proof. intros HH t i [Ht _] Hi. destruct (top_ok rR c0 JP hq is_heap HH None true t Ht) as [_ T]. destruct T as (top & E & _); eauto. intros E. rewrite E in Hi. destruct Hi. Qed.
Lemma nth_repeat_lt {A} (a b : A) n : forall j, j < n -> nth j (repeat a n) b = a.
Proof. induction n as [|n IH]; intros j Hj; [lia|]. destruct j as [|j]; cbn; auto. apply IH. lia. Qed.
Section TermFace.
Context (ratio : ratio_func) (rR : list R -> R -> R) (c0 : curve) (HC : valid_curve c0) (HCk : check c0 = Some true) (RO : ratio_ok (cv_dim c0) (ratio (cv_dim c0)) rR).
Context (p : nat) (Nm : list R -> R) (RN0 : ratio_norm (cv_dim c0) p Nm rR).
Context (hq : heap_impl bpair) (is_heap : list (node bpair) -> Prop) (HH : IH_ok hq is_heap).
Context (js : list junction) (HG : Forall (genuine c0) js)
  (HCov : forall p cs cs', p < cv_mult c0 -> consec (core_of c0) cs cs' -> exists j, In j js /\ jeq (cv_dim c0) (kpair (core_of c0) p cs cs') (jt j)).
Context (st : stash) (HST : points_ok c0 st).
Let HD : dcls c0 := dcls_curve c0 HC.
Let HV : valid_fuzzy c0 := proj1 HD.
Let HF : core_full (core_of c0) := core_of_full c0 HV.
Let HK : core_ok (core_of c0) := full_ok _ HF.
Let RP : ratio_power p rR := norm_power _ _ _ _ RN0.
Let HJS := js_wft c0 HC js HG.
Notation K := (core_of c0).
Notation AJ := (all_juncs c0 js).
Let HJ : forall j, AJ j -> wft K (jt j) := juncs_wft c0 js HJS.
Notation pair_ok := (pair_ok c0 AJ).
Notation tree_x := (tree_x ratio rR c0 AJ st is_heap None true).
Notation exact_item := (exact_item ratio st).
Notation d := (cv_dim c0).
Notation RG := (IZR (Z.of_nat (cv_genus c0))).
Notation RN := (IZR (Z.of_nat (cv_div c0))).

Lemma pair_st P lo up am : pair_ok P -> get_bounds ratio P st = Some (lo, up, am) -> exists e, let j := pp_junc P in let cs1 := jcs1 K j (pp_pos1 P) in let cs2 := jcs2 K j (pp_pos2 P) in
  let gap := (pt2 K (j_dt j) e cs1 cs2 - (kT K cs1 + 1))%Z in
  e <= 1 /\ wft K (jt j) /\ wfc K cs1 /\ wfc K cs2 /\ length cs1 = po_depth (pp_pos1 P) /\ length cs1 = length cs2 + e /\ (0 < gap)%Z /\
  qR up = rR (pbx K (jt j) e cs1 cs2) (IZR gap) /\
  exists sd g', Forall2 (fun x y => (Rabs x <= Rabs y)%R) (pbx K (jt j) e cs1 cs2) (map (fun x => Rabs x + (1 + RN))%R sd) /\ (0 < g' <= IZR gap + 1 + RG ^ e)%R /\ qR lo = rR sd g'.
Proof.
  intros HP E. pose proof HP as (HR & Hj & P1 & P2 & HDp & _). pose proof (refines_curve _ _ HC HR) as EC.
  destruct (pair_setup ratio rR c0 RO AJ HJ P c0 HP) as (e & He & _ & RO' & HW & O1 & O2 & HLd & Hg); [rewrite EC; apply sub_refl|exact HV|].
  exists e. cbv zeta. split; auto. split; auto. pose proof O1 as (_ & _ & W1 & _). pose proof O2 as (_ & _ & W2 & _). pose proof (wfc_flip K (sp_bm (j_spec1 (pp_junc P))) _ W1) as V1. pose proof (wfc_flip K (sp_bm (j_spec2 (pp_junc P))) _ W2) as V2.
  split; [exact V1|]. split; [exact V2|]. split; [unfold jcs1; rewrite map_length; auto|]. assert (LL : length (jcs1 K (pp_junc P) (pp_pos1 P)) = length (jcs2 K (pp_junc P) (pp_pos2 P)) + e) by (unfold jcs1, jcs2; rewrite !map_length; auto). split; [exact LL|]. split; [lia|].
  assert (GE : exists pts1 pts2, Forall (qpt K (kst K (Sp (id_map d) (sp_pnum (j_spec1 (pp_junc P)))) (po_cnums (pp_pos1 P)))) pts1 /\ Forall (qpt K (kst K (Sp (id_map d) (sp_pnum (j_spec2 (pp_junc P)))) (po_cnums (pp_pos2 P)))) pts2 /\
     get_pos_bounds ratio (pp_junc P) (pp_pos1 P) (pp_pos2 P) pts1 pts2 = Some (lo, up, am)).
  { destruct st as [pts|]; [|exists [], []; split; [constructor|]; split; [constructor|]; exact E]. destruct HST as (_ & HL & Hpts). unfold get_bounds in E. rewrite EC in *. rewrite !deep_last in E by auto.
    destruct (nth_error pts _) as [l1|] eqn:N1 in E; [|discriminate]. destruct (nth_error pts _) as [l2|] eqn:N2 in E; [|discriminate].
    eexists. eexists. split; [apply (qpt_last c0 _ _ _ _ HC P1 N1 Hpts)|]. split; [apply (qpt_last c0 _ _ _ _ HC P2 N2 Hpts)|exact E]. }
  destruct GE as (pts1 & pts2 & F1 & F2 & EG).
  destruct (gpb_spec K HF ratio rR RO' (pp_junc P) (pp_pos1 P) (pp_pos2 P) e He HW O1 O2 HLd Hg pts1 pts2 F1 F2) as (lo' & up' & am' & EG' & Eup & HA). rewrite EG in EG'. injection EG' as <- <- <-.
  split; [exact Eup|]. set (cs1 := jcs1 K (pp_junc P) (pp_pos1 P)) in *. set (cs2 := jcs2 K (pp_junc P) (pp_pos2 P)) in *.
  pose proof (IZR_lt _ _ Hg) as HgR. rewrite plus_IZR in HgR. pose proof (RGp K HK e) as HGe. change (kG K) with (cv_genus c0) in HGe. rewrite kG_genus in *.
  assert (HN0 : (0 <= RN)%R) by (apply (IZR_le 0); lia).
  destruct am as [a|].
  - destruct HA as (s & u & t & w & HQ & EL & _). pose proof (bound_gap K HF _ _ e _ _ s u t w HW V1 V2 LL HQ Hg) as Hlt.
    destruct (pair_box K HF _ (j_dt (pp_junc P)) e cs1 cs2 s u t w HW V1 V2 LL HQ) as (B1 & B2 & B3 & B4). rewrite kG_genus in *.
    change (j_dx (pp_junc P)) with (snd (jt (pp_junc P))) in EL. rewrite (rho_scaled K HF _ rR RO' _ _ (length cs1)) in EL by auto. rewrite kG_genus in EL.
    eexists. eexists. split; [|split; [|exact EL]].
    + unfold pbx, bx. rewrite map_map. apply Forall2_map_seq. intros j Hjd. specialize (B3 j Hjd). specialize (B4 j Hjd). rewrite (Rabs_right (IZR _)) by (apply Rle_ge, IZR_le; lia).
      change (kN K) with (cv_div c0) in *. set (x1 := px1 K (jt (pp_junc P)) cs1 j) in *. set (x2 := px2 K (jt (pp_junc P)) e cs1 cs2 j) in *. set (A := (nth j u 0 * RN ^ length cs1)%R) in *. set (B := ((nth j w 0 + IZR (nth j (snd (jt (pp_junc P))) 0%Z)) * RN ^ length cs1)%R) in *.
      assert (HNe : (RN ^ e <= RN)%R). { assert (1 <= RN)%R by (apply (IZR_le 1); pose proof (ok_N _ HK); cbn in *; lia). destruct e as [|[|e]]; cbn [pow]; lra || lia. }
      rewrite (Rabs_right (Rabs (A - B) + (1 + RN))) by (pose proof (Rabs_pos (A - B)); lra).
      assert (M : forall z, (Rabs (IZR z - (A - B)) <= 1 + RN)%R -> (IZR (Z.abs z) <= Rabs (A - B) + (1 + RN))%R).
      { intros z Hz. rewrite abs_IZR. pose proof (Rabs_triang (IZR z - (A - B)) (A - B)) as T. replace (IZR z - (A - B) + (A - B))%R with (IZR z) in T by ring. lra. }
      apply Z.max_case; apply M; apply Rabs_le; rewrite ?plus_IZR, ?minus_IZR, ?IZR_pow; lra.
    + rewrite minus_IZR, plus_IZR. split; [|lra]. pose proof (RGp K HK (length cs1)) as Hp. rewrite kG_genus in Hp. nra.
  - destruct HA as [_ EL]. eexists. eexists. split; [|split; [|exact EL]].
    + unfold pbx, bx. rewrite map_map. apply Forall2_map_seq. intros j Hjd. set (x := IZR _). rewrite (Rabs_right (Rabs x + (1 + RN))) by (pose proof (Rabs_pos x); lra). lra.
    + rewrite !minus_IZR, !plus_IZR, IZR_pow. lra.
Qed.

(** Deep pairs whose upper bound is not small have close bounds. *)
Lemma conv_face tol m : (1 < tol)%R -> (0 < m)%R -> exists D, forall P lo up am, pair_ok P -> D <= po_depth (pp_pos1 P) -> get_bounds ratio P st = Some (lo, up, am) -> (m <= qR up)%R -> (qR up <= qR lo * tol)%R.
Proof.
  intros Ht Hm. destruct (pow_tol p tol Ht) as (e1 & He1 & T1). destruct (pow_tol (S d) (1 + e1) ltac:(lra)) as (e2 & He2 & T2). set (C := Nm (map (fun _ => (1 + RN)%R) (seq 0 d))).
  pose proof (rn_nonneg _ _ _ _ RN0) as HN. assert (HC0 : (0 <= C)%R) by apply HN. set (M0 := (C + C / e2)%R). set (m' := Rmin 1 m). assert (Hm' : (0 < m')%R) by (unfold m'; apply Rmin_glb_lt; lra).
  assert (HM0 : (0 <= M0)%R) by (unfold M0, Rdiv; pose proof (Rinv_0_lt_compat e2 He2); nra).
  pose proof (RG_ge2 K HK) as HGR. rewrite kG_genus in HGR. destruct (pow_big RG ((1 + RG) / e2)) as (n1 & N1); [lra|]. destruct (pow_big RG (1 + M0 ^ d / m')) as (n2 & N2); [lra|].
  exists (S (n1 + n2)). intros P lo up am HP HDp E Hup. destruct (pair_st P lo up am HP E) as (e & H). cbv zeta in H. destruct H as (Hle & HW & W1 & W2 & L1 & LL & Hgap & Eu & sd & g' & HS & Hg' & El).
  set (cs1 := jcs1 K (pp_junc P) (pp_pos1 P)) in *. set (cs2 := jcs2 K (pp_junc P) (pp_pos2 P)) in *. set (bx1 := pbx K (jt (pp_junc P)) e cs1 cs2) in *.
  assert (Hg : (RG ^ (po_depth (pp_pos1 P) - 1) <= IZR (pt2 K (j_dt (pp_junc P)) e cs1 cs2 - (kT K cs1 + 1)))%R).
  { pose proof HP as (HR & _ & P1 & P2 & HDq & k1 & r1 & k2 & r2 & E1 & E2 & HA). rewrite <- IZR_pow. apply IZR_le. rewrite <- kG_genus. unfold cs1, cs2, jcs1, jcs2 in *. unfold po_depth in *. rewrite E1, E2 in *. cbn [map length] in *.
    replace (S (length r1) - 1) with (length (map (kflip K (sp_bm (j_spec1 (pp_junc P)))) r1)) by (rewrite map_length; lia). apply gap_deep2; auto. }
  set (g := IZR (pt2 K (j_dt (pp_junc P)) e cs1 cs2 - (kT K cs1 + 1))) in *.
  assert (G1 : ((1 + RG) / e2 <= g)%R) by (eapply Rle_trans; [apply N1|exact Hg]; lia). assert (G2 : (1 + M0 ^ d / m' <= g)%R) by (eapply Rle_trans; [apply N2|exact Hg]; lia).
  assert (Hd0 : (0 <= M0 ^ d)%R) by (apply pow_le; auto). assert (Hq0 : (0 <= M0 ^ d / m')%R) by (unfold Rdiv; pose proof (Rinv_0_lt_compat m' Hm'); nra).
  assert (Hg0 : (0 < g)%R) by lra. pose proof (rn_value _ _ _ _ RN0) as RV. rewrite Eu, RV in Hup |- * by auto. rewrite El, RV by lra.
  set (A := Nm bx1) in *. set (B := Nm sd) in *. assert (HA0 : (0 <= A)%R) by apply HN. assert (HB0 : (0 <= B)%R) by apply HN.
  assert (Hpp : 1 <= p) by apply (rn_p _ _ _ _ RN0).
  assert (AB : (A <= B + C)%R).
  { assert (Lsd : length sd = d). { apply Forall2_length in HS. unfold bx1, pbx, bx in HS. rewrite !map_length, seq_length in HS. symmetry. exact HS. }
    assert (ES : map (fun x => (Rabs x + (1 + RN))%R) sd = vec_sum (map Rabs sd) (map (fun _ => (1 + RN)%R) (seq 0 d))).
    { unfold vec_sum. rewrite <- Lsd. clear. generalize 0. induction sd as [|x l IH]; intros a; cbn; auto. f_equal. apply IH. }
    rewrite ES in HS. apply (rn_mono _ _ _ _ RN0) in HS. pose proof (rn_triangle _ _ _ _ RN0 (map Rabs sd) (map (fun _ => (1 + RN)%R) (seq 0 d))) as T. rewrite !map_length, seq_length in T. specialize (T Lsd).
    assert (Nm (map Rabs sd) <= B)%R; [|unfold A, C in *; lra]. apply (rn_mono _ _ _ _ RN0). clear. induction sd; cbn; constructor; auto. rewrite Rabs_Rabsolu. lra. }
  assert (HA1 : (M0 < A)%R).
  { apply Rnot_le_lt. intros Hle'. assert (A ^ d <= M0 ^ d)%R by (apply pow_incr; lra). assert (Hx : (A ^ d / g < m')%R).
    { apply (Rmult_lt_reg_r g); auto. unfold Rdiv. rewrite Rmult_assoc, Rinv_l by lra. assert (Hq : (M0 ^ d / m' * m' = M0 ^ d)%R) by (field; lra). nra. }
    assert (Hx0 : (0 <= A ^ d / g)%R) by (unfold Rdiv; pose proof (Rinv_0_lt_compat g Hg0); pose proof (pow_le A d HA0); nra).
    assert (m' <= 1)%R by apply Rmin_l. assert (m' <= m)%R by apply Rmin_r. assert ((A ^ d / g) ^ p <= A ^ d / g)%R; [|lra].
    destruct p as [|q]; [lia|]. cbn [pow]. assert ((A ^ d / g) ^ q <= 1 ^ q)%R by (apply pow_incr; lra). rewrite pow1 in *. nra. }
  assert (HB1 : (A <= (1 + e2) * B)%R).
  { assert (C <= e2 * B)%R; [|lra]. assert (C / e2 <= B)%R by (unfold M0 in HA1; lra). apply (Rmult_le_compat_l e2) in H; [|lra]. replace (e2 * (C / e2))%R with C in H by (field; lra). exact H. }
  assert (HGe : (RG ^ e <= RG)%R) by (destruct e as [|[|e]]; cbn [pow]; lra || lia).
  assert (HG1 : (g' <= (1 + e2) * g)%R). { assert (1 + RG <= e2 * g)%R; [|lra]. apply (Rmult_le_compat_l e2) in G1; [|lra]. replace (e2 * ((1 + RG) / e2))%R with (1 + RG)%R in G1 by (field; lra). exact G1. }
  assert (HAB : (A ^ d <= (1 + e2) ^ d * B ^ d)%R) by (rewrite <- Rpow_mult_distr; apply pow_incr; lra).
  assert (X : (A ^ d / g <= (1 + e1) * (B ^ d / g'))%R).
  { apply (Rmult_le_reg_r (g * g')); [nra|]. replace (A ^ d / g * (g * g'))%R with (A ^ d * g')%R by (field; lra). replace ((1 + e1) * (B ^ d / g') * (g * g'))%R with ((1 + e1) * B ^ d * g)%R by (field; lra).
    pose proof (pow_le B d HB0) as HBd. pose proof (pow_le A d HA0) as HAd. cbn [pow] in T2. pose proof (pow_le (1 + e2) d ltac:(lra)) as Hed.
    apply Rle_trans with (((1 + e2) ^ d * B ^ d) * ((1 + e2) * g))%R; [apply Rmult_le_compat; lra|]. replace ((1 + e2) ^ d * B ^ d * ((1 + e2) * g))%R with ((1 + e2) * (1 + e2) ^ d * (B ^ d * g))%R by ring.
    replace ((1 + e1) * B ^ d * g)%R with ((1 + e1) * (B ^ d * g))%R by ring. apply Rmult_le_compat_r; auto. nra. }
  apply Rle_trans with (((1 + e1) * (B ^ d / g')) ^ p)%R.
  - apply pow_incr. split; auto. unfold Rdiv. pose proof (Rinv_0_lt_compat g Hg0). pose proof (pow_le A d HA0). nra.
  - rewrite Rpow_mult_distr, Rmult_comm. apply Rmult_le_compat_l; auto. apply pow_le. unfold Rdiv. pose proof (Rinv_0_lt_compat g' ltac:(lra)). pose proof (pow_le B d HB0). nra.
Qed.

(** The pairs of fractions of a junction along two digit expansions. *)
Definition leads (P : piece_pair) (j : junction) (a b : nat -> nat) : Prop :=
  pp_junc P = j /\ po_cnums (pp_pos1 P) = prefix a (po_depth (pp_pos1 P)) /\ po_cnums (pp_pos2 P) = prefix b (po_depth (pp_pos2 P)).
Definition code (j : junction) (a b : nat -> nat) : Prop := (forall k, a k < cv_genus c0) /\ (forall k, b k < cv_genus c0) /\ exists P0, In (j, a 0, b 0) (pair_data c0 js) /\ init_first_order c0 j (a 0) (b 0) = Some P0.
(** A ratio reached by the curve is strictly below the upper bounds of all pairs along some expansions. *)
Lemma code_up r : attained K rR r -> exists j a b, code j a b /\ forall P lo up am, pair_ok P -> leads P j a b -> get_bounds ratio P st = Some (lo, up, am) -> (r < qR up)%R.
Proof.
  intros HR. pose proof (check_kcont c0 HC HCk) as KC.
  destruct (apart_along K HF _ rR RO (fun tr => exists j, In j js /\ jt j = tr) r) as (tr & dt & dl & el & s & u & t' & w & HT & HA & HN & ER & Hap).
  { intros X t x y HX. apply (kunique K HK KC X t x y HX). }
  { intros q cs cs' Hq Hcs. destruct (HCov q cs cs' Hq Hcs) as (j & Hj & He). exists (jt j). split; eauto. }
  { exact HR. }
  rewrite kG_genus in Hap.
  assert (X : exists j, AJ j /\ jt j = tr /\ j_dt j = dt /\ (In (j, kflip K (sp_bm (j_spec1 j)) (dl 0), kflip K (sp_bm (j_spec2 j)) (el 0)) (pair_data c0 js))).
  { pose proof (proj1 (proj1 HA) 0) as D0. pose proof (proj1 (proj2 HA) 0) as E0. rewrite kG_genus in *. destruct HT as [(q & Hq & -> & ->)|((j & Hj & <-) & ->)].
    - exists (auto_junction d q). assert (Hin : In (auto_junction d q) (gen_auto_junctions c0)) by (apply auto_in; exists q; split; auto). split; [left; auto|]. split; [apply (auto_jt c0)|]. split; auto.
      apply (pair_data_in c0 HD js). left. split; auto. cbn [j_spec1 j_spec2 auto_junction sp_bm]. rewrite !kflip_id. lia.
    - exists j. split; [right; auto|]. split; auto. split; [apply HJS; auto|]. apply (pair_data_in c0 HD js). right. split; auto. split; [apply (kflip_lt K); auto|]. split; [apply (kflip_lt K); auto|]. rewrite !(kflip_flip K) by auto. intros X. injection X as X1 X2. lia. }
  destruct X as (j & Hj & Ej & Edt & Hin). exists j, (fun k => kflip K (sp_bm (j_spec1 j)) (dl k)), (fun k => kflip K (sp_bm (j_spec2 j)) (el k)). split.
  { split; [intros k; apply (kflip_lt K); apply (proj1 (proj1 HA))|]. split; [intros k; apply (kflip_lt K); apply (proj1 (proj2 HA))|]. destruct (init_ok c0 HD js HJS j _ _ Hin) as (P0 & E0 & _). exists P0. auto. }
  intros P lo up am HP (EJ & E1 & E2) EB. destruct (pair_st P lo up am HP EB) as (e & H). cbv zeta in H. destruct H as (Hle & HW & W1 & W2 & L1 & LL & Hgap & Eu & _).
  set (n := po_depth (pp_pos1 P)) in *. set (m := po_depth (pp_pos2 P)) in *.
  assert (C1 : jcs1 K (pp_junc P) (pp_pos1 P) = prefix dl n). { unfold jcs1. rewrite EJ, E1, (prefix_flip K). apply (map_flip_flip K). apply prefix_wfc. apply (proj1 (proj1 HA)). }
  assert (C2 : jcs2 K (pp_junc P) (pp_pos2 P) = prefix el m). { unfold jcs2. rewrite EJ, E2, (prefix_flip K). apply (map_flip_flip K). apply prefix_wfc. apply (proj1 (proj2 HA)). }
  rewrite C1, C2 in *. rewrite !prefix_length in LL. rewrite EJ, Ej, Edt in *.
  pose proof (never_tight_gap K HF tr dt e dl el n m s u t' w HW HA HN LL) as HGap. rewrite kG_genus in HGap.
  assert (HQ : kq K tr (prefix dl n) (prefix el m) s u t' w) by (destruct HA as [[_ A1] [_ A2]]; destruct tr as [[X Y] v]; split; [apply A1|apply A2]).
  assert (Hg : (kT K (prefix dl n) + 1 < pt2 K dt e (prefix dl n) (prefix el m))%Z) by lia.
  assert (LL2 : length (prefix dl n) = length (prefix el m) + e) by (rewrite !prefix_length; auto).
  pose proof (bound_gap K HF tr dt e _ _ s u t' w HW W1 W2 LL2 HQ Hg) as Hlt.
  assert (HD1 : (0 < IZR (pt2 K dt e (prefix dl n) (prefix el m) - (kT K (prefix dl n) + 1)) < (t' + IZR dt) * RG ^ n - s * RG ^ n)%R). { apply IZR_lt in Hgap. rewrite minus_IZR, plus_IZR in *. lra. }
  assert (B : (r <= rR (pbx K tr e (prefix dl n) (prefix el m)) ((t' + IZR dt) * RG ^ n - s * RG ^ n))%R).
  { rewrite <- ER. apply (bound_pre K HF _ rR RO tr dt e _ _ s u t' w HW W1 W2 LL2 HQ Hlt). rewrite prefix_length, kG_genus. lra. }
  rewrite Eu. eapply Rle_lt_trans; [exact B|]. apply (strict_dt rR c0 HD p RP); auto.
  apply (ro_mono _ _ _ RO); [|lra]. unfold floor1. apply (bx_ones K). pose proof (ok_N _ HK). assert (0 < Z.of_nat (kN K) ^ Z.of_nat e)%Z by (apply Z.pow_pos_nonneg; lia). lia.
Qed.
(** Along every pair of expansions the tree has a pair, or a pair below the threshold was discarded. *)
Definition low (P : piece_pair) (g : Qc) : Prop := exists lo up am, get_bounds ratio P st = Some (lo, up, am) /\ (up <= g)%Qc.
Definition fine (t : tree) (g : Qc) : Prop := forall j a b, code j a b -> exists P, pair_ok P /\ leads P j a b /\ ((exists i, In i (bh_items t) /\ bp_pair i = P) \/ low P g).
Lemma divide_leads P l j a b : pair_ok P -> code j a b -> leads P j a b -> divide_balanced P = Some l -> exists P', In P' l /\ leads P' j a b.
Proof.
  intros HP (Ha & Hb & _) (EJ & E1 & E2) E. pose proof HP as (HR & Hj & P1 & P2 & HDp & _). pose proof (refines_dcls c0 _ HD HR) as HDc. pose proof (refines_curve c0 _ HC HR) as EC. unfold divide_balanced in E.
  destruct (Nat.ltb _ _).
  - destruct (divide_ok (pp_curve P) HDc _ _ P2) as (l0 & El & _ & HX). rewrite El in E. injection E as <-.
    destruct (HX c0 (b (po_depth (pp_pos2 P)))) as (i & [c' pos'] & Hi & _ & Ec & _); [rewrite EC; apply chosen_self; auto|rewrite EC; auto|]. cbn [fst snd] in Ec.
    exists (PP c' (pp_junc P) (pp_pos1 P) pos'). split; [apply in_map_iff; exists (c', pos'); split; auto; eapply nth_error_In; eauto|].
    split; auto. cbn [pp_pos1 pp_pos2]. split; auto. assert (EL : po_depth pos' = S (po_depth (pp_pos2 P))) by (unfold po_depth; rewrite Ec, app_length; cbn; lia). rewrite EL, prefix_S, Ec, <- E2. auto.
  - destruct (divide_ok (pp_curve P) HDc _ _ P1) as (l0 & El & _ & HX). rewrite El in E. injection E as <-.
    destruct (HX c0 (a (po_depth (pp_pos1 P)))) as (i & [c' pos'] & Hi & _ & Ec & _); [rewrite EC; apply chosen_self; auto|rewrite EC; auto|]. cbn [fst snd] in Ec.
    exists (PP c' (pp_junc P) pos' (pp_pos2 P)). split; [apply in_map_iff; exists (c', pos'); split; auto; eapply nth_error_In; eauto|].
    split; auto. cbn [pp_pos1 pp_pos2]. split; auto. assert (EL : po_depth pos' = S (po_depth (pp_pos1 P))) by (unfold po_depth; rewrite Ec, app_length; cbn; lia). rewrite EL, prefix_S, Ec, <- E1. auto.
Qed.
Lemma not_act_low g i : activeb bp_lo bp_up (Some g) None i = false -> exact_item i -> low (bp_pair i) g.
Proof. intros HA HX. exists (bp_lo i), (bp_up i), (bp_argmax i). split; auto. apply Qcnot_lt_le. intros Hlt. apply act_up in Hlt. congruence. Qed.
Lemma low_le P g g' : (g <= g')%Qc -> low P g -> low P g'.
Proof. intros H (lo & up & am & E & L). exists lo, up, am. split; auto. eapply Qcle_trans; eauto. Qed.
(** the tree is never empty, and its top stays above every value reached *)
Lemma fine_item t g r : fine t g -> attained K rR r -> (qR g <= r)%R -> tree_x t -> exists i, In i (bh_items t) /\ (r < qR (bp_up i))%R.
Proof.
  intros HFn HR Hg [Ht HX]. destruct (code_up r HR) as (j & a & b & Hc & HU). destruct (HFn j a b Hc) as (P & HP & HL & [(i & Hi & <-)|(lo & up & am & E & Hl)]).
  - exists i. split; auto. apply (HU (bp_pair i) (bp_lo i) (bp_up i) (bp_argmax i)); auto. apply HX. auto.
  - exfalso. pose proof (HU P lo up am HP HL E). apply qR_le in Hl. lra.
Qed.
Definition reached (g : Qc) : Prop := exists r, attained K rR r /\ (qR g <= r)%R.
Lemma item_reached i : item_ok rR c0 AJ i -> reached (bp_lo i).
Proof.
  intros Hi. destruct (item_ge ratio rR c0 HC RO js HG i Hi) as (q & s & t & u & w & Hq & A & B & C & D). exists (rR (diffs d u w) (t - s)). split; auto.
  exists q, s, t, u, w. split; auto. split; [apply (graph_pattern c0 HC); auto|]. split; [apply (graph_pattern c0 HC); auto|]. auto.
Qed.
Definition finv (t : tree) (lo up : Qc) : Prop :=
  tree_x t /\ bh_good_thr t = Some lo /\ (exists m, bh_max t = Some m /\ (bp_lo m <= lo)%Qc) /\ reached lo /\ fine t lo /\ (forall top, bh_top t = Some top -> (up <= bp_up top)%Qc).
Lemma finv_top t lo : tree_x t -> reached lo -> fine t lo -> exists top, bh_top t = Some top.
Proof. intros HT (r & H1 & H2) HFn. destruct (fine_item t lo r HFn H1 H2 HT) as (i & Hi & _). apply (top_some_st ratio rR c0 AJ st hq is_heap HH t i HT Hi). Qed.
Lemma some_reached : exists r0, (0 < r0)%R /\ attained K rR r0.
Proof.
  pose proof (ok_d _ HK) as Hd. cbn [kd core_of] in Hd. assert (Hp : cv_pnum c0 < cv_mult c0) by apply HV.
  assert (UC : forall v, (0 <= v <= 1)%R -> in_unit_cube d (repeat v d)). { intros v Hv. split; [apply repeat_length|]. intros j Hj. rewrite nth_repeat_lt by auto. auto. }
  destruct (graph_onto c0 HC (cv_pnum c0) (repeat 0%R d) Hp (UC 0%R ltac:(lra))) as (s & Hs). destruct (graph_onto c0 HC (cv_pnum c0) (repeat 1%R d) Hp (UC 1%R ltac:(lra))) as (t & Ht).
  apply (graph_pattern c0 HC) in Hs, Ht; auto. set (X := Sp (id_map d) (cv_pnum c0)) in *.
  assert (Hpos : forall v w dt, (0 < dt)%R -> v <> w -> (0 < rR (diffs d (repeat v d) (repeat w d)) dt)%R).
  { intros v w dt Hdt Hvw. assert (0 < rR (diffs d (repeat v d) (repeat w d)) 1)%R. { apply (rp_pos _ _ RP). unfold diffs. apply Exists_exists. exists (v - w)%R. split; [|lra]. apply in_map_iff. exists 0. split; [rewrite !nth_repeat_lt by auto; auto|apply in_seq; lia]. }
    rewrite <- (rp_dt _ _ RP _ dt Hdt) in H. pose proof (pow_lt dt p Hdt). nra. }
  destruct (Rtotal_order s t) as [Hlt|[->|Hgt]].
  - exists (rR (diffs d (repeat 0%R d) (repeat 1%R d)) (t - s)). split; [apply Hpos; lra|]. exists (cv_pnum c0), s, t, (repeat 0%R d), (repeat 1%R d). auto.
  - exfalso. pose proof (kunique K HK (check_kcont c0 HC HCk) X t _ _ (wfS_id c0 _ Hp) Hs Ht) as EU. apply (f_equal (fun l => nth 0 l 0%R)) in EU. rewrite !nth_repeat_lt in EU by auto. lra.
  - exists (rR (diffs d (repeat 1%R d) (repeat 0%R d)) (s - t)). split; [apply Hpos; lra|]. exists (cv_pnum c0), t, s, (repeat 1%R d), (repeat 0%R d). auto.
Qed.
Lemma finv_big t lo up r0 : finv t lo up -> attained K rR r0 -> exists top, bh_top t = Some top /\ (r0 < qR (bp_up top))%R.
Proof.
  intros (I1 & _ & _ & (r & R1 & R2) & I5 & _) HR. assert (exists r', attained K rR r' /\ (qR lo <= r')%R /\ (r0 <= r')%R) as (r' & A & B & C) by (destruct (Rle_dec (qR lo) r0); [exists r0|exists r]; repeat split; auto; lra).
  destruct (fine_item t lo r' I5 A B I1) as (i & Hi & Hu). destruct (top_ok rR c0 AJ hq is_heap HH None true t (proj1 I1)) as [_ T]. destruct T as (top & E & HT & HM); [intros E; rewrite E in Hi; destruct Hi|].
  exists top. split; auto. specialize (HM i Hi). apply qR_le in HM. lra.
Qed.
Lemma face_step t lo up : finv t lo up -> exists i t1 item t2, bh_top t = Some i /\ psum (bp_pair i) <= 2 * po_depth (pp_pos1 (bp_pair i)) /\ exact_item i /\ pair_ok (bp_pair i) /\ (bp_lo i <= lo)%Qc /\
  divide_tree ratio hq st t = Some t1 /\ bh_max t1 = Some item /\
  (if qltb lo (bp_lo item) then bh_update bp_lo bp_up hq t1 (bp_lo item) else Some t1) = Some t2 /\
  (exists top, bh_top t2 = Some top /\ finv t2 (if qltb lo (bp_lo item) then bp_lo item else lo) (if qltb (bp_up top) up then bp_up top else up)) /\
  forall B, psum (bp_pair i) < B -> mass B t2 < mass B t.
Proof.
  intros (I1 & I2 & (m0 & M1 & M2) & HRe & HFn & I5). destruct HRe as (r & R1 & R2). destruct (fine_item t lo r HFn R1 R2 I1) as (iw & W1 & _). assert (HRe : reached lo) by (exists r; auto). assert (NE : bh_items t <> []) by (intros E; rewrite E in W1; destruct W1).
  destruct (divide_x ratio rR c0 HD RO AJ HJ st HST hq is_heap HH None true t I1 NE) as (i & l & t0 & t1 & A1 & A2 & A3 & A4 & A5 & A6 & A7 & A8 & A9 & A10 & A11 & A12 & A13).
  destruct A8 as (B1 & B2 & B3 & B4 & B5 & B6 & _).
  assert (HT1 : bh_good_thr t1 = Some lo) by congruence.
  assert (Hlo : (bp_lo i <= lo)%Qc). { destruct I1 as [(_ & _ & H3 & _) _]. specialize (H3 i A2). rewrite M1 in H3. destruct (stable_new_max true _ _ H3 eq_refl) as (m' & E' & L'). assert (m' = m0) by congruence. subst m'. eapply Qcle_trans; eauto. }
  assert (FN1 : fine t1 lo).
  { intros j a b Hc. destruct (HFn j a b Hc) as (P & HP & HL & [(k & Hk & Ek)|HLow]); [|exists P; auto]. apply (Permutation_in _ A9) in Hk. destruct Hk as [<-|Hk]; [|exists P; split; auto; split; auto; left; exists k; auto].
    subst P. destruct (divide_leads (bp_pair i) l j a b A5 Hc HL A6) as (P' & Hin & HL'). destruct (divide_pair c0 HD AJ HJ (bp_pair i) A5) as (l' & El & FP & _). assert (l' = l) by congruence. subst l'. rewrite Forall_forall in FP.
    exists P'. split; auto. split; auto. destruct (B3 P' Hin) as (k & K1 & K2 & K3). subst P'. destruct (activeb bp_lo bp_up (Some lo) None k) eqn:EA.
    - left. exists k. split; auto. apply K3. rewrite A10, I2. exact EA.
    - right. apply not_act_low; auto. }
  assert (exists item, bh_max t1 = Some item) as (item & EI). { destruct B5 as [B5|(k & B5 & _)]; [exists m0; congruence|eauto]. }
  exists i, t1, item.
  assert (DP : psum (bp_pair i) <= 2 * po_depth (pp_pos1 (bp_pair i))) by (unfold psum; destruct A5 as (_ & _ & _ & _ & A5 & _); lia).
  destruct (qltb lo (bp_lo item)) eqn:EB.
  - apply qltb_ok in EB. destruct (update_x ratio rR c0 AJ st hq is_heap HH None true t1 (bp_lo item) A12) as (t2 & E2 & C1 & C2 & C3 & _ & C5 & C6). { rewrite HT1. apply Qclt_le_weak; auto. }
    exists t2. repeat (split; auto); [|intros B HB; specialize (A13 B HB); specialize (C6 B); lia].
    assert (HRi : reached (bp_lo item)). { apply item_reached. destruct A12 as [(_ & _ & _ & H & _) _]. apply H. auto. }
    assert (FN2 : fine t2 (bp_lo item)).
    { intros j a b Hc. destruct (FN1 j a b Hc) as (P & HP & HL & [(k & Hk & Ek)|HLow]).
      - exists P. split; auto. split; auto. destruct (activeb bp_lo bp_up (Some (bp_lo item)) None k) eqn:EA; [left; exists k; split; auto; apply C5; auto|]. right. subst P. apply not_act_low; auto. apply (proj2 A12). auto.
      - exists P. split; auto. split; auto. right. apply low_le with lo; auto. apply Qclt_le_weak; auto. }
    destruct (finv_top t2 _ C1 HRi FN2) as (top & ET). exists top. split; auto. split; auto. split; auto. split; [exists item; split; [congruence|apply Qcle_refl]|]. split; auto. split; auto.
    intros top' ET'. assert (top' = top) by congruence. subst top'. destruct (qltb (bp_up top) up) eqn:EU; [apply Qcle_refl|apply qltb_false; auto].
  - apply qltb_false in EB. exists t1. repeat (split; auto). destruct (finv_top t1 _ A12 HRe FN1) as (top & ET). exists top. split; auto. split; auto. split; auto. split; [exists item; auto|]. split; auto. split; auto.
    intros top' ET'. assert (top' = top) by congruence. subst top'. destruct (qltb (bp_up top) up) eqn:EU; [apply Qcle_refl|apply qltb_false; auto].
Qed.
Lemma face_total_tol tl max_iter max_depth D r0 : attained K rR r0 ->
  (forall P lo up am, pair_ok P -> D <= po_depth (pp_pos1 P) -> get_bounds ratio P st = Some (lo, up, am) -> (r0 <= qR up)%R -> (qR up <= qR lo * qR tl)%R) -> (0 <= qR tl)%R ->
  forall fuel t lo up am n, finv t lo up -> mass (2 * D) t < fuel -> exists r, regular_loop ratio hq fuel st (Some tl) max_iter max_depth t lo up am n = Some r.
Proof.
  intros HR0 HDp H0. induction fuel as [|fuel IH]; intros t lo up am n HI HM; [lia|]. cbn [regular_loop]. destruct (qleb up (lo * tl)%Qc) eqn:ET; [eauto|].
  destruct (match max_iter with Some m => _ | None => false end); [eauto|]. destruct (match max_depth with Some m => _ | None => false end); [eauto|].
  destruct (face_step t lo up HI) as (i & t1 & item & t2 & A1 & A2 & A3 & A4 & A5 & A6 & A7 & A8 & (top & A9 & A10) & A11). rewrite A6, A7, A8, A9. apply IH; auto.
  assert (psum (bp_pair i) < 2 * D); [|specialize (A11 (2 * D) H); lia]. apply Nat.nle_gt. intros Hge. apply qleb_false in ET.
  destruct (finv_big t lo up r0 HI HR0) as (i' & E' & Hb). assert (i' = i) by congruence. subst i'.
  assert (HL : D <= po_depth (pp_pos1 (bp_pair i))) by lia. specialize (HDp _ _ _ _ A4 HL A3 ltac:(lra)). destruct HI as (_ & _ & _ & _ & _ & HT). specialize (HT i A1). apply qR_le in HT, A5. apply qR_lt in ET. rewrite qR_mul in ET. nra.
Qed.
Lemma face_total_iter tol m max_depth : forall fuel t lo up am n, finv t lo up -> 0 < fuel -> (m - n < Z.of_nat fuel)%Z -> exists r, regular_loop ratio hq fuel st tol (Some m) max_depth t lo up am n = Some r.
Proof.
  induction fuel as [|fuel IH]; intros t lo up am n HI HL HM; [lia|]. cbn [regular_loop].
  destruct (match tol with Some tl => _ | None => false end); [eauto|]. destruct (Z.ltb_spec m (n + 1)); [eauto|]. destruct (match max_depth with Some m => _ | None => false end); [eauto|].
  destruct (face_step t lo up HI) as (i & t1 & item & t2 & A1 & A2 & A3 & A4 & A5 & A6 & A7 & A8 & (top & A9 & A10) & A11). rewrite A6, A7, A8, A9. apply IH; auto; lia.
Qed.
(** The initial tree has all pairs. *)
Lemma fine_first ps t : omap (fun jcc : junction * nat * nat => init_first_order c0 (fst (fst jcc)) (snd (fst jcc)) (snd jcc)) (pair_data c0 js) = Some ps ->
  pushed ratio rR c0 AJ st is_heap None true (bh_new None None true) ps t -> forall g, fine t g.
Proof.
  intros EO (_ & _ & H3 & _) g j a b (Ha & Hb & P0 & Hin & E0). destruct (init_ok c0 HD js HJS j _ _ Hin) as (P & E & HP & _ & EJ & E1 & E2).
  exists P. split; auto. split; [unfold leads, po_depth; rewrite E1, E2; auto|]. left.
  assert (HPs : In P ps). { clear H3. revert ps EO. induction (pair_data c0 js) as [|x l IH]; [destruct Hin|]. cbn [omap]. intros ps EO. destruct (init_first_order c0 (fst (fst x)) (snd (fst x)) (snd x)) as [Px|] eqn:Ex; [|discriminate]. cbn [obind] in EO. destruct (omap _ l) as [ps'|] eqn:El; [|discriminate]. injection EO as <-.
    destruct Hin as [->|Hin]; [left; cbn [fst snd] in Ex; congruence|right; auto]. }
  destruct (H3 P HPs) as (i & Ei & _ & Hi). exists i. auto.
Qed.
End TermFace.
Theorem regular_total_face ratio rR p Nm c hq is_heap : valid_curve c -> check c = Some true -> ratio_ok (cv_dim c) (ratio (cv_dim c)) rR -> ratio_norm (cv_dim c) p Nm rR -> IH_ok hq is_heap ->
  forall rti max_iter fd max_depth, match fd with Some f => f <= cv_dim c | None => True end -> match rti with Some r => (0 < r)%Z | None => max_iter <> None end ->
  exists F r, forall fuel, F <= fuel -> estimate_dilation_regular ratio hq fuel c rti max_iter fd max_depth = Some r.
Proof.
  intros HC HCk RO RN HH rti max_iter fd max_depth Hfd Hr. pose proof (dcls_curve c HC) as HD. destruct (junc_terminates c HC HCk) as (F0 & js & HJ0).
  pose proof (gen_spec c HC F0) as GS. rewrite (HJ0 F0 (le_n _)) in GS. cbn [fst snd] in GS. cbv zeta in GS. destruct GS as (G1 & _ & _ & G4). specialize (G4 eq_refl).
  pose proof (js_wft c HC js G1) as HJS. assert (EK : cv_kind c = KCurve) by apply HC. destruct (juncs_nonempty c js (proj1 HD) G4) as (j & Hj).
  assert (EJR : forall fuel, F0 <= fuel -> regular_junctions fuel c = Some js) by (intros fuel Hf; unfold regular_junctions; rewrite EK, HJ0; auto).
  assert (exists st, (match fd with None => Some None | Some f => option_map Some (face_points c f) end) = Some st /\ points_ok c st) as (st & Est & HST).
  { destruct fd as [f|]; [|exists None; split; auto; exact I]. destruct (face_points_ok c f HC Hfd) as (pts & Ep & Hp). rewrite Ep. exists (Some pts). auto. }
  destruct (create_x ratio rR c js st hq is_heap None true None F0 HD HST RO HJS HH (EJR F0 (le_n _))) as (t & ps & EC & EO & HPu).
  assert (ECT : forall fuel, F0 <= fuel -> create_tree ratio hq fuel c None None true st = Some t) by (intros fuel Hf; unfold create_tree in *; rewrite (EJR fuel Hf); rewrite (EJR F0 (le_n _)) in EC; exact EC).
  pose proof (fine_first ratio rR c HC is_heap js G1 st ps t EO HPu) as HFn. destruct HPu as (X1 & X2 & X3 & X4 & X5 & X6 & _).
  pose proof (omap_len _ _ _ EO) as LP. pose proof (pair_data_nonempty c js j (proj1 HD) HD HJS Hj) as NE.
  assert (NP : ps <> []) by (intros ->; cbn in LP; destruct (pair_data c js); [congruence|discriminate]).
  destruct (X6 eq_refl NP) as (m & EM). destruct (update_x ratio rR c (all_juncs c js) st hq is_heap HH None true t (bp_lo m) X1) as (t1 & E1 & Y1 & Y2 & Y3 & _ & Y5 & _). { rewrite X2. exact I. }
  assert (HRm : reached rR c (bp_lo m)). { apply (item_reached ratio rR c HC RO js G1). destruct X1 as [(_ & _ & _ & H & _) _]. apply H. auto. }
  assert (HFn1 : fine ratio c js st t1 (bp_lo m)).
  { intros j' a b Hc. destruct (HFn (bp_lo m) j' a b Hc) as (P & HP & HL & [(k & Hk & Ek)|HLow]); [|exists P; auto].
    exists P. split; auto. split; auto. destruct (activeb bp_lo bp_up (Some (bp_lo m)) None k) eqn:EA; [left; exists k; split; auto; apply Y5; auto|]. right. subst P. apply not_act_low; auto. apply (proj2 X1). auto. }
  destruct (finv_top ratio rR c HC HCk RO p Nm RN hq is_heap HH js G1 G4 st HST t1 (bp_lo m) Y1 HRm HFn1) as (top & ET).
  assert (HI : finv ratio rR c is_heap js st t1 (bp_lo m) (bp_up top)).
  { split; auto. split; auto. split; [exists m; split; [congruence|apply Qcle_refl]|]. split; auto. split; auto. intros top' E'. assert (top' = top) by congruence. subst. apply Qcle_refl. }
  assert (FIN : exists tol F1 r, match rti with None => Some None | Some r => option_map Some (tolerance_of r) end = Some tol /\ regular_loop ratio hq F1 st tol max_iter max_depth t1 (bp_lo m) (bp_up top) (bp_argmax m) 0 = Some r).
  { destruct rti as [r|].
    - destruct (tolerance_gt1 r Hr) as (tl & Etl & Htl & _). destruct (some_reached rR c HC HCk p Nm RN) as (r0 & R1 & R2).
      destruct (conv_face ratio rR c HC RO p Nm RN js G1 st HST (qR tl) r0 Htl R1) as (D & HDp).
      exists (Some tl), (S (mass (2 * D) t1)).
      destruct (face_total_tol ratio rR c HC HCk RO p Nm RN hq is_heap HH js G1 G4 st HST tl max_iter max_depth D r0 R2 HDp ltac:(lra) (S (mass (2 * D) t1)) t1 (bp_lo m) (bp_up top) (bp_argmax m) 0 HI ltac:(lia)) as (r1 & Er). exists r1. rewrite Etl. auto.
    - destruct max_iter as [mi|]; [|congruence]. exists None, (S (Z.to_nat mi)).
      destruct (face_total_iter ratio rR c HC HCk RO p Nm RN hq is_heap HH js G1 G4 st HST None mi max_depth (S (Z.to_nat mi)) t1 (bp_lo m) (bp_up top) (bp_argmax m) 0 HI) as (r0 & Er); [lia|lia|]. exists r0. auto. }
  destruct FIN as (tol & F1 & r & Et & Er). exists (F0 + F1), r. intros fuel Hf. unfold estimate_dilation_regular. rewrite Est, Et, ECT by lia. rewrite EM, E1, ET. eapply regular_loop_mono; [|exact Er]. lia.
Qed.
