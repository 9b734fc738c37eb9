(** With face moments and max_depth the loop of estimate_dilation_regular ends, if the dilation is attained at key points. *)
From Verif Require Import Py L_Py L_Qc L_R M_BaseMaps S_BaseMaps L_BaseMaps P_Actions M_Subsets S_Subsets P_Subsets P_Facets P_Combi P_Utils
  M_Paths M_Curves M_Utils M_Heap M_Sat M_Dilation S_Heap P_Heap S_Utils S_Curves S_Fuzzy P_CurveAct L_Digits P_Core P_Bridge P_Cont P_Check P_Subdiv P_Faces P_FuzzyInit P_FuzzyOps P_FuzzyBuilt
  S_Ratio S_Term S_Dilation S_MaxDepth P_Junctions P_JuncLoop P_JuncMain P_JuncFacts P_DilGeo P_DilRatio P_DilBounds P_DilPieces P_DilTree P_DilOps P_DilCreate P_DilRegular P_DilSpec P_Conv P_TermOps P_TermReg P_TermReg2 P_TermNorms P_TermStream P_TermFace P_MaxDepth.
From Coq Require Import Reals Lra Lia Permutation.
Local Open Scope nat_scope.

(** Values above a number, out of finitely many, are well above it. *)
Lemma finite_gap (L : list R) (x : R) : exists dl, (0 < dl)%R /\ forall v, In v L -> (x < v)%R -> (x + dl <= v)%R.
Proof.
  induction L as [|a L (dl & H0 & H)]; [exists 1%R; split; [lra|intros v []]|]. destruct (Rlt_dec x a) as [Ha|Ha].
  - exists (Rmin dl (a - x)). split; [apply Rmin_glb_lt; lra|]. intros v [<-|Hv] Hx.
    + pose proof (Rmin_r dl (a - x)). lra.
    + specialize (H v Hv Hx). pose proof (Rmin_l dl (a - x)). lra.
  - exists dl. split; auto. intros v [<-|Hv] Hx; [lra|auto].
Qed.
Fixpoint lists_upto (g n : nat) : list (list nat) := match n with 0 => [[]] | S n => [] :: flat_map (fun k => map (cons k) (lists_upto g n)) (seq 0 g) end.
Lemma lists_upto_in g n : forall l, length l <= n -> Forall (fun k => k < g) l -> In l (lists_upto g n).
Proof.
  induction n as [|n IH]; intros [|k l] Hl HF; cbn [lists_upto length] in *; try lia; [left; auto|left; auto|]. right. apply Forall_cons_iff in HF as [Hk HF].
  apply in_flat_map. exists k. split; [apply in_seq; lia|]. apply in_map. apply IH; auto. lia.
Qed.

Section Total.
Context (ratio : ratio_func) (rR : list R -> R -> R) (c : curve) (HC : valid_curve c) (HCh : check c = Some true) (RO : ratio_ok (cv_dim c) (ratio (cv_dim c)) rR).
Context (p : nat) (Nm : list R -> R) (RN0 : ratio_norm (cv_dim c) p Nm rR).
Context (hq : heap_impl bpair) (is_heap : list (node bpair) -> Prop) (HH : IH_ok hq is_heap).
Context (js : list junction) (HG : Forall (genuine c) js)
  (HCov : forall p cs cs', p < cv_mult c -> consec (core_of c) cs cs' -> exists j, In j js /\ jeq (cv_dim c) (kpair (core_of c) p cs cs') (jt j)).
Context (fd : nat) (Hfd : fd <= cv_dim c) (pts : list (list (list Qc * Qc))) (Epts : face_points c fd = Some pts) (HST : points_ok c (Some pts)).
Notation st := (Some pts).
Notation K := (core_of c). Notation AJ := (all_juncs c js). Notation d := (cv_dim c).
Let HD : dcls c := dcls_curve c HC.
Let HF : core_full K := core_of_full c (valid_curve_fuzzy c HC).
Let HK : core_ok K := full_ok K HF.
Let RP : ratio_power p rR := norm_power _ _ _ _ RN0.
Let HJS := js_wft c HC js HG.
Let HJ : forall j, AJ j -> wft K (jt j) := juncs_wft c js HJS.
Context (j : junction) (Hj : AJ j) (cs1 cs2 : list nat) (HFP : fraction_pair c j cs1 cs2) (s : R) (u : list R) (t : R) (w : list R)
  (K1 : key_on_piece c (j_spec1 j) cs1 fd s u) (K2 : key_on_piece c (j_spec2 j) cs2 fd t w) (HI : inner_moment c j cs1 cs2 s t).
Notation kv := (kv rR c j s u t w).
Notation leads := (P_MaxDepth.leads j cs1 cs2).
Notation found := (found j cs1 cs2 kv).
Notation finv := (finv ratio rR c is_heap js st).
Notation RG := (IZR (Z.of_nat (cv_genus c))).
Notation pair_ok := (pair_ok c AJ).

(** the values of the upper bounds of the pairs up to some depth *)
Lemma finite_ups B : exists L, forall P lo up am, pair_ok P -> psum P <= B -> get_bounds ratio P st = Some (lo, up, am) -> In (qR up) L.
Proof.
  set (LL := lists_upto (kG K) B).
  exists (flat_map (fun j' => flat_map (fun e => flat_map (fun a => map (fun b => rR (pbx K (jt j') e a b) (IZR (pt2 K (j_dt j') e a b - (kT K a + 1)))) LL) LL) [0; 1]) (gen_auto_junctions c ++ js)).
  intros P lo up am HP HB E. destruct (pair_st ratio rR c HC RO js HG st HST P lo up am HP E) as (e & H). cbv zeta in H. destruct H as (He & _ & W1 & W2 & L1 & L2 & _ & Eu & _).
  pose proof HP as (_ & HPJ & _). unfold psum in HB.
  apply in_flat_map. exists (pp_junc P). split; [apply in_or_app; destruct HPJ; auto|]. apply in_flat_map. exists e. split; [destruct e as [|[|e]]; cbn; auto; lia|].
  apply in_flat_map. eexists. split; [apply lists_upto_in; [|exact W1]|]. { lia. }
  apply in_map_iff. eexists. split; [symmetry; exact Eu|]. apply lists_upto_in; [|exact W2]. unfold jcs1 in *. rewrite map_length in *. lia.
Qed.

(** the pairs that lead to the key points have an upper bound above their ratio *)
Lemma kT_prefix a b : wfc K (a ++ b) -> ((kT K a) * Z.of_nat (kG K) ^ Z.of_nat (length b) <= kT K (a ++ b) /\ kT K (a ++ b) + 1 <= (kT K a + 1) * Z.of_nat (kG K) ^ Z.of_nat (length b))%Z.
Proof. intros W. apply Forall_app in W as [_ W]. rewrite (kT_app K). pose proof (kT_range K HK b W). lia. Qed.
Lemma lead_inner P : pair_ok P -> leads P ->
  (s * RG ^ po_depth (pp_pos1 P) < IZR (kT K (jcs1 K j (pp_pos1 P))) + 1 \/ IZR (kT K (jcs2 K j (pp_pos2 P))) < t * RG ^ po_depth (pp_pos2 P))%R.
Proof.
  intros HP (EJ & (r1 & E1) & r2 & E2). destruct HFP as (W1 & W2 & _). pose proof (wfc_flip K (sp_bm (j_spec1 j)) _ W1) as V1. pose proof (wfc_flip K (sp_bm (j_spec2 j)) _ W2) as V2.
  unfold inner_moment in HI. cbv zeta in HI. change (flip_num (sp_bm (j_spec1 j)) (cv_genus c)) with (kflip K (sp_bm (j_spec1 j))) in HI. change (flip_num (sp_bm (j_spec2 j)) (cv_genus c)) with (kflip K (sp_bm (j_spec2 j))) in HI.
  change (value (Z.of_nat (cv_genus c)) (map Z.of_nat ?x)) with (kT K x) in HI. unfold jcs1, jcs2, po_depth. rewrite E1, E2 in HI. rewrite E1, map_app in V1. rewrite E2, map_app in V2. rewrite !map_app, !app_length, !pow_add in HI.
  set (a1 := map (kflip K (sp_bm (j_spec1 j))) (po_cnums (pp_pos1 P))) in *. set (b1 := map (kflip K (sp_bm (j_spec1 j))) r1) in *.
  set (a2 := map (kflip K (sp_bm (j_spec2 j))) (po_cnums (pp_pos2 P))) in *. set (b2 := map (kflip K (sp_bm (j_spec2 j))) r2) in *.
  pose proof (kT_prefix a1 b1 V1) as [_ B1]. pose proof (kT_prefix a2 b2 V2) as [B2 _]. 
  replace (length b1) with (length r1) in B1 by (unfold b1; rewrite map_length; auto). replace (length b2) with (length r2) in B2 by (unfold b2; rewrite map_length; auto).
  apply IZR_le in B1, B2. rewrite plus_IZR, mult_IZR, plus_IZR, IZR_pow in B1. rewrite mult_IZR, IZR_pow in B2. rewrite kG_genus in *.
  pose proof (RGp K HK (length r1)) as Q1. pose proof (RGp K HK (length r2)) as Q2. rewrite kG_genus in *.
  destruct HI as [H|H]; [left|right]; apply Rnot_le_lt; intros Hle.
  - apply (Rmult_le_compat_r (RG ^ length r1)) in Hle; lra.
  - apply (Rmult_le_compat_r (RG ^ length r2)) in Hle; lra.
Qed.
Lemma lead_up P lo up am : pair_ok P -> leads P -> get_bounds ratio P st = Some (lo, up, am) -> (kv < qR up)%R.
Proof.
  intros HP HLd E. pose proof (lead_inner P HP HLd) as HIn. destruct HLd as (EJ & (r1 & E1) & r2 & E2). destruct (pair_st ratio rR c HC RO js HG st HST P lo up am HP E) as (e & H). cbv zeta in H.
  destruct H as (He & HW & W1 & W2 & L1 & L2 & Hgap & Eu & _). rewrite EJ in *. destruct HFP as (V1 & V2 & _). pose proof (HJ j Hj) as (X1 & X2 & _). cbn [jt fst snd] in X1, X2.
  assert (HQ : kq K (jt j) (jcs1 K j (pp_pos1 P)) (jcs2 K j (pp_pos2 P)) s u t w).
  { unfold kq, jt, jcs1, jcs2. split.
    - apply kpt_prefix with (map (kflip K (sp_bm (j_spec1 j))) r1); auto; rewrite <- map_app, <- E1; [apply (wfc_flip K); auto|]. apply (key_kpt c HC fd); auto.
    - apply kpt_prefix with (map (kflip K (sp_bm (j_spec2 j))) r2); auto; rewrite <- map_app, <- E2; [apply (wfc_flip K); auto|]. apply (key_kpt c HC fd); auto. }
  set (a1 := jcs1 K j (pp_pos1 P)) in *. set (a2 := jcs2 K j (pp_pos2 P)) in *.
  assert (Hg : (kT K a1 + 1 < pt2 K (j_dt j) e a1 a2)%Z) by lia.
  pose proof (bound_gap K HF _ _ e _ _ s u t w HW W1 W2 L2 HQ Hg) as Hlt. destruct (pair_box K HF _ (j_dt j) e _ _ s u t w HW W1 W2 L2 HQ) as ((B1 & B1') & (B2 & B2') & _).
  rewrite kG_genus in *. set (D := ((t + IZR (j_dt j)) * RG ^ length a1 - s * RG ^ length a1)%R).
  assert (LL2 : po_depth (pp_pos2 P) = length a2) by (unfold a2, jcs2, po_depth; rewrite map_length; auto). rewrite <- L1, LL2 in HIn.
  assert (HD1 : (0 < IZR (pt2 K (j_dt j) e a1 a2 - (kT K a1 + 1)) < D)%R).
  { apply IZR_lt in Hgap. split; [exact Hgap|]. rewrite minus_IZR, plus_IZR. unfold D. destruct HIn as [H|H]; [lra|].
    assert (IZR (pt2 K (j_dt j) e a1 a2) < (t + IZR (j_dt j)) * RG ^ length a1)%R; [|lra]. unfold pt2. rewrite plus_IZR, !mult_IZR, !IZR_pow, kG_genus, Rmult_plus_distr_r.
    rewrite L2 at 2. rewrite pow_add. pose proof (RGp K HK e) as Qe. rewrite kG_genus in Qe. apply (Rmult_lt_compat_r (RG ^ e)) in H; lra. }
  assert (B : (kv <= rR (pbx K (jt j) e a1 a2) D)%R). { apply (bound_pre K HF _ rR RO (jt j) (j_dt j) e _ _ s u t w HW W1 W2 L2 HQ Hlt). rewrite kG_genus. fold D. lra. }
  rewrite Eu. eapply Rle_lt_trans; [exact B|]. apply (strict_dt rR c HD p RP); auto.
  apply (ro_mono _ _ _ RO); [|lra]. unfold floor1. apply (bx_ones K). pose proof (ok_N _ HK). assert (0 < Z.of_nat (kN K) ^ Z.of_nat e)%Z by (apply Z.pow_pos_nonneg; lia). lia.
Qed.

Context (Hmax : forall r, attained K rR r -> (r <= kv)%R).
Lemma kv_up_i i : item_ok rR c AJ i -> leads (bp_pair i) -> (kv <= qR (bp_up i))%R.
Proof. exact (kv_up rR c HC fd js HJS j Hj cs1 cs2 HFP s u t w K1 K2 i). Qed.
Lemma kv_lo_i P lo up am : pair_ok P -> leads P -> ~ above cs1 cs2 P -> get_bounds ratio P st = Some (lo, up, am) -> (kv <= qR lo)%R.
Proof. exact (kv_lo ratio rR c HC RO HCh fd Hfd pts Epts HST js HJS j Hj cs1 cs2 HFP s u t w K1 K2 P lo up am). Qed.

(** while a shallow pair is active, the pair on top is not deep *)
Lemma shallow_top m : (Z.of_nat (Nat.min (length cs1) (length cs2)) <= m)%Z -> exists D, forall t0 lo up i, finv t0 lo up -> found t0 -> bh_top t0 = Some i ->
  forallb (fun i => (m <? Z.of_nat (pp_depth (bp_pair i)))%Z) (bh_items t0) = false -> psum (bp_pair i) < 2 * D.
Proof.
  intros Hm. destruct (finite_ups (2 * Z.to_nat m + 1 + (length cs1 + length cs2))) as (L & HL). destruct (finite_gap L kv) as (dl & Hdl & Hgap).
  destruct (some_reached rR c HC HCh p Nm RN0) as (r0 & R1 & R2). pose proof (Hmax r0 R2) as Hr0. set (tl := (1 + dl / (2 * kv))%R).
  assert (Htl : (kv * tl < kv + dl)%R). { unfold tl. replace (kv * (1 + dl / (2 * kv)))%R with (kv + dl / 2)%R by (field; lra). lra. }
  assert (Htl1 : (1 < tl)%R). { unfold tl. assert (0 < dl / (2 * kv))%R; [|lra]. apply Rdiv_lt_0_compat; lra. }
  destruct (conv_face ratio rR c HC RO p Nm RN0 js HG st HST tl r0 Htl1 R1) as (D & HDp). exists D. intros t0 lo up i HIv HFd ET HA. apply Nat.nle_gt. intros Hge.
  destruct (finv_big ratio rR c HC HCh RO p Nm RN0 hq is_heap HH js HG HCov st HST t0 lo up r0 HIv R2) as (i' & E' & Hb). assert (i' = i) by congruence. subst i'.
  destruct (face_step ratio rR c HC HCh RO p Nm RN0 hq is_heap HH js HG HCov st HST t0 lo up HIv) as (i' & _ & _ & _ & A1 & A2 & A3 & A4 & A5 & _). assert (i' = i) by congruence. subst i'.
  assert (Hd : D <= po_depth (pp_pos1 (bp_pair i))) by lia. pose proof (HDp _ _ _ _ A4 Hd A3 ltac:(lra)) as HU.
  destruct HIv as ((Ht & HX) & Eg & (m0 & Em & Hm0) & (r & Q1 & Q2) & _). pose proof (Hmax r Q1) as Q3. apply qR_le in A5, Hm0.
  assert (HU' : (qR (bp_up i) < kv + dl)%R) by nra.
  destruct (top_ok rR c AJ hq is_heap HH None true t0 Ht) as [_ T]. assert (NE : bh_items t0 <> []) by (intros E0; rewrite E0 in HA; discriminate).
  destruct T as (top & E & _ & HM); auto. assert (top = i) by congruence. subst top. pose proof Ht as (_ & Hact & _ & Hok & _).
  assert (CL : forall k, In k (bh_items t0) -> psum (bp_pair k) <= 2 * Z.to_nat m + 1 + (length cs1 + length cs2) -> (qR (bp_up k) <= kv)%R).
  { intros k Hk Hp. apply Rnot_lt_le. intros Hlt. specialize (HM k Hk). apply qR_le in HM. pose proof (HL _ _ _ _ (proj1 (Hok k (or_introl Hk))) Hp (HX k (or_introl Hk))) as HIn. pose proof (Hgap _ HIn Hlt). lra. }
  assert (NLo : (qR lo < kv)%R).
  { apply Rnot_le_lt. intros Hle. assert (exists k, In k (bh_items t0) /\ (m <? Z.of_nat (pp_depth (bp_pair k)))%Z = false) as (k & Hk & Ek).
    { clear - HA. induction (bh_items t0) as [|k l IH]; [discriminate|]. cbn [forallb] in HA. destruct (m <? _)%Z eqn:E; [destruct (IH HA) as (k' & H & H'); exists k'; split; [right|]; auto|exists k; split; [left|]; auto]. }
    apply Z.ltb_ge in Ek. assert (Hps : psum (bp_pair k) <= 2 * Z.to_nat m + 1 + (length cs1 + length cs2)).
    { destruct (proj1 (Hok k (or_introl Hk))) as (_ & _ & _ & _ & Hdp & _). unfold psum, pp_depth in *. lia. }
    pose proof (CL k Hk Hps). specialize (Hact k Hk). rewrite Eg in Hact. apply act_up in Hact. apply qR_lt in Hact. lra. }
  destruct HFd as [(g & Eg' & Hg)|[(m' & Em' & Hm')|(k & Hk & Hkl & Hka)]].
  - assert (g = lo) by congruence. subst g. lra.
  - assert (m' = m0) by congruence. subst m'. lra.
  - assert (Hps : psum (bp_pair k) <= 2 * Z.to_nat m + 1 + (length cs1 + length cs2)) by (unfold above, psum in *; lia). pose proof (CL k Hk Hps) as Hc.
    pose proof (lead_up _ _ _ _ (proj1 (Hok k (or_introl Hk))) Hkl (HX k (or_introl Hk))). lra.
Qed.
Lemma max_total m : (Z.of_nat (Nat.min (length cs1) (length cs2)) <= m)%Z -> exists D, forall fuel t0 lo up am n, finv t0 lo up -> found t0 -> mass (2 * D) t0 < fuel ->
  exists r, regular_loop ratio hq fuel st None None (Some m) t0 lo up am n = Some r.
Proof.
  intros Hm. destruct (shallow_top m Hm) as (D & HDt). exists D. induction fuel as [|fuel IH]; intros t0 lo up am n HIv HFd HM; [lia|]. cbn [regular_loop].
  destruct (forallb _ (bh_items t0)) eqn:EA; [eauto|].
  destruct (face_step ratio rR c HC HCh RO p Nm RN0 hq is_heap HH js HG HCov st HST t0 lo up HIv) as (i & t1 & item & t2 & A1 & A2 & A3 & A4 & A5 & A6 & A7 & A8 & (top & A9 & A10) & A11). rewrite A6, A7, A8, A9.
  pose proof (HDt t0 lo up i HIv HFd A1 EA) as Hps. specialize (A11 _ Hps). pose proof HIv as ((Ht & _) & Eg & _). apply IH; auto; [|lia]. destruct HFP as (W1 & W2 & HLc & _).
  pose proof (divide_found ratio rR c HC RO AJ HJ st HST hq is_heap HH j cs1 cs2 kv W1 W2 HLc kv_up_i kv_lo_i t0 t1 Ht A6 HFd) as HF1.
  destruct (qltb lo (bp_lo item)) eqn:EB; [|injection A8 as <-; exact HF1].
  assert (NE : bh_items t0 <> []) by (intros E0; rewrite E0 in EA; discriminate).
  destruct (divide_tree_ok ratio rR c HD RO AJ HJ st HST hq is_heap HH None true t0 Ht NE) as (t1' & E1' & B1 & B2 & _). assert (t1' = t1) by congruence. subst t1'.
  apply qltb_ok in EB. refine (update_found rR c AJ hq is_heap HH j cs1 cs2 kv kv_up_i t1 t2 (bp_lo item) B1 _ A8 HF1). rewrite B2, Eg. apply Qclt_le_weak; auto.
Qed.
End Total.

Lemma derive_more c j fuel : forall fuel' seen stack, fuel <= fuel' -> In j (fst (derive_loop fuel c seen stack)) -> In j (fst (derive_loop fuel' c seen stack)).
Proof.
  induction fuel as [|fuel IH]; intros fuel' seen stack Hf H.
  - destruct stack; destruct H.
  - destruct fuel' as [|fuel']; [lia|]. destruct stack as [|k stack]; [exact H|]. cbn [derive_loop] in *. destruct (get_derived_junction c k) as [dj|]; [|exact H].
    destruct (memb junc_eqb dj seen); [apply IH; auto; lia|]. cbn [fst] in *. destruct H as [H|H]; [left; auto|right; apply IH; auto; lia].
Qed.
Lemma gen_more c j fuel fuel' : fuel <= fuel' -> In j (fst (gen_regular_junctions fuel c)) -> In j (fst (gen_regular_junctions fuel' c)).
Proof.
  intros Hf. unfold gen_regular_junctions. destruct (gen_base_junctions c) as [base|]; auto. unfold gen_junctions_from_base. cbn [fst]. intros H. apply in_app_or in H. apply in_or_app.
  destruct H as [H|H]; [left; auto|right; eapply derive_more; eauto].
Qed.

(** the whole call *)
Theorem max_depth_total ratio rR p Nm c hq is_heap fd m : valid_curve c -> check c = Some true -> ratio_ok (cv_dim c) (ratio (cv_dim c)) rR -> ratio_norm (cv_dim c) p Nm rR -> IH_ok hq is_heap -> fd <= cv_dim c ->
  (exists F j cs1 cs2 s u t w, In j (gen_auto_junctions c ++ fst (gen_regular_junctions F c)) /\ fraction_pair c j cs1 cs2 /\ (Z.of_nat (Nat.min (length cs1) (length cs2)) <= m)%Z /\
    key_on_piece c (j_spec1 j) cs1 fd s u /\ key_on_piece c (j_spec2 j) cs2 fd t w /\ inner_moment c j cs1 cs2 s t /\ dilation_le rR c (junction_ratio rR (cv_dim c) j s u t w)) ->
  exists F r, forall fuel, F <= fuel -> estimate_dilation_regular ratio hq fuel c None None (Some fd) (Some m) = Some r.
Proof.
  intros HC HCk RO RN HH Hfd (Fj & j0 & cs1 & cs2 & s & u & t & w & Hj0 & HFP & Hm & K1 & K2 & HIn & HDl). pose proof (dcls_curve c HC) as HD. destruct (junc_terminates c HC HCk) as (F0 & js & HJ0).
  pose proof (gen_spec c HC F0) as GS. rewrite (HJ0 F0 (le_n _)) in GS. cbn [fst snd] in GS. cbv zeta in GS. destruct GS as (G1 & _ & _ & G4). specialize (G4 eq_refl).
  pose proof (js_wft c HC js G1) as HJS. assert (EK : cv_kind c = KCurve) by apply HC. destruct (juncs_nonempty c js (proj1 HD) G4) as (j & Hj).
  assert (EJR : forall fuel, F0 <= fuel -> regular_junctions fuel c = Some js) by (intros fuel Hf; unfold regular_junctions; rewrite EK, HJ0; auto).
  destruct (face_points_ok c fd HC Hfd) as (pts & Ep & HST).
  assert (HAJ : all_juncs c js j0).
  { apply in_app_or in Hj0. destruct Hj0 as [H|H]; [left; auto|right]. apply (gen_more c j0 Fj (F0 + Fj)) in H; [|lia]. rewrite HJ0 in H by lia. exact H. }
  assert (Hmax : forall r, attained (core_of c) rR r -> (r <= kv rR c j0 s u t w)%R).
  { intros r (q & s' & t' & u' & w' & Hq & A & B & C & D). rewrite <- D. apply (HDl q); auto; apply (graph_pattern c HC); auto. }
  destruct (create_x ratio rR c js (Some pts) hq is_heap None true None F0 HD HST RO HJS HH (EJR F0 (le_n _))) as (t0 & ps & EC & EO & HPu).
  assert (ECT : forall fuel, F0 <= fuel -> create_tree ratio hq fuel c None None true (Some pts) = Some t0) by (intros fuel Hf; unfold create_tree in *; rewrite (EJR fuel Hf); rewrite (EJR F0 (le_n _)) in EC; exact EC).
  pose proof (fine_first ratio rR c HC is_heap js G1 (Some pts) ps t0 EO HPu) as HFn. destruct HPu as (X1 & X2 & X3 & X4 & X5 & X6 & _).
  pose proof (omap_len _ _ _ EO) as LP. pose proof (pair_data_nonempty c js j (proj1 HD) HD HJS Hj) as NE.
  assert (NP : ps <> []) by (intros ->; cbn in LP; destruct (pair_data c js); [congruence|discriminate]).
  destruct (X6 eq_refl NP) as (mx & EM). destruct (update_x ratio rR c (all_juncs c js) (Some pts) hq is_heap HH None true t0 (bp_lo mx) X1) as (t1 & E1 & Y1 & Y2 & Y3 & _ & Y5 & _). { rewrite X2. exact I. }
  assert (HRm : reached rR c (bp_lo mx)). { apply (item_reached ratio rR c HC RO js G1). destruct X1 as [(_ & _ & _ & H & _) _]. apply H. auto. }
  assert (HFn1 : fine ratio c js (Some pts) t1 (bp_lo mx)).
  { intros j' a b Hc. destruct (HFn (bp_lo mx) j' a b Hc) as (P & HP & HL & [(k & Hk & Ek)|HLow]); [|exists P; auto].
    exists P. split; auto. split; auto. destruct (activeb bp_lo bp_up (Some (bp_lo mx)) None k) eqn:EA; [left; exists k; split; auto; apply Y5; auto|]. right. subst P. apply not_act_low; auto. apply (proj2 X1). auto. }
  destruct (finv_top ratio rR c HC HCk RO p Nm RN hq is_heap HH js G1 G4 (Some pts) HST t1 (bp_lo mx) Y1 HRm HFn1) as (top & ET).
  assert (HI : finv ratio rR c is_heap js (Some pts) t1 (bp_lo mx) (bp_up top)).
  { split; auto. split; auto. split; [exists mx; split; [congruence|apply Qcle_refl]|]. split; auto. split; auto. intros top' E'. assert (top' = top) by congruence. subst. apply Qcle_refl. }
  pose proof (kv_up_i rR c HC js G1 fd j0 HAJ cs1 cs2 HFP s u t w K1 K2) as KU. pose proof (kv_lo_i ratio rR c HC HCk RO js G1 fd Hfd pts Ep HST j0 HAJ cs1 cs2 HFP s u t w K1 K2) as KL.
  assert (HFd : found j0 cs1 cs2 (kv rR c j0 s u t w) t1).
  { assert (Hth : match bh_good_thr t0 with Some g0 => (g0 <= bp_lo mx)%Qc | None => True end) by (rewrite X2; exact I).
    refine (update_found rR c (all_juncs c js) hq is_heap HH j0 cs1 cs2 _ KU t0 t1 (bp_lo mx) (proj1 X1) Hth E1 _). pose proof EC as EC'. unfold create_tree in EC'. rewrite (EJR F0 (le_n _)) in EC'.
    destruct (push_list_found ratio rR c HC RO (all_juncs c js) (juncs_wft c js HJS) (Some pts) HST hq is_heap HH j0 cs1 cs2 (kv rR c j0 s u t w) KU KL
     (fun jcc => init_first_order c (fst (fst jcc)) (snd (fst jcc)) (snd jcc)) (pair_data c js) (bh_new None None true) t0) as (_ & _ & T3); auto.
    { exact (new_ok rR c (all_juncs c js) hq is_heap HH None true None). }
    { intros [[j' k1] k2] Hin. cbn [fst snd]. destruct (init_ok c HD js HJS j' k1 k2 Hin) as (P & EP & HP & _). eauto. }
    apply T3. right. pose proof HFP as (_ & _ & _ & k1 & r1 & k2 & r2 & Ea & Eb & _). pose proof (fp_data c HC fd Hfd js HJS j0 HAJ cs1 cs2 HFP s u t w K1 K2 k1 r1 k2 r2 Ea Eb) as Hin.
    destruct (init_ok c HD js HJS j0 k1 k2 Hin) as (P & EP & HP & _ & Ej & Q1 & Q2). exists (j0, k1, k2), P. split; auto. split; [exact EP|]. split; auto. split; [exists r1|exists r2]; rewrite ?Q1, ?Q2; auto. }
  destruct (max_total ratio rR c HC HCk RO p Nm RN hq is_heap HH js G1 G4 fd Hfd pts Ep HST j0 HAJ cs1 cs2 HFP s u t w K1 K2 HIn Hmax m Hm) as (D & HT).
  destruct (HT (S (mass (2 * D) t1)) t1 (bp_lo mx) (bp_up top) (bp_argmax mx) 0%Z HI HFd ltac:(lia)) as (r & Er).
  exists (F0 + S (mass (2 * D) t1)), r. intros fuel Hf. unfold estimate_dilation_regular. rewrite Ep. cbn [option_map]. rewrite ECT by lia. rewrite EM, E1, ET. eapply regular_loop_mono; [|exact Er]. lia.
Qed.
