(** Termination of estimate_dilation_fuzzy. *)
From Verif Require Import Py L_Py L_Qc L_R M_BaseMaps S_BaseMaps L_BaseMaps P_Actions M_Subsets S_Subsets P_Subsets P_Facets
  M_Paths M_Curves M_Utils M_Heap M_Sat M_Dilation S_Heap P_Heap S_Utils P_Utils S_Curves S_Paths S_Fuzzy S_Sat P_CurveAct L_Digits P_Core P_Bridge P_Cont P_Subdiv P_Faces P_FuzzyInit P_FuzzyMain P_FuzzyOps P_FuzzyBuilt
  S_Ratio S_Term S_Dilation P_Junctions P_JuncLoop P_JuncMain P_Templates P_TemplJunc P_SatCurve P_DilGeo P_DilRatio P_DilBounds P_DilPieces P_DilTree P_DilOps P_DilCreate P_DilSpec P_FuzzyExample P_Bisect P_BisectEnd P_FuzzyEst P_Conv P_TermOps P_TermReg P_TermReg2 P_TermBisect.
From Coq Require Import Reals Lra Lia Permutation.
Local Open Scope nat_scope.

(** The templates do not depend on the fuel. *)
Lemma templates_mono c fuel fuel' T : fuel <= fuel' -> get_junction_templates fuel c = Some T -> get_junction_templates fuel' c = Some T.
Proof.
  intros HL. unfold get_junction_templates. destruct (templates_of c) as [ts|]; auto.
  assert (ST : forall a t r, template_step fuel c a t = Some r -> template_step fuel' c a t = Some r).
  { intros a t r. unfold template_step. destruct (specify_allowed c _) as [cv|]; auto. destruct (get_base_junction cv _ _ None) as [bj|]; auto. unfold gen_junctions_from_base.
    destruct (derive_loop fuel cv (rev [bj]) (rev [bj])) as [js e] eqn:ED. cbn [fst snd]. destruct e; try discriminate. rewrite (loop_mono cv fuel fuel') by (auto; rewrite ED; discriminate). rewrite ED. auto. }
  assert (NN : forall f l, fold_left (fun acc t => obind acc (fun a => template_step f c a t)) l None = None) by (intros f l; induction l; auto).
  generalize (@nil (junction * list curve)). induction ts as [|t ts IH]; cbn [fold_left]; auto. unfold obind at 2 4. intros a E. destruct (template_step fuel c a t) as [a'|] eqn:EA; [|rewrite NN in E; discriminate].
  rewrite (ST _ _ _ EA). apply IH. exact E.
Qed.
Lemma templates_same c f f' T T' : get_junction_templates f c = Some T -> get_junction_templates f' c = Some T' -> T' = T.
Proof.
  intros E E'. destruct (Nat.le_ge_cases f f') as [H|H]; [apply (templates_mono _ _ _ _ H) in E|apply (templates_mono _ _ _ _ H) in E']; congruence.
Qed.
(** A lower bound on the dilation of all curves with given dimension and genus. *)
Definition floor_dil (rR : list R -> R -> R) (d G : nat) : R := rR (ones d) (IZR (Z.of_nat G) ^ 2)%R.
Lemma floor_dil_pos rR pw d G : ratio_power pw rR -> 1 <= d -> 1 <= G -> (0 < floor_dil rR d G)%R.
Proof.
  intros RP Hd HG. unfold floor_dil. assert (H : (0 < IZR (Z.of_nat G) ^ 2)%R) by (apply pow_lt, (IZR_lt 0); lia). pose proof (rp_dt _ _ RP (ones d) _ H) as E. pose proof (rp_pos _ _ RP _ (ones_ex d Hd)) as HP.
  pose proof (pow_lt _ pw H) as Q. apply (Rmult_lt_reg_r ((IZR (Z.of_nat G) ^ 2) ^ pw)%R); auto. lra.
Qed.
Lemma dilation_floor ratio rR x M : valid_curve x -> ratio_ok (cv_dim x) (ratio (cv_dim x)) rR -> dilation_le rR x M -> (floor_dil rR (cv_dim x) (cv_genus x) <= M)%R.
Proof.
  intros VX RO HL. pose proof (core_of_full x (valid_curve_fuzzy x VX)) as HF. set (K := core_of x) in *. pose proof (full_ok K HF) as HK. pose proof (kG_ge2 K HK) as HG2. assert (Hp : 0 < km K) by (cbn [km core_of K]; destruct VX as (_ & _ & V & _); lia).
  assert (W1 : wfc K [0; 0]) by (repeat constructor; lia). assert (W2 : wfc K [1; 0]) by (repeat constructor; lia). pose proof (auto_wf K 0 Hp) as HW.
  set (c1 := [0; 0]) in *. set (c2 := [1; 0]) in *.
  assert (Hgap : (kT K c1 + 1 < pt2 K 0 0 c1 c2)%Z). { unfold pt2, c1, c2. rewrite !kT_cons, kT_nil. cbn [length]. change (Z.of_nat 0) with 0%Z. change (Z.of_nat 1) with 1%Z. rewrite Z.pow_0_r, Z.pow_1_r. lia. }
  destruct (bound_lo2 K HF _ rR RO (auto_tri K 0) 0%Z 0 c1 c2 HW W1 W2 eq_refl Hgap) as (s & u & t & w & HQ & HR).
  pose proof (bound_gap K HF _ 0%Z 0 _ _ s u t w HW W1 W2 eq_refl HQ Hgap) as Hlt. pose proof (kq_up K HF _ _ _ s u t w HW W1 W2 HQ) as HQ0.
  assert (HC : cfg K (auto_tri K 0) 0%Z) by (right; eauto).
  destruct (cfg_real K HF _ rR RO _ _ s u t w HC HQ0 Hlt) as (p & s' & t' & u' & w' & Hp' & A1 & A2 & A3 & A4).
  assert (H : (rR (diffs (kd K) u' w') (t' - s') <= M)%R). { apply (HL p s' t' u' w'); auto; apply (graph_pattern x VX); auto. }
  rewrite A4 in H. eapply Rle_trans; [|exact H]. eapply Rle_trans; [|exact HR]. unfold floor_dil. change (cv_dim x) with (kd K). change (cv_genus x) with (kG K). unfold c1, c2 in *. cbn [length] in *.
  destruct (pair_box K HF _ 0%Z 0 _ _ s u t w HW W1 W2 eq_refl HQ) as ((B1 & _) & (_ & B2) & _ & _). cbn [length] in *. pose proof (RGp K HK 2) as HGp.
  destruct HQ0 as [Q1 Q2]. apply kpt_nil in Q1; auto. apply kpt_nil in Q2; auto. apply (P_Core.kgraph_range K) in Q1. apply (P_Core.kgraph_range K) in Q2. destruct Q1 as [Q1 _], Q2 as [Q2 _].
  apply (ro_mono _ _ _ RO).
  - unfold pbx. apply bx_ones. cbn. lia.
  - replace (IZR 0) with 0%R in * by reflexivity. split; nra.
Qed.
Section Loop.
Context (ratio : ratio_func) (hq : heap_impl bpair) (solver : sat_solver) (sched : Z -> Z) (max_iter : option Z) (c : curve) (tol : Qc) (stop : option Qc) (t : tree) (a : adapter) (L : R).
Context (HL : (0 < L)%R) (Htol : (1 < qR tol)%R).
Context (BT : forall good bad call, (bad < good)%Qc -> exists F r, fst r <> BError /\ (max_iter = None -> fst r <> BOutOfIter) /\
   (forall fuel, F <= fuel -> bisect_dilation_fuzzy ratio hq fuel solver sched max_iter c good bad (Some t) (Some a) call = r) /\ (forall x, fst r = BFound x -> (L <= qR good)%R)).
Definition fine (r : option curve * Qc * Qc * nat) : Prop := let '(_, lo, up, _) := r in (0 <= qR lo)%R /\ (max_iter = None -> (qR up <= qR lo * qR tol)%R \/ exists s, stop = Some s /\ (s < lo)%Qc).
Definition ends (cur : option curve) (lo up : Qc) (call : nat) : Prop :=
  exists F r, fine r /\ forall fuel, F <= fuel -> fuzzy_loop ratio hq fuel solver sched max_iter c tol stop t a cur lo up call = Some r.
Lemma ends_now cur lo up call : (0 <= qR lo)%R -> (qR up <= qR lo * qR tol)%R -> ends cur lo up call.
Proof.
  intros H0 H. assert (E : qltb (lo * tol)%Qc up = false) by (apply qltb_false, qR_le; rewrite qR_mul; auto). exists 0, (cur, lo, up, call). split; [split; auto|]. intros [|fuel] _; cbn [fuzzy_loop]; rewrite E; auto.
Qed.
Lemma ends_step cur lo up call (tl tu : Qc) : (0 <= qR lo)%R -> qltb (lo * tol)%Qc up = true ->
  (if Qc_eq_bool lo 0%Qc then (Zq 1 / Zq 2 * up)%Qc else third 2 1 lo up) = tl -> (if Qc_eq_bool lo 0%Qc then (Zq 2 / Zq 3 * up)%Qc else third 1 2 lo up) = tu -> (tl < tu)%Qc -> (0 <= qR tl)%R ->
  (forall cur' call', (L <= qR tu)%R -> ends cur' lo tu call') -> (forall call', ends cur tl up call') -> ends cur lo up call.
Proof.
  intros H0 E Etl Etu Hlt Htl HF HN. destruct (BT tu tl call Hlt) as (F & r & R1 & R2 & R3 & R4). destruct r as [res call']. cbn [fst] in *.
  assert (NEXT : forall cur' lo' up', (0 <= qR lo')%R -> ends cur' lo' up' call' -> exists F' r, fine r /\ forall fuel, F' <= fuel ->
    (if match stop with Some s => qltb s lo' | None => false end then Some (cur', lo', up', call') else fuzzy_loop ratio hq fuel solver sched max_iter c tol stop t a cur' lo' up' call') = Some r).
  { intros cur' lo' up' Hp' He. destruct (match stop with Some s => _ | None => _ end) eqn:ES; [|exact He]. exists 0, (cur', lo', up', call'). split; auto. split; auto. intros _. right. destruct stop as [s|]; [|discriminate]. exists s. split; auto. apply qltb_ok; auto. }
  assert (STEP : forall F' r', fine r' -> (forall fuel, F' <= fuel -> match res with BError => None | BOutOfIter => Some (cur, lo, up, call')
       | BFound x => if match stop with Some s => qltb s lo | None => false end then Some (Some x, lo, tu, call') else fuzzy_loop ratio hq fuel solver sched max_iter c tol stop t a (Some x) lo tu call'
       | BNone => if match stop with Some s => qltb s tl | None => false end then Some (cur, tl, up, call') else fuzzy_loop ratio hq fuel solver sched max_iter c tol stop t a cur tl up call' end = Some r') -> ends cur lo up call).
  { intros F' r' Hf Hr'. exists (S (F + F')), r'. split; auto. intros [|fuel] Hfu; [lia|]. cbn [fuzzy_loop]. rewrite E, Etl, Etu. rewrite (R3 (S fuel)) by lia. rewrite <- (Hr' fuel) by lia. destruct res; reflexivity. }
  destruct res as [x| | |].
  - destruct (NEXT (Some x) lo tu H0 (HF _ _ (R4 x eq_refl))) as (F' & r' & X1 & X2). apply (STEP F' r'); auto.
  - destruct (NEXT cur tl up Htl (HN _)) as (F' & r' & X1 & X2). apply (STEP F' r'); auto.
  - apply (STEP 0 (cur, lo, up, call')); auto. split; auto. intros E0. exfalso. apply (R2 E0). auto.
  - congruence.
Qed.
Lemma third_R (x y : Z) lo up : qR (third x y lo up) = (IZR x / 3 * qR lo + IZR y / 3 * qR up)%R.
Proof. unfold third. rewrite qR_add, !qR_mul, !qR_div, !qR_Zq; auto; discriminate. Qed.
Lemma phase_pos n : forall cur lo up call, (0 < qR lo)%R -> (qR up - qR lo <= qR lo * (qR tol - 1) * (3 / 2) ^ n)%R -> ends cur lo up call.
Proof.
  induction n as [|n IH]; intros cur lo up call H0 H.
  - apply ends_now; [lra|]. cbn in H. lra.
  - destruct (qltb (lo * tol)%Qc up) eqn:E; [|apply ends_now; [lra|apply qltb_false, qR_le in E; rewrite qR_mul in E; lra]].
    pose proof E as E'. apply qltb_ok, qR_lt in E'. rewrite qR_mul in E'. assert (LU : (qR lo < qR up)%R) by nra.
    assert (NZ : Qc_eq_bool lo 0%Qc = false). { destruct (Qc_eq_bool lo 0%Qc) eqn:X; auto. apply Qc_eq_bool_correct in X. subst lo. change (qR 0%Qc) with (qR (Zq 0)) in H0. rewrite qR_Zq in H0. lra. }
    cbn [pow] in H. pose proof (pow_lt (3/2) n ltac:(lra)) as Hpow.
    apply (ends_step cur lo up call (third 2 1 lo up) (third 1 2 lo up)); auto.
    + lra.
    + rewrite NZ; auto.
    + rewrite NZ; auto.
    + apply qR_lt. rewrite !third_R. lra.
    + rewrite third_R. lra.
    + intros cur' call' _. apply IH; auto. rewrite third_R. set (q := ((3/2) ^ n)%R) in *. nra.
    + intros call'. apply IH; [rewrite third_R; lra|]. rewrite third_R. set (q := ((3/2) ^ n)%R) in *. assert (qR lo * (qR tol - 1) * q <= (2 / 3 * qR lo + 1 / 3 * qR up) * (qR tol - 1) * q)%R; [|nra]. apply Rmult_le_compat_r; [lra|]. apply Rmult_le_compat_r; lra.
Qed.
Lemma phase_pos_all cur lo up call : (0 < qR lo)%R -> ends cur lo up call.
Proof.
  intros H0. assert (HB : (0 < qR lo * (qR tol - 1))%R) by (apply Rmult_lt_0_compat; lra). destruct (pow_big (3/2) ((qR up - qR lo) / (qR lo * (qR tol - 1)))) as (n & Hn); [lra|].
  apply (phase_pos n); auto. specialize (Hn n (le_n _)). apply (Rmult_le_compat_l (qR lo * (qR tol - 1))) in Hn; [|lra]. replace (qR lo * (qR tol - 1) * ((qR up - qR lo) / (qR lo * (qR tol - 1))))%R with (qR up - qR lo)%R in Hn by (field; lra). exact Hn.
Qed.
Lemma phase_zero n : forall cur up call, (qR up <= L * (3 / 2) ^ n)%R -> ends cur 0%Qc up call.
Proof.
  assert (Z0 : qR 0%Qc = 0%R) by (change (qR 0%Qc) with (qR (Zq 0)); apply qR_Zq).
  assert (EZ : Qc_eq_bool 0%Qc 0%Qc = true) by (unfold Qc_eq_bool; destruct (Qc_eq_dec 0 0); congruence).
  assert (H12 : forall up, qR (Zq 1 / Zq 2 * up)%Qc = (1 / 2 * qR up)%R) by (intros up; rewrite qR_mul, qR_div, !qR_Zq; [reflexivity|discriminate]).
  assert (H23 : forall up, qR (Zq 2 / Zq 3 * up)%Qc = (2 / 3 * qR up)%R) by (intros up; rewrite qR_mul, qR_div, !qR_Zq; [reflexivity|discriminate]).
  assert (ST : forall cur up call, (forall cur' call', (L <= 2 / 3 * qR up)%R -> ends cur' 0%Qc (Zq 2 / Zq 3 * up)%Qc call') -> ends cur 0%Qc up call).
  { intros cur up call HF. destruct (qltb (0 * tol)%Qc up) eqn:E; [|apply ends_now; [lra|apply qltb_false, qR_le in E; rewrite qR_mul in E; lra]].
    pose proof E as E'. apply qltb_ok, qR_lt in E'. rewrite qR_mul, Z0 in E'. rewrite Rmult_0_l in E'.
    apply (ends_step cur 0%Qc up call (Zq 1 / Zq 2 * up)%Qc (Zq 2 / Zq 3 * up)%Qc); rewrite ?EZ; auto.
    - lra.
    - apply qR_lt. rewrite H12, H23. lra.
    - rewrite H12. lra.
    - intros cur' call' HX. rewrite H23 in HX. auto.
    - intros call'. apply phase_pos_all. rewrite H12. lra. }
  induction n as [|n IH]; intros cur up call H; apply ST; intros cur' call' HX.
  - cbn in H. lra.
  - apply IH. rewrite H23. cbn [pow] in H. pose proof (pow_lt (3/2) n ltac:(lra)) as Hpow. nra.
Qed.
Lemma loop_ends cur lo up call : (0 <= qR lo)%R -> ends cur lo up call.
Proof.
  intros [H|H]; [apply phase_pos_all; auto|]. assert (lo = 0%Qc) by (apply qR_inj; rewrite <- H; change (qR 0%Qc) with (qR (Zq 0)); rewrite qR_Zq; auto). subst lo.
  destruct (pow_big (3/2) (qR up / L)) as (n & Hn); [lra|]. apply (phase_zero n). specialize (Hn n (le_n _)). apply (Rmult_le_compat_l L) in Hn; [|lra]. replace (L * (qR up / L))%R with (qR up) in Hn by (field; lra). exact Hn.
Qed.
End Loop.
(** One fuzzy curve built from paths. *)
Section Fuzzy.
Context (d N : nat) (group : option (list base_map)) (dtr : bool) (paths : list (path (list Qc))).
Context (HG : valid_group d group) (HP : valid_paths d N paths) (HJ : forall p, In p paths -> joined_path p).
Context (ratio : ratio_func) (rR : list R -> R -> R) (RO : ratio_ok d (ratio d) rR) (pw : nat) (RP : ratio_power pw rR).
Context (hq : heap_impl bpair) (HQ : heapq_ok hq).
Lemma fuzzy_regular_total c : built group dtr paths c -> forall rti max_iter max_depth, match rti with Some r => (0 < r)%Z | None => max_iter <> None end ->
  exists F r, forall fuel, F <= fuel -> estimate_dilation_regular ratio hq fuel c rti max_iter None max_depth = Some r.
Proof.
  intros HB. destruct (heapq_inv hq HQ) as (is_heap & HH). pose proof (built_estimable d N group dtr paths c HG HP HB) as HD. assert (RO' : ratio_ok (cv_dim c) (ratio (cv_dim c)) rR) by (rewrite (built_dim d N group dtr paths c HG HP HB); auto).
  destruct (templates_end d N group dtr paths HG HP c HB HJ) as (F0 & T & HT). pose proof (HT F0 (le_n _)) as ET.
  apply (regular_total_gen ratio rR pw c (map fst T) hq is_heap F0); auto.
  - intros fuel Hf. apply (regular_js d N group dtr paths HG HP c HB T). auto.
  - exact (js_ok d N group dtr paths HG HP c HB F0 T ET).
  - assert (exists x, chosen_from c x) as (x & HX). { apply chosen_exists. intros q k Hq Hk. destruct (proj2 HD q k Hq Hk) as (l & E & _ & NE & _). eauto. }
    pose proof (dcls_chosen c x HD HX) as VX. pose proof (valid_curve_fuzzy x VX) as VF. pose proof (core_of_full x VF) as HF. pose proof (kG_ge2 _ (full_ok _ HF)) as HG2. destruct VF as (_ & _ & Hp & _).
    destruct (js_cover d N group dtr paths HG HP c HB F0 T ET x HX (cv_pnum x) [0] [1] Hp) as (j & Hj & _); [|eauto]. repeat split; auto; repeat constructor; lia || (rewrite !kT_cons; cbn; lia).
Qed.
Theorem bisect_ends c : built group dtr paths c -> forall good bad it ia solver sched max_iter call, (bad < good)%Qc -> sat_ok solver -> cached_tree ratio hq c it -> cached_adapter c ia ->
  exists F r, fst r <> BError /\ (max_iter = None -> fst r <> BOutOfIter) /\ forall fuel, F <= fuel -> bisect_dilation_fuzzy ratio hq fuel solver sched max_iter c good bad it ia call = r.
Proof.
  intros HB good bad it ia solver sched max_iter call Hgb HS Hit Hia. destruct (heapq_inv hq HQ) as (is_heap & HH). assert (RO' : ratio_ok (cv_dim c) (ratio (cv_dim c)) rR) by (rewrite (built_dim d N group dtr paths c HG HP HB); auto).
  destruct (templates_end d N group dtr paths HG HP c HB HJ) as (F0 & T & HT).
  apply (bisect_total d N group dtr paths HG HP c HB ratio rR RO' pw RP hq is_heap HH F0 T HT); auto.
  - destruct it as [t|]; auto. destruct (Hit t eq_refl) as (f & Ef). exists f. split; auto. assert (exists js', regular_junctions f c = Some js') as (js' & EJ). { unfold create_tree in Ef. destruct (regular_junctions f c); [eauto|discriminate]. }
    apply (js_regular d N group dtr paths HG HP c HB) in EJ as (T' & ET & _). rewrite (templates_same c f F0 T' T); auto.
  - destruct ia as [a|]; auto. destruct (Hia a eq_refl) as (f & Ef). exists f. split; auto. assert (exists T', get_junction_templates f c = Some T') as (T' & ET). { unfold ad_load in Ef. destruct (get_junction_templates f c); [eauto|]. destruct (omap _ _); discriminate. }
    rewrite ET. f_equal. symmetry. apply (templates_same c f F0 T' T); auto.
Qed.
Theorem fuzzy_ends c : built group dtr paths c -> forall solver sched max_iter rel_tol_inv stop start_lo start_up start_curve call, sat_ok solver -> (0 < rel_tol_inv)%Z ->
  (forall l, start_lo = Some l -> (0 <= l)%Qc) ->
  exists F r, (let '(_, lo, up, _) := r in (0 <= lo)%Qc /\ (max_iter = None -> (qR up * IZR rel_tol_inv <= qR lo * IZR (rel_tol_inv + 1))%R \/ exists s, stop = Some s /\ (s < lo)%Qc)) /\
    forall fuel, F <= fuel -> estimate_dilation_fuzzy ratio hq fuel solver sched max_iter c rel_tol_inv stop start_lo start_up start_curve call = Some r.
Proof.
  intros HB solver sched max_iter rti stop slo sup scur call HS Hr Hlo. pose proof (built_estimable d N group dtr paths c HG HP HB) as HD. destruct (heapq_inv hq HQ) as (is_heap & HH).
  pose proof (built_dim d N group dtr paths c HG HP HB) as Ed. assert (RO' : ratio_ok (cv_dim c) (ratio (cv_dim c)) rR) by (rewrite Ed; auto).
  destruct (templates_end d N group dtr paths HG HP c HB HJ) as (F0 & T & HT). pose proof (HT F0 (le_n _)) as ET.
  destruct (create_init d N group dtr paths HG HP c HB ratio rR RO' hq is_heap HH F0 T ET None None) as (t & Et & _).
  assert (exists a, ad_load F0 c = Some a) as (a & Ea). { pose proof (load_total d N group dtr paths HG HP c HB F0 ltac:(rewrite ET; discriminate)). destruct (ad_load F0 c); [eauto|congruence]. }
  destruct (tolerance_gt1 rti Hr) as (tol & Etol & Htol & Htr).
  assert (START : exists F1 cu, forall fuel, F1 <= fuel -> match sup with
        | None => match get_curve_example c with
                  | Some c0 => match estimate_dilation_regular ratio hq fuel c0 (Some rti) None None None with
                               | Some (_, up, _) => Some (Some c0, up)
                               | None => None
                               end
                  | None => None
                  end
        | Some u => Some (scur, u) end = Some cu).
  { destruct sup as [u|]; [exists 0, (scur, u); auto|]. destruct (get_curve_example c) as [e|] eqn:EE.
    - destruct (example_built d N group dtr paths HG HP c e HB EE) as (Be & _). destruct (fuzzy_regular_total e Be (Some rti) None None Hr) as (F1 & [[l0 u0] am0] & R1). exists F1, (Some e, u0). intros fuel Hf. rewrite R1; auto.
    - exfalso. destruct (example_ok c) as (e' & E & _); [apply (built_A d N group dtr paths HG HP c HB)|apply (built_len d N group dtr paths HG HP c HB)| |congruence].
      destruct (built_A d N group dtr paths HG HP c HB 0 0) as (l & A & _).
      + destruct (built_good d N group dtr paths HG HP c HB) as ((_ & _ & V & _) & _). lia.
      + pose proof (built_G2 d N group dtr paths HG HP c HB). lia.
      + unfold gen_allowed_specs in A. intros X. rewrite X in A. discriminate. }
  destruct START as (F1 & [cur0 up0] & START).
  assert (FP : (0 < floor_dil rR d (cv_genus c))%R). { pose proof (full_ok _ (core_of_full c (proj1 HD))) as HK. apply (floor_dil_pos rR pw); auto; [rewrite <- Ed; exact (ok_d _ HK)|pose proof (kG_ge2 _ HK) as X; rewrite kG_genus in X; lia]. }
  assert (CT : cached_tree ratio hq c (Some t)) by (intros t' X; injection X as <-; eauto). assert (CA : cached_adapter c (Some a)) by (intros a' X; injection X as <-; eauto).
  destruct (loop_ends ratio hq solver sched max_iter c tol stop t a _ FP Htol) with (cur := cur0) (lo := match slo with None => 0%Qc | Some l => l end) (up := up0) (call := call) as (F2 & r & Hf & R2).
  - intros good bad call' Hgb. destruct (bisect_ends c HB good bad (Some t) (Some a) solver sched max_iter call' Hgb HS CT CA) as (F & rr & A1 & A2 & A3). exists F, rr. split; auto. split; auto. split; auto.
    intros x Ex. specialize (A3 F (le_n _)). destruct rr as [res call'']. cbn in Ex. subst res. destruct (bisect_spec hq HQ ratio rR d N group dtr paths c _ solver sched max_iter good bad (Some t) (Some a) call' _ call'' HG HP HB RO HS CT CA A3) as (y & Y1 & Y2 & Y3).
    assert (Y4 : dilation_le rR y (qR good)) by (apply (proj1 (dilation_le_pnum rR y 0 (qR good))); subst x; exact Y3). pose proof (dcls_chosen c y HD Y1) as VY. destruct (chosen_genus c y Y1) as (EG & _). assert (EDm : cv_dim y = cv_dim c) by apply Y1.
    rewrite <- EG, <- Ed. rewrite <- EDm at 1. apply (dilation_floor ratio); auto. rewrite EDm. auto.
  - destruct slo as [l|]; [specialize (Hlo l eq_refl); apply qR_le in Hlo; change (qR 0%Qc) with (qR (Zq 0)) in Hlo; rewrite qR_Zq in Hlo; auto|]. change (qR 0%Qc) with (qR (Zq 0)). rewrite qR_Zq. lra.
  - exists (F0 + F1 + F2), r. split.
    + destruct r as [[[cur lo] up] calls]. destruct Hf as [H1 H2]. split; [apply qR_le; change (qR 0%Qc) with (qR (Zq 0)); rewrite qR_Zq; auto|]. intros EN. destruct (H2 EN) as [H3|H3]; auto. left.
      assert (0 < IZR rti)%R by (apply (IZR_lt 0); auto). rewrite <- Htr. rewrite <- Rmult_assoc. apply Rmult_le_compat_r; lra.
    + intros fuel Hfu. unfold estimate_dilation_fuzzy. rewrite START by lia. rewrite Etol.
      assert (E1 : create_tree ratio hq fuel c None None false None = Some t). { rewrite <- Et. unfold create_tree. rewrite (regular_js d N group dtr paths HG HP c HB T fuel (HT fuel ltac:(lia))), (regular_js d N group dtr paths HG HP c HB T F0 ET). reflexivity. }
      assert (E2 : ad_load fuel c = Some a) by (rewrite <- Ea; unfold ad_load; rewrite ET, (HT fuel ltac:(lia)); reflexivity).
      rewrite E1, E2. apply R2. lia.
Qed.
End Fuzzy.
