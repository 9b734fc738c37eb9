(** Termination of bisect_dilation_fuzzy. *)
From Verif Require Import Py L_Py L_Qc L_R M_BaseMaps S_BaseMaps L_BaseMaps P_Actions M_Subsets S_Subsets P_Subsets P_Facets
  M_Paths M_Curves M_Utils M_Heap M_Sat M_Dilation S_Heap P_Heap S_Utils S_Curves S_Paths S_Fuzzy S_Sat P_CurveAct L_Digits P_Core P_Bridge P_Cont P_Subdiv P_Faces P_FuzzyInit P_FuzzyMain P_FuzzyOps P_FuzzyBuilt
  S_Ratio S_Term S_Dilation P_Junctions P_JuncLoop P_JuncMain P_Templates P_TemplJunc P_SatCurve P_DilGeo P_DilRatio P_DilBounds P_DilPieces P_DilTree P_DilOps P_DilCreate P_DilSpec P_Bisect P_Conv P_TermOps P_TermReg P_TermReg2.
From Coq Require Import Reals Lra Lia Permutation.
Local Open Scope nat_scope.

Lemma forbid_keeps t a : bh_items (fst (forbid t a)) = bh_items t /\ bh_max (fst (forbid t a)) = bh_max t /\ bh_bad (fst (forbid t a)) = [].
Proof. unfold forbid, bh_pop_bad. cbn. auto. Qed.
Lemma bisect_loop_mono ratio hq solver sched mi : forall fuel fuel' t a n k call, fuel <= fuel' -> fst (bisect_loop ratio hq fuel solver sched mi t a n k call) <> BError ->
  bisect_loop ratio hq fuel' solver sched mi t a n k call = bisect_loop ratio hq fuel solver sched mi t a n k call.
Proof.
  induction fuel as [|fuel IH]; intros fuel' t a n k call HL; cbn [bisect_loop].
  - destruct (bh_items t) eqn:EI; [intros _; destruct fuel'; cbn [bisect_loop]; rewrite EI; reflexivity|]. intros H. exfalso. apply H. reflexivity.
  - destruct fuel' as [|fuel']; [lia|]. cbn [bisect_loop]. destruct (bh_items t); [reflexivity|]. destruct (match mi with Some m => _ | None => false end); [reflexivity|].
    destruct (divide_tree ratio hq None t) as [t1|]; [|reflexivity]. destruct (forbid t1 a) as [t2 a2]. destruct (n + 1 <? k)%Z; [intros H; apply IH; auto; lia|].
    destruct (ad_solve solver call a2); [intros H; apply IH; auto; lia|reflexivity].
Qed.

Section TermBisect.
Context (d N : nat) (group : option (list base_map)) (dtr : bool) (paths : list (path (list Qc))).
Context (HG : valid_group d group) (HP : valid_paths d N paths) (c : curve) (HB : built group dtr paths c).
Context (ratio : ratio_func) (rR : list R -> R -> R) (RO : ratio_ok (cv_dim c) (ratio (cv_dim c)) rR) (pw : nat) (RP : ratio_power pw rR).
Context (hq : heap_impl bpair) (is_heap : list (node bpair) -> Prop) (HH : IH_ok hq is_heap).
Let HD : dcls c := built_estimable d N group dtr paths c HG HP HB.
Section Run.
Context (fuelT : nat) (T : list (junction * list curve)) (ET : get_junction_templates fuelT c = Some T).
Notation js := (map fst T).
Notation AJ := (all_juncs c js).
Let JS : forall j, In j js -> wft (core_of c) (jt j) /\ j_dt j = 1%Z.
Proof. exact (js_ok d N group dtr paths HG HP c HB fuelT T ET). Qed.
Let JW : forall j, AJ j -> wft (core_of c) (jt j) := juncs_wft c js JS.
Context (good bad : Qc) (Hgb : (bad < good)%Qc).
Notation tree_x := (tree_x ratio rR c AJ None is_heap (Some bad) false).
Notation binv := (binv c rR is_heap T good bad).

(** deep pairs are not active *)
Lemma depth_bound : exists D, forall t i, tree_x t -> bh_good_thr t = Some good -> In i (bh_items t) -> psum (bp_pair i) < 2 * D.
Proof.
  assert (ACT : forall t i, tree_x t -> bh_good_thr t = Some good -> In i (bh_items t) -> pair_ok c AJ (bp_pair i) /\ exact_item ratio None i /\ (bp_lo i < bad)%Qc /\ (good < bp_up i)%Qc).
  { intros t i [(_ & H2 & _ & H4 & _) HX] Eg Hi. split; [apply H4; auto|]. split; [apply HX; auto|]. specialize (H2 i Hi). rewrite Eg in H2. unfold activeb in H2. apply andb_prop in H2 as [A B].
    apply negb_true_iff in A, B. cbn in A, B. apply qleb_false in A, B. auto. }
  apply qR_lt in Hgb. destruct (Rle_lt_dec (qR bad) 0) as [Hb|Hb].
  - exists 0. intros t i Ht Eg Hi. exfalso. destruct (ACT t i Ht Eg Hi) as (HPi & HX & H1 & _). destruct (conv_facts ratio rR c HD RO pw RP AJ JW _ _ _ _ HPi HX) as (_ & L0 & _). apply qR_lt in H1. lra.
  - assert (Ht : (1 < qR good / qR bad)%R) by (apply (Rmult_lt_reg_r (qR bad)); auto; unfold Rdiv; rewrite Rmult_assoc, Rinv_l by lra; lra).
    destruct (conv_deep ratio rR c HD RO pw RP AJ JW _ Ht) as (D & HDp). exists D. intros t i HT Eg Hi. destruct (ACT t i HT Eg Hi) as (HPi & HX & H1 & H2).
    assert (DP : psum (bp_pair i) <= 2 * po_depth (pp_pos1 (bp_pair i))) by (unfold psum; destruct HPi as (_ & _ & _ & _ & A5 & _); lia).
    apply Nat.nle_gt. intros Hge. assert (HL : D <= po_depth (pp_pos1 (bp_pair i))) by lia. specialize (HDp _ _ _ _ HPi HL HX). apply qR_lt in H1, H2.
    assert (qR (bp_lo i) * (qR good / qR bad) < qR good)%R; [|lra]. replace (qR good) with (qR bad * (qR good / qR bad))%R at 2 by (field; lra). apply Rmult_lt_compat_r; lra.
Qed.
Lemma forbid_x t a : tree_x t -> binv (fst (forbid t a)) [] \/ (exists f, binv (fst (forbid t a)) f) -> tree_x (fst (forbid t a)).
Proof.
  intros [_ HX] HI. assert (HT : tree_ok rR c AJ is_heap (Some bad) false (fst (forbid t a))) by (destruct HI as [[H _]|(f & H & _)]; exact H). split; auto.
  destruct (forbid_keeps t a) as (E1 & E2 & E3). intros i. rewrite E1, E2, E3. intros [Hi|[[]|Hi]]; apply HX; auto.
Qed.
Context (fuelA : nat) (a0 : adapter) (HL : ad_load fuelA c = Some a0) (solver : sat_solver) (HS : sat_ok solver) (sched : Z -> Z) (max_iter : option Z).
Lemma loop_total D : (forall t i, tree_x t -> bh_good_thr t = Some good -> In i (bh_items t) -> psum (bp_pair i) < 2 * D) ->
  forall fuel t forb n k call, binv t forb -> tree_x t -> bh_bad t = [] -> mass (2 * D) t <= fuel ->
  let r := fst (bisect_loop ratio hq fuel solver sched max_iter t (forbid_all a0 forb) n k call) in r <> BError /\ (max_iter = None -> r <> BOutOfIter).
Proof.
  intros HDp.
  assert (FIN : forall forb call, let r := fst (finish solver (forbid_all a0 forb) call) in r <> BError /\ (max_iter = None -> r <> BOutOfIter)).
  { intros forb call. unfold finish. cbn [fst]. pose proof (solve_exact d N group dtr paths HG HP c HB fuelA a0 HL forb solver call HS) as SE. destruct (ad_solve solver call (forbid_all a0 forb)) as [mm|].
    - destruct SE as (y & E & _). rewrite E. split; intros; discriminate.
    - split; intros; discriminate. }
  assert (POS : forall B t i, In i (bh_items t) -> 0 < mass B t).
  { intros B t i Hi. unfold mass. destruct (in_split _ _ Hi) as (l1 & l2 & ->). rewrite map_app, list_sum_app. cbn [map]. rewrite list_sum_cons. unfold weight. destruct (B - psum (bp_pair i)); cbn; lia. }
  induction fuel as [|fuel IH]; intros t forb n k call HI HX EB HM; cbn [bisect_loop].
  - destruct (bh_items t) as [|i0 l] eqn:EI; [apply FIN|]. assert (Hi : In i0 (bh_items t)) by (rewrite EI; left; auto). pose proof (POS (2 * D) t i0 Hi). lia.
  - destruct (bh_items t) as [|i0 l] eqn:EI; [apply FIN|]. destruct (match max_iter with Some m => _ | None => false end) eqn:EM. { cbn. split; [discriminate|]. intros EN. rewrite EN in EM. discriminate. }
    assert (NE : bh_items t <> []) by congruence.
    destruct (divide_inv d N group dtr paths HG HP c HB ratio rR RO hq is_heap HH fuelT T ET good bad t forb HI NE) as (t1 & E1 & HI1). rewrite E1.
    destruct (divide_x ratio rR c HD RO AJ JW None I hq is_heap HH (Some bad) false t HX NE) as (i & l' & t0 & t1' & A1 & A2 & A3 & A4 & A5 & A6 & A7 & A8 & A9 & A10 & A11 & A12 & A13). assert (t1' = t1) by congruence. subst t1'.
    destruct (forbid_inv d N group dtr paths HG HP c HB ratio rR RO is_heap fuelT T ET good bad t1 a0 forb HI1) as (t2 & forb2 & E2 & HI2 & EB2 & EI2).
    assert (HX2 : tree_x t2). { replace t2 with (fst (forbid t1 (forbid_all a0 forb))) by (rewrite E2; auto). apply forbid_x; auto. right. exists forb2. rewrite E2. exact HI2. }
    assert (HM2 : mass (2 * D) t2 <= fuel). { specialize (A13 (2 * D) (HDp t i HX (proj1 (proj2 HI)) A2)). unfold mass in *. rewrite EI2. lia. }
    rewrite E2. destruct (n + 1 <? k)%Z; [apply IH; auto|]. destruct (ad_solve solver call (forbid_all a0 forb2)); [apply IH; auto|]. cbn. split; intros; discriminate.
Qed.
Lemma start_total t : binv t [] -> tree_x t -> forall call, exists F r, fst r <> BError /\ (max_iter = None -> fst r <> BOutOfIter) /\ forall fuel, F <= fuel ->
  (let '(t1, a1) := forbid t a0 in bisect_loop ratio hq fuel solver sched max_iter t1 a1 0 1 call) = r.
Proof.
  intros HI HX call. destruct depth_bound as (D & HDp). change a0 with (forbid_all a0 []).
  destruct (forbid_inv d N group dtr paths HG HP c HB ratio rR RO is_heap fuelT T ET good bad t a0 [] HI) as (t1 & forb & EF & HI1 & EB & EI). rewrite EF.
  assert (HX1 : tree_x t1). { replace t1 with (fst (forbid t (forbid_all a0 []))) by (rewrite EF; auto). apply forbid_x; auto. right. exists forb. rewrite EF. exact HI1. }
  destruct (loop_total D HDp (mass (2 * D) t1) t1 forb 0%Z 1%Z call HI1 HX1 EB (le_n _)) as [R1 R2]. exists (mass (2 * D) t1). eexists. split; [exact R1|]. split; [exact R2|].
  intros fuel Hf. apply bisect_loop_mono; auto.
Qed.
End Run.
Section Copy.
Context (fuelT : nat) (T : list (junction * list curve)) (ET : get_junction_templates fuelT c = Some T).
Notation AJ := (all_juncs c (map fst T)).
Lemma extend_x b l : (forall i, In i l -> item_ok rR c AJ i /\ exact_item ratio None i) -> forall t, tree_x ratio rR c AJ None is_heap b false t -> tree_x ratio rR c AJ None is_heap b false (bh_extend bp_lo bp_up hq t l).
Proof.
  induction l as [|i l IH]; intros Hl t Ht; cbn [bh_extend fold_left]; auto. apply IH; [intros k Hk; apply Hl; right; auto|]. destruct (Hl i (or_introl eq_refl)) as [Hi Xi]. destruct Ht as [Ht HX].
  destruct (push_item rR c AJ hq is_heap HH b false t i Ht Hi) as (A1 & _). destruct (push_ok bp_lo bp_up hq is_heap HH b false t i (proj1 Ht)) as (_ & _ & B3 & B4 & B5). split; auto.
  intros k [Hk|[Hk|Hk]].
  - apply (Permutation_in _ B5) in Hk. apply in_app_or in Hk as [Hk|Hk]; [|apply HX; auto]. destruct (activeb bp_lo bp_up (bh_good_thr t) b i); [|destruct Hk]. destruct Hk as [<-|[]]. auto.
  - rewrite B4 in Hk. apply in_app_or in Hk as [Hk|Hk]; [apply HX; auto|]. destruct (_ && _); [|destruct Hk]. destruct Hk as [<-|[]]. auto.
  - rewrite B3 in Hk. cbn in Hk. apply HX; auto.
Qed.
Lemma regular_js fuel : get_junction_templates fuel c = Some T -> regular_junctions fuel c = Some (map fst T).
Proof.
  intros E. unfold regular_junctions. rewrite E. pose proof (built_kind d N group dtr paths c HG HP HB) as NK. destruct (cv_kind c); auto. exfalso. apply NK. reflexivity.
Qed.
(** the tree given by the caller, or created *)
Lemma tree_ready good bad it fuel : get_junction_templates fuel c = Some T -> match it with None => True | Some t => exists f, create_tree ratio hq f c None None false None = Some t /\ get_junction_templates f c = Some T end ->
  exists t, match it with None => create_tree ratio hq fuel c (Some good) (Some bad) false None | Some t => bh_copy bp_lo bp_up hq t (Some good) (Some bad) end = Some t /\
    binv c rR is_heap T good bad t [] /\ tree_x ratio rR c AJ None is_heap (Some bad) false t.
Proof.
  intros EF Hit. pose proof (js_ok d N group dtr paths HG HP c HB fuelT T ET) as JS. destruct it as [t|].
  - destruct Hit as (f & Ef & ETf). destruct (create_init d N group dtr paths HG HP c HB ratio rR RO hq is_heap HH f T ETf None None) as (t1 & E1 & A1 & A2 & A3 & A4 & A5). assert (t1 = t) by congruence. subst t1.
    destruct (copy_init c rR hq is_heap HH T t (Some good) (Some bad) A1 A2 A5) as (t' & E' & B1 & B2 & B3). exists t'. split; auto. split; [apply init_binv; auto|].
    destruct (create_x ratio rR c (map fst T) None hq is_heap None false None f HD I RO JS HH (regular_js f ETf)) as (t2 & ps & EC & _ & (X1 & _)). assert (t2 = t) by congruence. subst t2.
    unfold bh_copy in E'. rewrite A2, A3, A4 in E'. injection E' as <-. apply extend_x; [|apply new_x with (hq := hq); auto]. intros i Hi. split; [|apply X1; auto]. destruct A1 as (_ & _ & _ & A1 & _). apply A1. auto.
  - destruct (create_init d N group dtr paths HG HP c HB ratio rR RO hq is_heap HH fuel T EF (Some good) (Some bad)) as (t1 & E1 & A1 & A2 & A3 & A4 & A5). exists t1. split; auto. split; [apply init_binv; auto|].
    destruct (create_x ratio rR c (map fst T) None hq is_heap (Some bad) false (Some good) fuel HD I RO JS HH (regular_js fuel EF)) as (t2 & ps & EC & _ & (X1 & _)). assert (t2 = t1) by congruence. subst t2. auto.
Qed.
End Copy.
(** [T] is what get_junction_templates returns whatever the (large) fuel *)
Context (F0 : nat) (T : list (junction * list curve)) (HT : forall fuel, F0 <= fuel -> get_junction_templates fuel c = Some T).
Theorem bisect_total good bad it ia solver sched max_iter call : (bad < good)%Qc -> sat_ok solver ->
  match it with None => True | Some t => exists f, create_tree ratio hq f c None None false None = Some t /\ get_junction_templates f c = Some T end ->
  match ia with None => True | Some a => exists f, ad_load f c = Some a /\ get_junction_templates f c = Some T end ->
  exists F r, fst r <> BError /\ (max_iter = None -> fst r <> BOutOfIter) /\ forall fuel, F <= fuel -> bisect_dilation_fuzzy ratio hq fuel solver sched max_iter c good bad it ia call = r.
Proof.
  intros Hgb HS Hit Hia. pose proof (HT F0 (le_n _)) as ET. destruct (tree_ready F0 T ET good bad it F0 ET Hit) as (t & Et & HI & HX).
  assert (EL : forall f, get_junction_templates f c = Some T -> ad_load f c = ad_load F0 c) by (intros f Ef; unfold ad_load; rewrite Ef, ET; reflexivity).
  assert (exists a, ad_load F0 c = Some a) as (a & Ea). { pose proof (load_total d N group dtr paths HG HP c HB F0 ltac:(rewrite ET; discriminate)). destruct (ad_load F0 c); [eauto|congruence]. }
  destruct (start_total F0 T ET good bad Hgb F0 a Ea solver HS sched max_iter t HI HX call) as (F & r & R1 & R2 & R3). exists (F0 + F), r. split; auto. split; auto. intros fuel Hf. unfold bisect_dilation_fuzzy.
  assert (E1 : match it with None => create_tree ratio hq fuel c (Some good) (Some bad) false None | Some t => bh_copy bp_lo bp_up hq t (Some good) (Some bad) end = Some t).
  { rewrite <- Et. destruct it; auto. unfold create_tree. rewrite (regular_js T fuel (HT fuel ltac:(lia))), (regular_js T F0 ET). reflexivity. }
  assert (E2 : match ia with None => ad_load fuel c | Some a => Some (ad_copy a) end = Some a).
  { rewrite <- Ea. destruct ia as [a'|]; [|apply EL, HT; lia]. destruct Hia as (f & Ef & ETf). rewrite <- (EL f ETf), Ef. destruct a'; reflexivity. }
  rewrite E1, E2. apply R3. lia.
Qed.
End TermBisect.
