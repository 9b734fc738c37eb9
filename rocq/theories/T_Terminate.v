(** Property theorems C47: the estimators return. *)
From Verif Require Import Py L_Qc L_R M_BaseMaps M_Subsets M_Paths M_Curves M_Zoo M_Utils M_Heap M_Sat M_Dilation S_BaseMaps S_Subsets S_Utils S_Paths S_Curves S_Fuzzy S_Heap S_Sat S_Ratio S_Dilation S_Term
  P_Valid P_Paths P_Check P_FuzzyMain P_FuzzyBuilt P_FuzzyExample P_Heap P_SatSolver P_SeqEst P_TermNorms P_TermReg2 P_TermFace P_TermFuzzy P_TermSeq T_Fuzzy T_Dilation T_Bisect T_SeqEst.
From Coq Require Import Reals Lra Lia.
Local Open Scope nat_scope.

(** The four ratio functions of the program meet the hypothesis on the ratio used below. *)
Theorem C47_norms : forall d, ratio_power 1 (norm_ratio norm_linf d) /\ ratio_power 1 (norm_ratio norm_l1 d) /\ ratio_power 1 (norm_ratio norm_l2 d) /\
  ratio_power 2 (fun dv dt => (norm_ratio norm_l2 d dv dt)²)%R.
Proof. exact norms_power. Qed.
Print Assumptions C47_norms.

(** C47: the dilation estimator of a continuous curve returns, with the same result for all large fuels, for every tolerance
    (or every iteration limit) and every maximal depth, whichever heap implementation is used. *)
Theorem C47_regular_returns : forall hq, heapq_ok hq -> forall (ratio : ratio_func) (rR : list R -> R -> R) pw c,
  valid_curve c -> check c = Some true -> ratio_ok (cv_dim c) (ratio (cv_dim c)) rR -> ratio_power pw rR ->
  forall rel_tol_inv max_iter max_depth, match rel_tol_inv with Some r => (0 < r)%Z | None => max_iter <> None end ->
  exists fuel0 result, forall fuel, fuel0 <= fuel -> estimate_dilation_regular ratio hq fuel c rel_tol_inv max_iter None max_depth = Some result.
Proof.
  intros hq HQ ratio rR pw c HC HK RO RP. destruct (heapq_inv hq HQ) as (is_heap & HH). exact (regular_total ratio rR pw c hq is_heap HC HK RO RP HH).
Qed.
Print Assumptions C47_regular_returns.

(** C47: it also returns when the lower bounds come from the face moments of any dimension.  The ratio is then a power of
    ||dx||^d / dt for a monotone norm; all shipped ratios are such. *)
Theorem C47_shipped_norms : forall d, ratio_norm d 1 norm_linf (norm_ratio norm_linf d) /\ ratio_norm d 1 norm_l1 (norm_ratio norm_l1 d) /\ ratio_norm d 1 norm_l2 (norm_ratio norm_l2 d) /\
  ratio_norm d 2 norm_l2 (fun dv dt => (norm_ratio norm_l2 d dv dt)²)%R.
Proof. exact norms_norm. Qed.
Print Assumptions C47_shipped_norms.
Theorem C47_regular_face_moments_returns : forall hq, heapq_ok hq -> forall (ratio : ratio_func) (rR : list R -> R -> R) pw norm c,
  valid_curve c -> check c = Some true -> ratio_ok (cv_dim c) (ratio (cv_dim c)) rR -> ratio_norm (cv_dim c) pw norm rR ->
  forall rel_tol_inv max_iter face_dim max_depth, (forall fd, face_dim = Some fd -> fd <= cv_dim c) -> match rel_tol_inv with Some r => (0 < r)%Z | None => max_iter <> None end ->
  exists fuel0 result, forall fuel, fuel0 <= fuel -> estimate_dilation_regular ratio hq fuel c rel_tol_inv max_iter face_dim max_depth = Some result.
Proof.
  intros hq HQ ratio rR pw norm c HC HK RO RN rti mi fd md Hfd Hr. destruct (heapq_inv hq HQ) as (is_heap & HH). apply (regular_total_face ratio rR pw norm c hq is_heap HC HK RO RN HH); auto. destruct fd as [f|]; auto.
Qed.
Print Assumptions C47_regular_face_moments_returns.
Example C47_face_moments_example : exists lo up am, estimate_dilation_regular ratio_l2_squared sorted_hq 400 (curve_or zoo_hilbert) (Some 50%Z) None (Some 0) None = Some (lo, up, Some am) /\ (Zq 35 < lo)%Qc /\ (up < Zq 37)%Qc.
Proof. do 3 eexists. split; [vm_compute; reflexivity|]. split; vm_compute; reflexivity. Qed.

(** C47: with bad_threshold < good_threshold and no iteration limit, bisect_dilation_fuzzy finds a curve or returns None. *)
Theorem C47_bisect_returns : forall hq, heapq_ok hq -> forall (ratio : ratio_func) (rR : list R -> R -> R) pw d N group no_time_rev paths c,
  valid_group d group -> valid_paths d N paths -> (forall p, In p paths -> joined_path p) -> built group no_time_rev paths c -> ratio_ok d (ratio d) rR -> ratio_power pw rR ->
  forall good bad it ia solver sched call, (bad < good)%Qc -> sat_ok solver -> cached_tree ratio hq c it -> cached_adapter c ia ->
  exists fuel0 result calls, (result = BNone \/ exists x, result = BFound x) /\
    forall fuel, fuel0 <= fuel -> bisect_dilation_fuzzy ratio hq fuel solver sched None c good bad it ia call = (result, calls).
Proof.
  intros hq HQ ratio rR pw d N group dtr paths c HG HP HJ HB RO RP good bad it ia solver sched call Hgb HS Hit Hia.
  destruct (bisect_ends d N group dtr paths HG HP HJ ratio rR RO pw RP hq HQ c HB good bad it ia solver sched None call Hgb HS Hit Hia) as (F & (res & k) & H1 & H2 & H3).
  exists F, res, k. split; auto. specialize (H2 eq_refl). cbn in H1, H2. destruct res; try congruence; eauto.
Qed.
Print Assumptions C47_bisect_returns.

(** C47: estimate_dilation_fuzzy returns for every tolerance, start bounds and iteration limit; without the limit it stops
    only when the tolerance is reached or the lower bound exceeds stop_lower_bound. *)
Theorem C47_fuzzy_returns : forall hq, heapq_ok hq -> forall (ratio : ratio_func) (rR : list R -> R -> R) pw d c,
  joined_input d c -> ratio_ok d (ratio d) rR -> ratio_power pw rR ->
  forall solver sched max_iter rel_tol_inv stop start_lo start_up start_curve call, sat_ok solver -> (0 < rel_tol_inv)%Z -> (forall l, start_lo = Some l -> (0 <= l)%Qc) ->
  exists fuel0 curve lo up calls,
    (max_iter = None -> (qR up * IZR rel_tol_inv <= qR lo * IZR (rel_tol_inv + 1))%R \/ exists s, stop = Some s /\ (s < lo)%Qc) /\
    forall fuel, fuel0 <= fuel -> estimate_dilation_fuzzy ratio hq fuel solver sched max_iter c rel_tol_inv stop start_lo start_up start_curve call = Some (curve, lo, up, calls).
Proof.
  intros hq HQ ratio rR pw d c (N & group & dtr & paths & HG & HP & HJ & HB) RO RP solver sched mi rti stop slo sup scur call HS Hr Hl.
  destruct (fuzzy_ends d N group dtr paths HG HP HJ ratio rR RO pw RP hq HQ c HB solver sched mi rti stop slo sup scur call HS Hr Hl) as (F & (((cu & lo) & up) & k) & (_ & H2) & H3).
  exists F, cu, lo, up, k. auto.
Qed.
Print Assumptions C47_fuzzy_returns.

(** C47: estimate_dilation_sequence returns for all lists of fuzzy curves, without an iteration limit and with
    rel_tol_inv_mult at least 2 (the default is 4). *)
Theorem C47_sequence_returns : forall hq, heapq_ok hq -> forall hs, heapq_ok hs -> forall (ratio : ratio_func) (rR : list R -> R -> R) pw d curves,
  Forall (joined_input d) curves -> ratio_ok d (ratio d) rR -> ratio_power pw rR ->
  forall solver sched rel_tol_inv mult upper_bound, sat_ok solver -> (0 < rel_tol_inv)%Z -> (2 <= mult)%Z ->
  exists fuel0 result, forall fuel, fuel0 <= fuel -> estimate_dilation_sequence ratio hq hs fuel solver sched None curves rel_tol_inv mult upper_bound = Some result.
Proof. exact seq_ends. Qed.
Print Assumptions C47_sequence_returns.

Definition joinedb (p : path (list Qc)) : bool := match pa_is_continuous point_ops p with Some b => b | None => false end.
Lemma joinedb_ok d N paths : valid_paths d N paths -> forallb joinedb paths = true -> forall p, In p paths -> joined_path p.
Proof.
  intros HP HF p Hp. assert (HV : valid_ppath d p) by (destruct HP as (_ & _ & _ & HV); rewrite Forall_forall in HV; apply HV; auto). destruct (is_continuous_exact d p HV) as (r & Er & Hr). rewrite forallb_forall in HF. specialize (HF p Hp). unfold joinedb in HF. rewrite Er in HF. apply Hr; auto.
Qed.

Lemma hilbert_joined : joined_input 2 hilbert_fuzzy.
Proof.
  destruct C25_example as (A & B & C & _). exists 2, None, false, hilbert_paths. split; [exact A|]. split; [exact B|]. split; [|apply built_init; exact C].
  apply (joinedb_ok 2 2 hilbert_paths B). vm_compute. reflexivity.
Qed.
(** Hilbert's curve and the fuzzy curve of its path meet the hypotheses; the results for one fuel. *)
Definition seq_run (max_iter : option Z) (fuel : nat) (r m : Z) :=
  estimate_dilation_sequence ratio_linf sorted_hq sorted_hq fuel simple_solver (fun z => (z + z / 3 + 1)%Z) max_iter [hilbert_fuzzy] r m None.
Example C47_example : heapq_ok (@sorted_hq bpair) /\ valid_curve (curve_or zoo_hilbert) /\ check (curve_or zoo_hilbert) = Some true /\
  joined_input 2 hilbert_fuzzy /\ ratio_ok 2 (ratio_linf 2) (norm_ratio norm_linf 2) /\ ratio_power 1 (norm_ratio norm_linf 2) /\ sat_ok simple_solver /\
  (exists r, estimate_dilation_regular ratio_linf sorted_hq 400 (curve_or zoo_hilbert) (Some 4%Z) None None None = Some r) /\
  (exists lo up exs, seq_run None 400 4 2 = Some (Some (lo, up, exs, [0])) /\ (Zq 5 < lo)%Qc /\ (up < Zq 7)%Qc).
Proof.
  split; [exact sorted_hq_ok|]. split; [apply valid_curveb_ok; vm_compute; reflexivity|]. split; [vm_compute; reflexivity|]. split; [exact hilbert_joined|]. split; [apply (C35_norms 2); auto|].
  split; [apply norms_power|]. split; [exact simple_solver_ok|]. split; [eexists; vm_compute; reflexivity|]. do 3 eexists. split; [vm_compute; reflexivity|]. split; vm_compute; reflexivity.
Qed.

(** An epoch of estimate_dilation_sequence on one curve that changes nothing is repeated for ever. *)
Lemma stuck (ratio : ratio_func) hq solver sched mi tol mult c i ex lo up call (P : Z -> Prop) :
  qltb (lo * tol)%Qc up = true -> qleb lo up = true -> (forall rt, P rt -> P (rt * mult)%Z) ->
  (forall rt fuel, P rt -> let r := estimate_dilation_fuzzy ratio hq fuel solver sched mi c rt (Some up) (Some lo) (Some up) ex call in r = None \/ r = Some (ex, lo, up, call)) ->
  forall fuel rt, P rt -> seq_loop ratio hq sorted_hq fuel solver sched mi tol mult [CI i (Some lo) (Some up) c ex] lo (Some up) rt call = None.
Proof.
  intros H1 H2 HP HF. induction fuel as [|fuel IH]; intros rt Hrt; cbn [seq_loop]; rewrite H1; auto.
  cbn [fold_left obind]. unfold seq_step. cbn [ci_curve ci_lo ci_up ci_example ci_idx]. destruct (HF (rt * mult)%Z (S fuel) (HP _ Hrt)) as [->| ->]; auto.
  assert (E : (if qltb up up then up else up) = up) by (destruct (qltb up up); auto). rewrite E, H2. cbn [hq_push sorted_hq ins_node length seq_cleanup hd_error nd_item ci_lo].
  assert (E2 : qltb up lo = false) by (apply qltb_false, qleb_ok; exact H2).
  rewrite E2. cbn [option_map map nd_item]. change (sorted oq_cmp [CI i (Some lo) (Some up) c ex]) with [CI i (Some lo) (Some up) c ex]. cbn [min_lo omap ci_lo fold_left]. apply IH. apply HP. exact Hrt.
Qed.
Lemma mono_cases {A} (f : nat -> option A) : (forall fuel fuel' r, fuel <= fuel' -> f fuel = Some r -> f fuel' = Some r) ->
  forall n v, f n = Some v -> forall fuel, f fuel = None \/ f fuel = Some v.
Proof. intros HM n v Hv fuel. destruct (f fuel) as [w|] eqn:E; auto. right. destruct (le_ge_dec fuel n) as [L|L]; [apply (HM _ _ _ L) in E|apply (HM _ _ _ L) in Hv]; congruence. Qed.

(** The first epoch on one curve. *)
Lemma first_epoch (ratio : ratio_func) hq solver sched mi tol mult c ex lo up call n :
  qltb (lo * tol)%Qc up = true -> qleb lo up = true ->
  estimate_dilation_fuzzy ratio hq n solver sched mi c (1 * mult) None None None None 0 = Some (ex, lo, up, call) ->
  (forall fuel, seq_loop ratio hq sorted_hq fuel solver sched mi tol mult [CI 0 (Some lo) (Some up) c ex] lo (Some up) (1 * mult) call = None) ->
  forall fuel, seq_loop ratio hq sorted_hq fuel solver sched mi tol mult [CI 0 None None c None] 0%Qc None 1 0 = None.
Proof.
  intros H1 H2 HF HL [|fuel]; cbn [seq_loop]; auto. cbn [fold_left obind]. unfold seq_step. cbn [ci_curve ci_lo ci_up ci_example ci_idx].
  pose proof (mono_cases (fun fuel => estimate_dilation_fuzzy ratio hq fuel solver sched mi c (1 * mult) None None None None 0)
    (fun f f' r L => fuzzy_mono ratio hq c f f' solver sched mi (1 * mult)%Z None None None None 0 r L) n _ HF (S fuel)) as HC. cbv beta in HC. destruct HC as [->| ->]; auto.
  rewrite H2. cbn [hq_push sorted_hq ins_node length seq_cleanup hd_error nd_item ci_lo].
  assert (E2 : qltb up lo = false) by (apply qltb_false, qleb_ok; exact H2).
  rewrite E2. cbn [option_map map nd_item]. change (sorted oq_cmp [CI 0 (Some lo) (Some up) c ex]) with [CI 0 (Some lo) (Some up) c ex]. cbn [min_lo omap ci_lo fold_left]. apply HL.
Qed.

(** Refuted: with rel_tol_inv_mult = 1 the tolerance of the epochs is never refined and the loop does not end: there is no
    fuel for which the model returns, although with the multiplier 2 it does. *)
Theorem C47_sequence_mult_one_refuted : (forall fuel, seq_run None fuel 4 1 = None) /\ (exists r, seq_run None 400 4 2 = Some r).
Proof.
  split; [|eexists; vm_compute; reflexivity]. unfold seq_run, estimate_dilation_sequence. assert (exists tol, tolerance_of 4 = Some tol /\ this tol = (5 # 4)%Q) as (tol & Et & Qt) by (eexists; split; [vm_compute; reflexivity|reflexivity]). rewrite Et.
  cbn [enumerate combine range seq map length fst snd].
  assert (exists ex lo up k, estimate_dilation_fuzzy ratio_linf sorted_hq 400 simple_solver (fun z => (z + z / 3 + 1)%Z) None hilbert_fuzzy (1 * 1) None None None None 0 = Some (ex, lo, up, k) /\ this lo = 4%Q /\ this up = 8%Q) as (ex & lo & up & k & EF & El & Eu) by (do 4 eexists; split; [vm_compute; reflexivity|split; reflexivity]).
  assert (lo = Zq 4) by (apply Qc_is_canon; rewrite El; reflexivity). assert (up = Zq 8) by (apply Qc_is_canon; rewrite Eu; reflexivity). assert (tol = (Zq 5 / Zq 4)%Qc) by (apply Qc_is_canon; rewrite Qt; vm_compute; reflexivity). subst lo up tol. clear El Eu Qt Et.
  intro fuel. apply (first_epoch ratio_linf sorted_hq simple_solver _ None (Zq 5 / Zq 4)%Qc 1 hilbert_fuzzy ex (Zq 4) (Zq 8) k 400 ltac:(vm_compute; reflexivity) ltac:(vm_compute; reflexivity) EF).
  intro fuel'. apply (stuck ratio_linf sorted_hq simple_solver _ None (Zq 5 / Zq 4)%Qc 1 hilbert_fuzzy 0 ex (Zq 4) (Zq 8) k (fun rt => rt = 1%Z)); auto.
  - intros rt ->. reflexivity.
  - intros rt f ->. unfold estimate_dilation_fuzzy. destruct (create_tree _ _ _ _ _ _ _ _); auto. destruct (ad_load f hilbert_fuzzy); auto.
    destruct (tolerance_of 1) as [tl|] eqn:T1; auto. right. assert (X : qltb (Zq 4 * tl)%Qc (Zq 8) = false). { assert (tl = Zq 2) as ->; [|vm_compute; reflexivity]. apply Qc_is_canon. revert T1. vm_compute. intro Y. injection Y as <-. reflexivity. }
    destruct f; cbn [fuzzy_loop]; rewrite X; reflexivity.
Qed.
Print Assumptions C47_sequence_mult_one_refuted.

(** Refuted: with an iteration limit (forwarded to bisect_dilation_fuzzy) the bounds of a curve may stay as they are in every
    epoch: the loop does not end although each of its parts is limited.  rel_tol_inv_mult has its default value. *)
Theorem C47_sequence_max_iter_refuted : (forall fuel, seq_run (Some 0%Z) fuel 4 4 = None) /\ (exists r, seq_run None 400 4 4 = Some r).
Proof.
  split; [|eexists; vm_compute; reflexivity]. unfold seq_run, estimate_dilation_sequence. assert (exists tol, tolerance_of 4 = Some tol) as (tol & Et) by (eexists; vm_compute; reflexivity). rewrite Et.
  cbn [enumerate combine range seq map length fst snd].
  assert (exists ex lo up, estimate_dilation_fuzzy ratio_linf sorted_hq 400 simple_solver (fun z => (z + z / 3 + 1)%Z) (Some 0%Z) hilbert_fuzzy (1 * 4) None None None None 0 = Some (ex, lo, up, 0) /\ this lo = 0%Q /\ this up = (32 # 5)%Q) as (ex & lo & up & EF & El & Eu) by (do 3 eexists; split; [vm_compute; reflexivity|split; reflexivity]).
  assert (lo = 0%Qc) by (apply Qc_is_canon; rewrite El; reflexivity). assert (up = (Zq 32 / Zq 5)%Qc) as EU by (apply Qc_is_canon; rewrite Eu; vm_compute; reflexivity). subst lo. clear El Eu.
  assert (Z0 : forall x, qltb (0 * x)%Qc up = true) by (intro x; replace (0 * x)%Qc with 0%Qc by ring; rewrite EU; vm_compute; reflexivity). assert (L0 : qleb 0%Qc up = true) by (rewrite EU; vm_compute; reflexivity).
  intro fuel. apply (first_epoch ratio_linf sorted_hq simple_solver _ (Some 0%Z) tol 4 hilbert_fuzzy ex 0%Qc up 0 400 (Z0 _) L0 EF).
  intro fuel'. apply (stuck ratio_linf sorted_hq simple_solver _ (Some 0%Z) tol 4 hilbert_fuzzy 0 ex 0%Qc up 0 (fun rt => True)); auto.
  intros rt f _. unfold estimate_dilation_fuzzy. destruct (create_tree ratio_linf sorted_hq f hilbert_fuzzy None None false None) as [t|] eqn:ET; auto. destruct (ad_load f hilbert_fuzzy) as [a|] eqn:EA; auto. destruct (tolerance_of rt) as [tl|]; auto.
  assert (exists t0, create_tree ratio_linf sorted_hq 400 hilbert_fuzzy None None false None = Some t0) as (t0 & ET0) by (eexists; vm_compute; reflexivity).
  assert (exists a0, ad_load 400 hilbert_fuzzy = Some a0) as (a0 & EA0) by (eexists; vm_compute; reflexivity).
  pose proof (mono_cases (fun fuel => create_tree ratio_linf sorted_hq fuel hilbert_fuzzy None None false None) (fun f f' r L => create_mono ratio_linf sorted_hq hilbert_fuzzy f f' None None false None r L) 400 t0 ET0 f) as CT. cbv beta in CT.
  assert (t = t0) by (destruct CT; congruence). subst t.
  pose proof (mono_cases (fun fuel => ad_load fuel hilbert_fuzzy) (fun f f' r L => load_mono hilbert_fuzzy f f' r L) 400 a0 EA0 f) as CA. cbv beta in CA. assert (a = a0) by (destruct CA; congruence). subst a.
  destruct f as [|f]; cbn [fuzzy_loop]; rewrite Z0; auto. change (Qc_eq_bool 0%Qc 0%Qc) with true. cbv iota zeta.
  set (b := fun n => bisect_dilation_fuzzy ratio_linf sorted_hq n simple_solver (fun z => (z + z / 3 + 1)%Z) (Some 0%Z) hilbert_fuzzy (Zq 2 / Zq 3 * up)%Qc (Zq 1 / Zq 2 * up)%Qc (Some t0) (Some a0) 0).
  assert (B : b 400 = (BOutOfIter, 0)).
  { revert ET0 EA0. unfold b. rewrite EU. intros ET0 EA0. enough (match create_tree ratio_linf sorted_hq 400 hilbert_fuzzy None None false None, ad_load 400 hilbert_fuzzy with Some t, Some a =>
      bisect_dilation_fuzzy ratio_linf sorted_hq 400 simple_solver (fun z => (z + z / 3 + 1)%Z) (Some 0%Z) hilbert_fuzzy (Zq 2 / Zq 3 * (Zq 32 / Zq 5))%Qc (Zq 1 / Zq 2 * (Zq 32 / Zq 5))%Qc (Some t) (Some a) 0 = (BOutOfIter, 0) | _, _ => False end) as X by (rewrite ET0, EA0 in X; exact X).
    vm_compute. reflexivity. }
  change (bisect_dilation_fuzzy ratio_linf sorted_hq (S f) simple_solver (fun z => (z + z / 3 + 1)%Z) (Some 0%Z) hilbert_fuzzy (Zq 2 / Zq 3 * up)%Qc (Zq 1 / Zq 2 * up)%Qc (Some t0) (Some a0) 0) with (b (S f)).
  assert (C : fst (b (S f)) = BError \/ b (S f) = (BOutOfIter, 0)).
  { destruct (b (S f)) as [r k] eqn:EB. destruct (le_ge_dec (S f) 400) as [L|L].
    - assert (D : r = BError \/ r <> BError) by (destruct r; auto; right; discriminate). destruct D as [->|D]; auto. right. rewrite <- EB, <- B. symmetry. apply bisect_mono; auto. fold b. change (fst (b (S f)) <> BError). rewrite EB. exact D.
    - right. rewrite <- EB, <- B. apply bisect_mono; auto. change (fst (b 400) <> BError). rewrite B. discriminate. }
  destruct C as [C|C]; [|rewrite C; auto]. destruct (b (S f)) as [r k]. cbn in C. subst r. auto.
Qed.
Print Assumptions C47_sequence_max_iter_refuted.
