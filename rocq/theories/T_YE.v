(** C50: the case analysis of YE-proof.py; C51: the dilation of a curve does not depend on its position. *)
From Verif Require Import Py L_Py L_Qc L_R L_BaseMaps M_BaseMaps M_Subsets M_Paths M_Curves M_PathTree M_PathGen M_Gates M_Utils M_Heap M_Sat M_Dilation M_Search M_Zoo
  S_BaseMaps S_Subsets S_Paths S_Utils S_Curves S_Fuzzy S_PathGen S_PathTree S_Gates S_Heap S_Sat S_Ratio S_Dilation S_Search
  P_Valid P_Heap P_SatSolver P_PathTuples P_GateLoop T_PathGen T_Gates T_SeqEst S_Term P_TermNorms P_TermSeq P_SeqEst T_Dilation M_Heapq P_Heapq P_Search P_SearchMono T_Search M_YE S_YE S_YECurves P_CurvePaths P_YE P_YEMain P_YECount.
From Coq Require Import Reals Permutation Classical.
Local Open Scope nat_scope.

(** C51  The image of a curve under a base map has the same dilation, for every base map (with time reversal or without). *)
Theorem C51_dilation : forall (ratio : ratio_func) (rR : list R -> R -> R) b c, valid_curve c -> wf_bm (cv_dim c) b -> ratio_ok (cv_dim c) (ratio (cv_dim c)) rR ->
  forall M, (dilation_ge rR (cv_mul_bm b c) M <-> dilation_ge rR c M) /\ (dilation_le rR (cv_mul_bm b c) M <-> dilation_le rR c M).
Proof.
  intros ratio rR b c V W RO M. assert (P : cv_pnum c < cv_mult c) by (destruct V as (_ & _ & P & _); exact P). split; [apply (image_ge (ratio (cv_dim c)) rR b (cv_pnum c) c M)|apply (image_le (ratio (cv_dim c)) rR b (cv_pnum c) c M)]; auto.
Qed.
Print Assumptions C51_dilation.
(** C51  The paths of the image are the images of the paths. *)
Theorem C51_paths : forall b c ps, valid_curve c -> wf_bm (cv_dim c) b -> get_paths c = Some ps -> get_paths (cv_mul_bm b c) = omap (pa_mul point_ops b) ps.
Proof. intros b c ps V W E. apply image_paths; auto. destruct V as (_ & _ & P & _). exact P. Qed.
Print Assumptions C51_paths.
Example C51_example : let c := curve_or zoo_hilbert in let b := BM [(0, true); (1, true)] true in
  valid_curve c /\ wf_bm (cv_dim c) b /\ ratio_ok (cv_dim c) (ratio_l2 (cv_dim c)) (norm_ratio norm_l2 2) /\ cv_mul_bm b c <> c /\ (exists ps, get_paths c = Some ps /\ length ps = 1).
Proof.
  cbv zeta. split; [apply valid_curveb_ok; vm_compute; reflexivity|]. split; [apply wf_bmb_ok; vm_compute; reflexivity|]. split; [apply (C35_norms 2); auto|]. split; [|eexists; split; [vm_compute; reflexivity|reflexivity]].
  intros E. apply (f_equal (fun c => match cv_pats c with p :: _ => nth_error (pr_cubes (pat_proto p)) 1 | [] => None end)) in E. vm_compute in E. discriminate.
Qed.

(** C50  The two checks around one curve Y (the YE curve in the script), for arbitrary dim, div, max_cdist, ratio function and for
    every set iteration order, solver, heap and tolerance: if both checks report a result, then every curve of the class with the
    given gates is Y up to a base map, or has a dilation of at least one of the lower bounds printed. *)
Theorem C50_cases : forall (d N : nat) (max_cdist : option Z) (gates : plink) (Y : curve), 1 <= d -> 2 <= N -> unit_links d [gates] ->
  search_curve d N 1 max_cdist Y -> has_gates d Y [gates] ->
  forall (ratio : ratio_func) (rR : list R -> R -> R) hq hs solver sched, ratio_ok d (ratio d) rR -> heapq_ok hq -> heapq_ok hs -> sat_ok solver ->
  forall hash fuel start_max finish_max efuel rel_tol1 rel_tol2 result1 result2, hash_ok hash ->
  let par := M_Gates.SP hash fuel start_max finish_max in
  check_non_ye d N max_cdist par gates Y ratio hq hs efuel solver sched rel_tol1 = Some result1 ->
  check_ye_proto d N max_cdist par gates Y ratio hq hs efuel solver sched rel_tol2 = Some result2 ->
  forall c, search_curve d N 1 max_cdist c -> has_gates d c [gates] ->
  (~ proto_image_of Y c -> reported_bound rR result1 c) /\ (proto_image_of Y c -> image_of Y c \/ reported_bound rR result2 c).
Proof.
  intros d N mc l Y Hd HN HU HY GY ratio rR hq hs solver sched RO Hhq Hhs Hsat hash fuel sm fm efuel r1 r2 res1 res2 HH par E1 E2 c HC HG. split; intros HP.
  - apply (non_ye_spec d N Hd HN mc l HU Y HY ratio rR RO hq Hhq hs Hhs solver Hsat sched hash sm fm HH fuel efuel r1 res1 E1 c HC HG HP).
  - apply (ye_proto_spec d N Hd HN mc l HU Y HY GY ratio rR RO hq Hhq hs Hhs solver Hsat sched hash sm fm HH fuel efuel r2 res2 E2 c HC HG HP).
Qed.
Print Assumptions C50_cases.

Notation l2R := (norm_ratio norm_l2 2).
(** C50  The YE curve of the zoo meets the hypotheses, and both checks return a result: the assertion that exactly one tuple of paths
    has the prototype of the YE curve holds for every set iteration order, and the lists of curves are not empty. *)
Theorem C50_checks_return : exists Y, zoo_ye = Some Y /\ search_curve 2 5 1 (Some 1%Z) Y /\ has_gates 2 Y [side_gates] /\ side_link = Some side_gates /\ unit_links 2 [side_gates] /\
  forall hq hs solver sched hash start_max finish_max rel_tol1 rel_tol2, heapq_ok hq -> heapq_ok hs -> sat_ok solver -> hash_ok hash -> (0 < rel_tol1)%Z -> (0 < rel_tol2)%Z ->
  exists fuel0 r1 r2, forall fuel, fuel0 <= fuel -> let par := M_Gates.SP hash fuel start_max finish_max in
    check_non_ye 2 5 (Some 1%Z) par side_gates Y ratio_l2 hq hs fuel solver sched rel_tol1 = Some (Some r1) /\
    check_ye_proto 2 5 (Some 1%Z) par side_gates Y ratio_l2 hq hs fuel solver sched rel_tol2 = Some (Some r2).
Proof.
  exists ye. split; [exact ye_zoo|]. split; [exact ye_class|]. split; [exact ye_side|]. split; [exact side_is|]. split; [apply unit3|].
  intros hq hs solver sched hash sm fm rel1 rel2 Hhq Hhs Hsat HH H1 H2. assert (HU : unit_links 2 [side_gates]) by apply unit3. assert (RP : ratio_power 1 l2R) by apply norms_power.
  destruct (non_ye_returns 2 5 ltac:(lia) ltac:(lia) (Some 1%Z) side_gates HU ye ye_class ratio_l2 l2R l2R_ok hq Hhq hs Hhs solver Hsat sched hash sm fm 1 rel1 HH RP H1) as (F1 & res1 & A1).
  destruct count_one as (protos & fuel0 & sres0 & EP & E0 & EL & EO). assert (H0 : @hash_ok (link (list Qc)) (fun _ => 0%Z)) by (intros ? ? ? ?; reflexivity).
  destruct (count_any 2 5 ltac:(lia) ltac:(lia) (Some 1%Z) side_gates HU ye ye_class ye_side protos _ 5 (Some 3) fuel0 sres0 hash sm fm EP H0 E0 EL HH) as (F & sres & A & C).
  destruct (ye_proto_returns 2 5 ltac:(lia) ltac:(lia) (Some 1%Z) side_gates ye ye_class ratio_l2 l2R l2R_ok hq Hhq hs Hhs solver Hsat sched hash sm fm 1 rel2 HH RP H2) as (F2 & res2 & A2); [exists F, sres, protos; auto|].
  assert (R1 : exists r, res1 = Some r).
  { specialize (A1 F1 ltac:(lia)). apply (non_ye_some 2 5 ltac:(lia) ltac:(lia) (Some 1%Z) side_gates HU ye ye_class ratio_l2 l2R l2R_ok hq Hhq hs Hhs solver Hsat sched hash sm fm F1 F1 rel1 res1 HH); auto. intros protos' sres' EP' E'. rewrite EP in EP'. injection EP' as <-.
    apply (other_any 2 5 ltac:(lia) ltac:(lia) (Some 1%Z) side_gates HU ye ye_class protos _ 5 (Some 3) fuel0 sres0 hash sm fm F1 sres' EP H0 E0 EO HH E'). }
  assert (R2 : exists r, res2 = Some r).
  { specialize (A2 F2 ltac:(lia)). apply (ye_proto_some 2 5 ltac:(lia) ltac:(lia) (Some 1%Z) side_gates ye ye_class ratio_l2 l2R l2R_ok hq Hhq hs Hhs solver Hsat sched hash sm fm F2 F2 rel2 res2); auto.
    assert (HN : match changed_pcurves ye with Some (_ :: _) => true | _ => false end = true) by (vm_compute; reflexivity). intros X. rewrite X in HN. discriminate HN. }
  destruct R1 as (r1 & ->), R2 as (r2 & ->). exists (Nat.max F1 F2), r1, r2. intros fuel Hf par. split; [apply A1; lia|apply A2; lia].
Qed.
Print Assumptions C50_checks_return.

(** C50  The dilation of the YE curve (squared Euclidean distance over time): between 408/73 and 13281250/2376291 = 5.589067...,
    the bounds that check_ye prints, with CPython's heapq, from some fuel on. *)
Theorem C50_ye_dilation : exists Y fuel0 am, zoo_ye = Some Y /\
  (forall fuel, fuel0 <= fuel -> check_ye Y ratio_l2 cpython_heapq fuel 5 100000 = Some ((Zq 408 / Zq 73)%Qc, (Zq 13281250 / Zq 2376291)%Qc, Some am)) /\
  argmax_attains l2R Y (Zq 408 / Zq 73)%Qc am /\
  dilation_ge l2R Y (408 / 73)%R /\ dilation_le l2R Y (13281250 / 2376291)%R.
Proof.
  destruct ye_bounds as (fuel & am & E). exists ye, fuel, am. split; [exact ye_zoo|]. split; [intros fuel' Hf; unfold check_ye in *; eapply regular_mono; eauto|].
  pose proof ye_class as [V D1 _ _ _ _]. unfold check_ye in E. destruct (C37_regular_encloses cpython_heapq cpython_heapq_ok ratio_l2 l2R ye fuel (Some 100000%Z) None (Some 0) (Some 5%Z) _ _ _ V ltac:(rewrite D1; exact l2R_ok) (Nat.le_0_l _) E) as (U & L & _ & AM).
  destruct (AM am eq_refl) as [_ AM']. split; [exact AM'|]. assert (Q : forall a b, (0 < b)%Z -> qR (Zq a / Zq b)%Qc = (IZR a / IZR b)%R).
  { intros a b Hb. assert (Zq b <> 0%Qc) by (rewrite <- Zq_0; intros X; apply Zq_inj in X; lia). unfold Qcdiv. rewrite qR_mul, qR_inv by auto. rewrite !qR_Zq. reflexivity. }
  rewrite (Q 408%Z 73%Z) in L by lia. rewrite (Q 13281250%Z 2376291%Z) in U by lia. auto.
Qed.
Print Assumptions C50_ye_dilation.

Lemma obind_inv {A B} (o : option A) (f : A -> option B) r : obind o f = Some r -> exists x, o = Some x /\ f x = Some r.
Proof. destruct o; [|discriminate]. cbn. eauto. Qed.
Lemma map_inv {A B} (o : option A) (f : A -> B) r : option_map f o = Some r -> exists x, o = Some x /\ r = f x.
Proof. destruct o as [x|]; [|discriminate]. cbn. intros E. exists x. split; congruence. Qed.
Lemma result_inv o lo : result_lo o = Some lo -> exists r, o = Some (Some r) /\ fst (fst (fst r)) = lo.
Proof. destruct o as [[[[[l ?] ?] ?]|]|]; try discriminate. cbn. intros E. injection E as ->. eexists. split; reflexivity. Qed.

(** the definition of ye_main, with the sides in the order in which the kernel unfolds ye_main first *)
Lemma main_unfold par fpar gpar hq hs fuel solver sched Y : ye_main par fpar gpar hq hs fuel solver sched Y =
  ltac:(let t := eval cbv beta delta [ye_main] in (ye_main par fpar gpar hq hs fuel solver sched Y) in exact t).
Proof. symmetry. unfold ye_main. reflexivity. Qed.
Lemma main_spec : forall Y hq hs solver sched hash ghash fhash fuel sm fm gsm gfm fsm ffm efuel los lo up am, search_curve 2 5 1 (Some 1%Z) Y -> has_gates 2 Y [side_gates] ->
  heapq_ok hq -> heapq_ok hs -> sat_ok solver -> hash_ok hash -> hash_ok ghash -> hash_ok fhash ->
  ye_main (M_Gates.SP hash fuel sm fm) (M_Gates.SP fhash fuel fsm ffm) (M_Gates.SP ghash fuel gsm gfm) hq hs efuel solver sched Y = Some (los, (lo, up, am)) ->
  (forall m, Forall (fun lo => m <= lo)%Qc los -> forall c, ye_cases c -> image_of Y c \/ dilation_ge l2R c (qR m)) /\
  (forall c, image_of Y c -> dilation_ge l2R c (qR lo) /\ dilation_le l2R c (qR up)).
Proof.
  intros Y hq hs solver sched hash ghash fhash fuel sm fm gsm gfm fsm ffm efuel los lo up am HY GY Hhq Hhs Hsat HH GH FH E.
  rewrite main_unfold in E. apply obind_inv in E. destruct E as (side & Es & E). apply obind_inv in E. destruct E as (diag & Ed & E). apply obind_inv in E. destruct E as (median & Em & E).
  assert (side = side_gates) by (rewrite side_is in Es; congruence). assert (diag = diag_gates) by (rewrite diag_is in Ed; congruence). assert (median = median_gates) by (rewrite median_is in Em; congruence). subst side diag median. clear Es Ed Em.
  apply obind_inv in E. destruct E as (lo2 & E2 & E). apply obind_inv in E. destruct E as (lo3 & E3 & E). apply obind_inv in E. destruct E as (lo4 & E4 & E).
  apply obind_inv in E. destruct E as (lo6s & E6s & E). apply obind_inv in E. destruct E as (lo6m & E6m & E). apply obind_inv in E. destruct E as (lo5d & E5d & E). apply obind_inv in E. destruct E as (lo5m & E5m & E).
  apply obind_inv in E. destruct E as (lo5n & E5n & E). apply obind_inv in E. destruct E as (lo5y & E5y & E). apply result_inv in E5n. destruct E5n as (r5n & E5n & L5n). apply result_inv in E5y. destruct E5y as (r5y & E5y & L5y).
  apply map_inv in E. destruct E as (r & EY & E).
  assert (EL : los = [lo2; lo3; lo4; lo6s; lo6m; lo5d; lo5m; lo5n; lo5y]) by congruence. assert (ER : r = (lo, up, am)) by congruence. clear E. subst los r.
  destruct r5n as [[[lo5n' ?] ?] ?], r5y as [[[lo5y' ?] ?] ?]. cbn [fst] in L5n, L5y. subst lo5n' lo5y'. destruct unit3 as (U1 & U2 & U3). pose proof HY as [V D1 _ _ _ _]. split.
  - intros m HM c HC. rewrite Forall_forall in HM. assert (HW : forall l, In l [lo2; lo3; lo4; lo6s; lo6m; lo5d; lo5m; lo5n; lo5y] -> dilation_ge l2R c (qR l) -> dilation_ge l2R c (qR m)).
    { intros lw Hl (p & s & t & u & w & P1 & P2 & P3 & P4 & P5). exists p, s, t, u, w. split; [exact P1|]. split; [exact P2|]. split; [exact P3|]. split; [exact P4|]. apply Rle_trans with (qR lw); [apply qR_le, HM, Hl|exact P5]. }
    pose proof (fun N gl mc rel lo => printed_spec hq Hhq hs Hhs solver Hsat sched hash HH sm fm ghash GH gsm gfm fhash FH fsm ffm fuel efuel N gl mc rel lo) as PS.
    destruct HC as [(N & HN & HC & HG)|[(HC & HG)|(HC & HG)]].
    + right. assert (HS : searched 2 N 1 None None false None c) by (split; auto). assert (GN : good_gates None) by (intros ? X; discriminate X).
      destruct HN as [HN|[HN|HN]]; subst N; [apply (HW lo2); [cbn; auto 12|]; apply (PS 2 None None 1000%Z lo2)|apply (HW lo3); [cbn; auto 12|]; apply (PS 3 None None 1000%Z lo3)|apply (HW lo4); [cbn; auto 12|]; apply (PS 4 None None 1000%Z lo4)]; try assumption; lia.
    + right. destruct HG as [HG|HG]; [apply (HW lo6s); [cbn; auto 12|]; apply (PS 6 (Some [[side_gates]]) (Some 1%Z) 200%Z lo6s)|apply (HW lo6m); [cbn; auto 12|]; apply (PS 6 (Some [[median_gates]]) (Some 1%Z) 200%Z lo6m)];
        first [assumption | lia | apply good_one; assumption | (split; [exact HC|eexists; split; [left; reflexivity|exact HG]])].
    + destruct HG as [HG|[HG|HG]].
      * destruct (C50_cases 2 5 (Some 1%Z) side_gates Y ltac:(lia) ltac:(lia) U1 HY GY ratio_l2 l2R hq hs solver sched l2R_ok Hhq Hhs Hsat hash fuel sm fm efuel 200%Z 1000%Z _ _ HH E5n E5y c HC HG) as [Q1 Q2].
        destruct (classic (proto_image_of Y c)) as [HP|HP]; [destruct (Q2 HP) as [Q|Q]; [left; exact Q|right; apply (HW lo5y); [cbn; auto 12|exact Q]]|right; apply (HW lo5n); [cbn; auto 12|exact (Q1 HP)]].
      * right. apply (HW lo5m); [cbn; auto 12|]. apply (PS 5 (Some [[median_gates]]) (Some 1%Z) 200%Z lo5m); first [assumption | lia | apply good_one; assumption | (split; [exact HC|eexists; split; [left; reflexivity|exact HG]])].
      * right. apply (HW lo5d); [cbn; auto 12|]. apply (PS 5 (Some [[diag_gates]]) (Some 1%Z) 200%Z lo5d); first [assumption | lia | apply good_one; assumption | (split; [exact HC|eexists; split; [left; reflexivity|exact HG]])].
  - intros c (b & W & ->). assert (RO : ratio_ok (cv_dim Y) (ratio_l2 (cv_dim Y)) l2R) by (rewrite D1; exact l2R_ok). unfold check_ye in EY.
    destruct (C37_regular_encloses hq Hhq ratio_l2 l2R Y efuel (Some 100000%Z) None (Some 0) (Some 5%Z) _ _ _ V RO (Nat.le_0_l _) EY) as (U & L & _).
    split; [apply (C51_dilation ratio_l2 l2R b Y V W RO); auto|apply (C51_dilation ratio_l2 l2R b Y V W RO); auto].
Qed.
(** C50  The main program: if it prints all its results, then with m the smallest of the nine lower bounds printed, every curve of
    the case analysis is the YE curve up to a base map or has a dilation of at least m; and the images of the YE curve have
    a dilation between the bounds printed last. *)
Theorem C50_main : forall Y hq hs solver sched hash ghash fhash fuel sm fm gsm gfm fsm ffm efuel los lo up am, zoo_ye = Some Y ->
  heapq_ok hq -> heapq_ok hs -> sat_ok solver -> hash_ok hash -> hash_ok ghash -> hash_ok fhash ->
  ye_main (M_Gates.SP hash fuel sm fm) (M_Gates.SP fhash fuel fsm ffm) (M_Gates.SP ghash fuel gsm gfm) hq hs efuel solver sched Y = Some (los, (lo, up, am)) ->
  (forall m, Forall (fun lo => m <= lo)%Qc los -> forall c, ye_cases c -> image_of Y c \/ dilation_ge l2R c (qR m)) /\
  (forall c, image_of Y c -> dilation_ge l2R c (qR lo) /\ dilation_le l2R c (qR up)).
Proof.
  intros Y hq hs solver sched hash ghash fhash fuel sm fm gsm gfm fsm ffm efuel los lo up am EY. apply ye_unique in EY. subst Y. apply main_spec; [exact ye_class|exact ye_side].
Qed.
Print Assumptions C50_main.

Lemma bind_to {A B} (x : A) (f : A -> option B) r : f x = r -> obind (Some x) f = r. Proof. auto. Qed.
Lemma result_to r : result_lo (Some (Some r)) = Some (fst (fst (fst r))). Proof. destruct r as [[[? ?] ?] ?]. reflexivity. Qed.
Lemma class_any N mc c : search_curve 2 N 1 (Some mc) c -> search_curve 2 N 1 None c.
Proof. intros [V D1 D2 D3 K _]. constructor; auto. intros. exact I. Qed.
Lemma searched_any N mc c : search_curve 2 N 1 (Some mc) c -> gated 2 N 1 false c (gates_of c) -> searched 2 N 1 None None false None c.
Proof. intros H [_ _ _ D3 _ L G F]. split; [eapply class_any; eauto|]. exists (gates_of c). split; auto. split; auto. congruence. Qed.
Lemma searched_one N c l : search_curve 2 N 1 (Some 1%Z) c -> pl_dim 2 l -> gate_test c l = true -> searched 2 N 1 (Some 1%Z) (Some [[l]]) false None c.
Proof. intros H HL HT. split; auto. exists [l]. split; [left; reflexivity|]. apply gate_test_ok; auto. destruct H; auto. Qed.
(** C50  The main program prints all its results: there are curves in every class, and no search runs forever. *)
Theorem C50_main_returns : forall Y solver sched hash ghash fhash sm fm gsm gfm fsm ffm hs, zoo_ye = Some Y ->
  heapq_ok hs -> sat_ok solver -> hash_ok hash -> hash_ok ghash -> hash_ok fhash ->
  exists fuel0 los am, forall fuel, fuel0 <= fuel ->
  ye_main (M_Gates.SP hash fuel sm fm) (M_Gates.SP fhash fuel fsm ffm) (M_Gates.SP ghash fuel gsm gfm) cpython_heapq hs fuel solver sched Y =
  Some (los, ((Zq 408 / Zq 73)%Qc, (Zq 13281250 / Zq 2376291)%Qc, Some am)).
Proof.
  intros Y solver sched hash ghash fhash sm fm gsm gfm fsm ffm hs EY Hhs Hsat HH GH FH. assert (Hhq : heapq_ok (@cpython_heapq bpair)) by apply cpython_heapq_ok.
  destruct unit3 as (U1 & U2 & U3). destruct dim3 as (X1 & X2 & X3). assert (GN : good_gates None) by (intros ? X; discriminate X).
  pose proof (fun N gl mc rel c => printed_returns cpython_heapq Hhq hs Hhs solver Hsat sched hash HH sm fm ghash GH gsm gfm fhash FH fsm ffm N gl mc rel c) as PR.
  destruct (PR 2 None None 1000%Z (curve_or zoo_hilbert)) as (F2 & lo2 & E2); [lia|exact GN|lia|apply (searched_any 2 1%Z); [apply search_curve_check; vm_compute; reflexivity|apply gated_check; vm_compute; reflexivity]|].
  destruct (PR 3 None None 1000%Z (curve_or zoo_peano)) as (F3 & lo3 & E3); [lia|exact GN|lia|apply (searched_any 3 1%Z); [apply search_curve_check; vm_compute; reflexivity|apply gated_check; vm_compute; reflexivity]|].
  destruct (PR 4 None None 1000%Z curve4) as (F4 & lo4 & E4); [lia|exact GN|lia|apply (searched_any 4 1%Z); [apply search_curve_check; vm_compute; reflexivity|apply gated_check; vm_compute; reflexivity]|].
  destruct (PR 6 (Some [[side_gates]]) (Some 1%Z) 200%Z side6) as (F6s & lo6s & E6s); [lia|apply good_one; exact U1|lia|apply searched_one; [apply search_curve_check; vm_compute; reflexivity|exact X1|vm_compute; reflexivity]|].
  destruct (PR 6 (Some [[median_gates]]) (Some 1%Z) 200%Z median6) as (F6m & lo6m & E6m); [lia|apply good_one; exact U3|lia|apply searched_one; [apply search_curve_check; vm_compute; reflexivity|exact X3|vm_compute; reflexivity]|].
  destruct (PR 5 (Some [[diag_gates]]) (Some 1%Z) 200%Z diag5) as (F5d & lo5d & E5d); [lia|apply good_one; exact U2|lia|apply searched_one; [apply search_curve_check; vm_compute; reflexivity|exact X2|vm_compute; reflexivity]|].
  destruct (PR 5 (Some [[median_gates]]) (Some 1%Z) 200%Z median5) as (F5m & lo5m & E5m); [lia|apply good_one; exact U3|lia|apply searched_one; [apply search_curve_check; vm_compute; reflexivity|exact X3|vm_compute; reflexivity]|].
  destruct C50_checks_return as (Y' & EY' & _ & _ & _ & _ & CR). assert (Y' = Y) by congruence. subst Y'. destruct (CR cpython_heapq hs solver sched hash sm fm 200%Z 1000%Z Hhq Hhs Hsat HH ltac:(lia) ltac:(lia)) as (F5 & r1 & r2 & EC). clear CR.
  destruct C50_ye_dilation as (Y' & FY & am & EY'' & EB & _). assert (Y' = Y) by congruence. subst Y'.
  exists (F2 + F3 + F4 + F6s + F6m + F5d + F5m + F5 + FY), [lo2; lo3; lo4; lo6s; lo6m; lo5d; lo5m; fst (fst (fst r1)); fst (fst (fst r2))], am. intros fuel Hf.
  specialize (EC fuel ltac:(lia)). cbv zeta in EC. destruct EC as [EC1 EC2].
  rewrite main_unfold, side_is. apply bind_to. rewrite diag_is. apply bind_to. rewrite median_is. apply bind_to.
  rewrite E2 by lia. apply bind_to. rewrite E3 by lia. apply bind_to. rewrite E4 by lia. apply bind_to. rewrite E6s by lia. apply bind_to. rewrite E6m by lia. apply bind_to. rewrite E5d by lia. apply bind_to. rewrite E5m by lia. apply bind_to.
  rewrite EC1, result_to. apply bind_to. rewrite EC2, result_to. apply bind_to. rewrite EB by lia. reflexivity.
Qed.
Print Assumptions C50_main_returns.
(** An instance: the hypotheses of C50_main are met, and the case analysis covers the YE curve and other curves. *)
Example C50_example : exists Y fuel los r, zoo_ye = Some Y /\
  (let par T := @M_Gates.SP T (fun _ => 0%Z) fuel 1 None in ye_main (par _) (par _) (par _) cpython_heapq cpython_heapq fuel simple_solver (fun z => z) Y = Some (los, r)) /\
  ye_cases Y /\ ye_cases median5 /\ ~ image_of Y median5.
Proof.
  assert (HZ : forall T, @hash_ok T (fun _ => 0%Z)) by (intros T ? ? ? ?; reflexivity).
  destruct (C50_main_returns ye simple_solver (fun z => z) (fun _ => 0%Z) (fun _ => 0%Z) (fun _ => 0%Z) 1 None 1 None 1 None cpython_heapq ye_zoo cpython_heapq_ok simple_solver_ok (HZ _) (HZ _) (HZ _)) as (F & los & am & E).
  exists ye, F, los. eexists. split; [exact ye_zoo|]. split; [exact (E F (le_n F))|].
  split; [right; right; split; [exact ye_class|left; exact ye_side]|]. split.
  - right. right. split; [apply search_curve_check; vm_compute; reflexivity|]. right. left. apply gate_test_ok; [reflexivity|apply dim3|vm_compute; reflexivity].
  - intros (b & W & EQ). assert (H : existsb (fun b => match cv_pats (cv_mul_bm b ye), cv_pats median5 with p :: _, q :: _ => pr_eqb (pat_proto p) (pat_proto q) | _, _ => false end) (gen_base_maps 2 None) = false) by (vm_compute; reflexivity).
      assert (D : cv_dim ye = 2) by (destruct ye_class; auto). rewrite D in W. apply not_true_iff_false in H. apply H. apply existsb_exists. exists b. split; [apply P_GenMaps.In_gen_base_maps; split; auto; discriminate|]. rewrite <- EQ. cbn [cv_pats median5]. apply (list_eqb_ok _ P_PathYield.ocube_eqb_ok). reflexivity.
Qed.
