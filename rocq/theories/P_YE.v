(** The case analysis of YE-proof.py is complete. *)
From Verif Require Import Py L_Py L_Qc M_BaseMaps S_BaseMaps L_BaseMaps P_Actions P_GenMaps M_Subsets S_Subsets P_Subsets P_Points
  M_Paths M_Utils M_Curves M_PathTree M_PathGen M_Gates M_Heap M_Sat M_Dilation M_Search S_Utils S_Curves S_Paths S_Fuzzy S_PathGen S_PathTree S_Gates S_Ratio S_Heap S_Sat S_Dilation S_Term S_Search
  P_CurveAct P_Core P_Bridge P_Paths P_Entrance P_Check P_Gauge P_FuzzyInit P_FuzzyMain P_FuzzyOps P_FuzzyBuilt P_FuzzyExample P_PathYield P_CurvePaths P_Search P_SeqEst P_TermSeq T_Fuzzy T_PathGen P_GateCand P_SearchMono M_YE S_YE.
From Coq Require Import Reals Lia Permutation.
Local Open Scope nat_scope.

(** a valid curve with one pattern is determined by its dimension, division and patterns *)
Lemma valid1_eq x y : valid_curve x -> valid_curve y -> cv_mult x = 1 -> same_curve x y -> x = y.
Proof.
  intros VX VY M (E1 & E2 & E3). destruct VX as (_ & _ & P1 & K1 & _). destruct VY as (_ & _ & P2 & K2 & _). assert (cv_mult y = 1) by (unfold cv_mult in *; congruence).
  destruct x as [dx nx px qx kx], y as [dy ny py qy ky]. cbn [cv_dim cv_div cv_pats cv_kind cv_pnum] in *. subst. f_equal. lia.
Qed.
Lemma mul_bm_valid b c : wf_bm (cv_dim c) b -> valid_curve c -> valid_curve (cv_mul_bm b c).
Proof. intros Hb V. unfold cv_mul_bm. apply valid_curve_mul; auto. destruct V as (_ & _ & P & _). exact P. Qed.
Lemma mul_bm_dim b c : cv_dim (cv_mul_bm b c) = cv_dim c. Proof. apply cv_dim_mul. Qed.
Lemma mul_bm_div b c : cv_div (cv_mul_bm b c) = cv_div c. Proof. apply cv_div_mul. Qed.
Lemma mul_bm_mult b c : cv_mult (cv_mul_bm b c) = cv_mult c. Proof. apply cv_mult_mul. Qed.

(** the image of a curve under a base map is related to it by a gauge *)
Lemma image_gauge b q c : valid_curve c -> wf_bm (cv_dim c) b -> q < cv_mult c -> gauge c (cv_mul b q c) (fun p => p) (fun _ => b).
Proof.
  intros V Hb Hq. constructor; rewrite ?cv_dim_mul, ?cv_div_mul, ?cv_mult_mul; auto.
  - intros p k Hp Hk. apply image_cube; auto.
  - intros p k Hp Hk. rewrite image_spec by auto. unfold P_Gauge.up, kstep. cbn [sp_bm sp_pnum]. set (s := kspec (core_of c) p (kflip (core_of c) b k)).
    assert (Hf : kflip (core_of c) b k < cv_genus c) by (apply (kflip_lt (core_of c)); auto). destruct (kspec_wf c V p (kflip (core_of c) b k) Hp Hf) as [W1 W2]. fold s in W1, W2.
    change (sp_bm (sp_conj s (cube_map b))) with (bm_conj (sp_bm s) (cube_map b)). change (sp_pnum (sp_conj s (cube_map b))) with (sp_pnum s). rewrite (conj_cube_mul c b); auto.
Qed.
Lemma image_ge rQ rR b q c M : ratio_ok (cv_dim c) rQ rR -> valid_curve c -> wf_bm (cv_dim c) b -> q < cv_mult c -> dilation_ge rR (cv_mul b q c) M <-> dilation_ge rR c M.
Proof.
  intros RO V Hb Hq. pose proof (valid_curve_mul b q c Hb Hq V) as V'. split; [apply (gauge_ge rQ rR c _ _ _ M RO V V' (image_gauge b q c V Hb Hq))|]. intros H.
  assert (Hb' : wf_bm (cv_dim (cv_mul b q c)) (bm_inv b)) by (rewrite cv_dim_mul; apply wf_inv; auto). assert (HP : cv_pnum c < cv_mult c) by (destruct V as (_ & _ & P & _); exact P).
  assert (E : cv_mul (bm_inv b) (cv_pnum c) (cv_mul b q c) = c).
  { destruct (curve_action c b b Hb Hb (valid_curve_fuzzy c V)) as (_ & _ & E & _). unfold cv_mul_bm in E. rewrite !cv_mul_eq in *. cbn [cv_dim cv_div cv_pats cv_kind cv_pnum] in *. exact E. }
  apply (gauge_ge rQ rR (cv_mul b q c) c (fun p => p) (fun _ => bm_inv b)); rewrite ?cv_dim_mul; auto.
  rewrite <- E at 2. apply image_gauge; auto. rewrite cv_mult_mul; auto.
Qed.
Lemma image_le rQ rR b q c M : ratio_ok (cv_dim c) rQ rR -> valid_curve c -> wf_bm (cv_dim c) b -> q < cv_mult c -> dilation_le rR (cv_mul b q c) M <-> dilation_le rR c M.
Proof.
  intros RO V Hb Hq. pose proof (valid_curve_mul b q c Hb Hq V) as V'. split; [|apply (gauge_le rQ rR c _ _ _ M RO V V' (image_gauge b q c V Hb Hq))]. intros H.
  assert (Hb' : wf_bm (cv_dim (cv_mul b q c)) (bm_inv b)) by (rewrite cv_dim_mul; apply wf_inv; auto). assert (HP : cv_pnum c < cv_mult c) by (destruct V as (_ & _ & P & _); exact P).
  assert (E : cv_mul (bm_inv b) (cv_pnum c) (cv_mul b q c) = c).
  { destruct (curve_action c b b Hb Hb (valid_curve_fuzzy c V)) as (_ & _ & E & _). unfold cv_mul_bm in E. rewrite !cv_mul_eq in *. cbn [cv_dim cv_div cv_pats cv_kind cv_pnum] in *. exact E. }
  apply (gauge_le rQ rR (cv_mul b q c) c (fun p => p) (fun _ => bm_inv b)); rewrite ?cv_dim_mul; auto.
  rewrite <- E at 2. apply image_gauge; auto. rewrite cv_mult_mul; auto.
Qed.

Lemma list_differ (l l' : list (option spec)) : length l = length l' -> l = l' \/ exists k a b, nth_error l k = Some a /\ nth_error l' k = Some b /\ a <> b.
Proof.
  revert l'. induction l as [|a l IH]; intros [|b l'] HL; try discriminate; auto. assert (D : a = b \/ a <> b).
  { destruct a as [a|], b as [b|]; auto; try (right; discriminate). destruct (spec_eqb a b) eqn:E; [left; f_equal; apply spec_eqb_ok; auto|right; intros X; injection X as ->; rewrite (proj2 (spec_eqb_ok b b) eq_refl) in E; discriminate]. }
  destruct D as [->|D]; [|right; exists 0, a, b; auto]. destruct (IH l') as [->|(k & x & y & H)]; auto. right. exists (S k), x, y. exact H.
Qed.
Lemma chosen_attrs f x : chosen_from f x -> cv_mult f = cv_mult x.
Proof. intros (_ & _ & _ & _ & E & _). apply (f_equal (@length _)) in E. rewrite !map_length in E. unfold cv_mult. auto. Qed.

Section Cases.
Context (d N : nat) (Hd : 1 <= d) (HN : 2 <= N) (mc : option Z) (l : plink) (HU : unit_links d [l]).
Notation sc := (search_curve d N 1 mc).
(** every curve of the class has an image chosen from the fuzzy curve of one of the paths *)
Lemma class_image c sres : sc c -> has_gates d c [l] ->
  (forall ps, In ps sres -> Forall2 (point_path d N [l] mc) [l] ps) ->
  (forall qs, Forall2 (point_path d N [l] mc) [l] qs -> exists ps, In ps sres /\ same_paths d [l] qs ps) ->
  exists ps f B, In ps sres /\ init_from_paths ps None false = Some f /\ wf_bm d B /\ chosen_from f (cv_mul_bm B c) /\ get_paths (cv_mul_bm B c) = Some ps.
Proof.
  intros HC HG HSnd HCov. destruct (class_gauges d N 1 Hd HN ltac:(lia) mc c [l] sres HC HG HSnd HCov) as (ps & f & x & x1 & s & b & s' & b' & I1 & I2 & I3 & (V1 & M1) & (V2 & M2) & GA1 & GA2).
  pose proof HC as [V D1 D2 D3 _ _]. destruct (gauge_mul c x1 s b V V1 D3 M1 GA1) as [W1 S1]. destruct (gauge_mul x1 x s' b' V1 V2 M1 M2 GA2) as [W2 S2].
  apply valid1_eq in S1; auto using mul_bm_valid. apply valid1_eq in S2; auto using mul_bm_valid. subst x1. rewrite mul_bm_dim in W2. exists ps, f, (bm_mul (b' 0) (b 0)).
  assert (E : cv_mul_bm (bm_mul (b' 0) (b 0)) c = x) by (rewrite S2; symmetry; apply curve_action; auto; apply valid_curve_fuzzy; auto). rewrite E.
  split; auto. split; auto. split; [rewrite <- D1; apply wf_mul; auto|]. split; auto. destruct (tuple_valid d N 1 Hd HN ltac:(lia) [l] mc ps ltac:(discriminate) HU (HSnd ps I1)) as [HV _].
  apply (C26_keeps_paths d N None false ps f x (no_group d) HV I2 I3).
Qed.
Lemma one_pattern c : sc c -> exists pat, cv_pattern c = Some pat /\ cv_pats c = [pat].
Proof.
  intros [V D1 D2 D3 _ _]. destruct V as (_ & _ & P & _). unfold cv_pattern, cv_mult in *. destruct (cv_pats c) as [|pat [|? ?]]; cbn in D3; try lia. exists pat. cbn in P. replace (cv_pnum c) with 0 by lia. auto.
Qed.
Lemma path_proto c pat ps : sc c -> cv_pattern c = Some pat -> get_paths c = Some ps -> exists p, ps = [p] /\ pa_proto p = pat_proto pat.
Proof.
  intros HC EP E. destruct (one_pattern c HC) as (pat' & E1 & E2). assert (pat' = pat) by congruence. subst pat'. destruct HC as [V D1 D2 D3 _ _]. rewrite (get_paths_eq c V), D3 in E. injection E as <-. exists (cpath c 0). split; auto.
  cbn [cpath pa_proto]. symmetry. apply (pat_proto_eq c V 0 pat). rewrite E2. reflexivity.
Qed.
Lemma pattern_image b c pat : sc c -> wf_bm d b -> cv_pattern c = Some pat -> cv_pattern (cv_mul_bm b c) = Some (pat_mul b pat).
Proof. intros HC Hb E. unfold cv_pattern, cv_mul_bm in *. rewrite cv_mul_eq. cbn [cv_pats cv_pnum]. rewrite nth_error_map, E. reflexivity. Qed.
Lemma proto_len c pat : sc c -> cv_pattern c = Some pat -> cubes_len d (pat_proto pat) /\ pr_dim (pat_proto pat) = d /\ pr_div (pat_proto pat) = N.
Proof.
  intros [V D1 D2 D3 _ _] E. destruct V as (_ & _ & _ & _ & HF). rewrite Forall_forall in HF. destruct (HF pat (nth_error_In _ _ E)) as (VP & _ & _). rewrite D1, D2 in VP. pose proof VP as (A & B & _). split; auto. eapply valid_proto_len; eauto.
Qed.
Lemma sc_image b c : sc c -> wf_bm d b -> valid_curve (cv_mul_bm b c) /\ cv_dim (cv_mul_bm b c) = d /\ cv_div (cv_mul_bm b c) = N /\ cv_mult (cv_mul_bm b c) = 1.
Proof. intros [V D1 D2 D3 _ _] Hb. rewrite mul_bm_dim, mul_bm_div, mul_bm_mult. split; [apply mul_bm_valid; auto; rewrite D1; auto|auto]. Qed.

Context (Y : curve) (HY : sc Y) (GY : has_gates d Y [l]).
Lemma dimY : cv_dim Y = d. Proof. destruct HY; auto. Qed.
(** the test on the prototypes of the paths *)
Lemma proto_test protos c ps B : image_protos Y = Some protos -> sc c -> wf_bm d B -> get_paths (cv_mul_bm B c) = Some ps -> first_proto_in protos ps = true <-> proto_image_of Y c.
Proof.
  intros EY HC HB E. unfold image_protos in EY. destruct (one_pattern Y HY) as (py & Y1 & _). rewrite Y1 in EY. cbn [option_map] in EY. injection EY as <-. destruct (one_pattern c HC) as (pc & C1 & C2).
  pose proof HC as [V D1 D2 D3 _ _]. unfold cv_mul_bm in E. rewrite (image_paths c V B) with (ps := [cpath c 0]) in E; [|rewrite D1; auto|destruct V as (_ & _ & P & _); exact P|rewrite (get_paths_eq c V), D3; reflexivity].
  cbn [omap] in E. rewrite (image_path c V B) with (q := cv_pnum c) in E; [|rewrite D1; auto|destruct V as (_ & _ & P & _); exact P|lia]. injection E as <-. cbn [first_proto_in]. set (c' := cv_mul B (cv_pnum c) c).
  assert (EP : pa_proto (cpath c' 0) = pr_mul B (pat_proto pc)).
  { cbn [cpath pa_proto]. symmetry. apply (pat_proto_eq c' (proj1 (sc_image B c HC HB)) 0 (pat_mul B pc)). unfold c'. rewrite cv_mul_eq. cbn [cv_pats]. rewrite C2. reflexivity. }
  rewrite EP. destruct (proto_len c pc HC C1) as (L1 & A1 & A2). destruct (proto_len Y py HY Y1) as (L2 & B1 & B2). unfold memb. rewrite existsb_exists, dimY. split.
  - intros (q & Hq & E). apply in_map_iff in Hq. destruct Hq as (b & <- & Hb). apply In_gen_base_maps in Hb. destruct Hb as [Hb _]. unfold pr_eqb in E. apply (list_eqb_ok _ ocube_eqb_ok) in E.
    assert (EE : pr_mul B (pat_proto pc) = pr_mul b (pat_proto py)). { unfold pr_mul in *. cbn [pr_cubes] in E. rewrite A1, A2, B1, B2 in *. f_equal. exact E. }
    exists py, pc, (bm_mul (bm_inv B) b). rewrite dimY. split; auto. split; auto. split; [apply wf_mul; auto using wf_inv|]. rewrite (pr_mul_mul d) by auto using wf_inv. rewrite <- EE, <- (pr_mul_mul d) by auto using wf_inv.
    rewrite (mul_inv_l d) by auto. symmetry. apply pr_mul_id; auto.
  - intros (py' & pc' & b & E1 & E2 & Hb & E). assert (py' = py) by congruence. assert (pc' = pc) by congruence. subst py' pc'. rewrite dimY in Hb. exists (pr_mul (bm_mul B b) (pat_proto py)). split.
    + apply in_map_iff. exists (bm_mul B b). split; auto. apply In_gen_base_maps. split; [apply wf_mul; auto|auto].
    + unfold pr_eqb. apply (list_eqb_ok _ ocube_eqb_ok). rewrite E, (pr_mul_mul d) by auto. reflexivity.
Qed.
(** curves with the same paths as Y: Y itself, or one of the changed fuzzy curves *)
Lemma changed_covers fs x : changed_pcurves Y = Some fs -> valid_curve x -> cv_mult x = 1 -> get_paths x = get_paths Y -> x = Y \/ exists f, In f fs /\ chosen_from f x.
Proof.
  intros EF VX MX EP. pose proof HY as [VY D1 D2 D3 _ _]. assert (PX : cv_pnum x = 0) by (destruct VX as (_ & _ & P & _); lia).
  assert (DX : cv_dim x = d /\ cv_div x = N /\ map pat_proto (cv_pats x) = map pat_proto (cv_pats Y)).
  { pose proof (get_paths_eq x VX) as A. rewrite EP, (get_paths_eq Y VY), MX, D3 in A. apply (f_equal (fun o => match o with Some (p :: _) => pa_proto p | _ => pa_proto (cpath x 0) end)) in A. cbn [map range seq] in A. cbn [cpath pa_proto] in A.
    pose proof (f_equal pr_dim A) as A1. pose proof (f_equal pr_div A) as A2. cbn [pr_dim pr_div] in A1, A2. rewrite D1 in A1. rewrite D2 in A2. split; auto. split; auto.
    unfold cv_mult in MX, D3. destruct (cv_pats x) as [|px [|? ?]] eqn:E1; cbn in MX; try lia. destruct (cv_pats Y) as [|py [|? ?]] eqn:E2; cbn in D3; try lia. cbn [map]. f_equal.
    rewrite (pat_proto_eq x VX 0 px), (pat_proto_eq Y VY 0 py); [|rewrite E2; reflexivity|rewrite E1; reflexivity]. symmetry. exact A. }
  destruct DX as (DX1 & DX2 & DX3). destruct (C26_forget x None false VX) as (f & pl & F1 & F2 & F3); [rewrite DX1; apply no_group| |exact PX|].
  { intros p k s E. split; [|split; discriminate]. unfold get_spec in E. destruct (nth_error (cv_pats x) p) as [pat|] eqn:E1; [|discriminate]. destruct VX as (_ & _ & _ & _ & HF). rewrite Forall_forall in HF. destruct (HF pat (nth_error_In _ _ E1)) as (_ & _ & HS).
    rewrite Forall_forall in HS. destruct (HS _ (nth_error_In _ _ E)) as (s' & Es & W & _). injection Es as ->. exact W. }
  assert (HX : chosen_from f x).
  { pose proof F1 as F1'. unfold forget in F1'. rewrite (get_paths_eq x VX) in F1'. cbn [obind] in F1'. pose proof (forget_paths_valid x VX) as PV. rewrite DX1, DX2 in PV.
    destruct (C26_possible d N None false _ f (no_group d) PV (built_init _ _ _ _ F1')) as (l' & L1 & _ & _ & _ & L2). assert (l' = pl) by congruence. subst l'. apply L2; auto. }
  assert (F1' : forget Y None false = Some f) by (unfold forget in *; rewrite <- EP; auto). unfold changed_pcurves in EF. rewrite F1' in EF. cbn [obind] in EF. destruct (one_pattern Y HY) as (py & Y1 & Y2). rewrite Y1 in EF. cbn [obind] in EF.
  destruct (omap _ (enumerate (pat_specs py))) as [fss|] eqn:EO in EF; [|discriminate]. cbn [option_map] in EF. injection EF as <-.
  pose proof HX as (_ & X1 & X2 & _ & _ & X5 & X6). pose proof (chosen_attrs f x HX) as MF. assert (GF : cv_genus f = N ^ d) by (unfold cv_genus; congruence). rewrite GF in X5, X6. rewrite MX in MF.
  assert (LY : length (pat_specs py) = N ^ d). { destruct VY as (_ & _ & _ & _ & HF). rewrite Y2 in HF. apply Forall_inv in HF. destruct HF as (_ & L & _). rewrite L, D1, D2. auto. }
  unfold cv_mult in MX. destruct (cv_pats x) as [|px [|? ?]] eqn:EX; cbn in MX; try lia. rewrite Y2 in DX3. cbn [map] in DX3. injection DX3 as DX3. pose proof (Forall_inv X5) as LX. cbv beta in LX.
  destruct (list_differ (pat_specs px) (pat_specs py)) as [E|(k & sx & sy & K1 & K2 & K3)]; [congruence|left|right].
  - apply valid1_eq; auto; [unfold cv_mult; rewrite EX; reflexivity|]. split; [congruence|]. split; [congruence|]. rewrite EX, Y2. destruct px, py. cbn in *. congruence.
  - assert (Hk : k < N ^ d) by (rewrite <- LX; apply nth_error_Some; congruence). destruct (X6 0 k) as (s & al & S1 & S2 & S3); [lia|auto|]. unfold get_spec in S1. rewrite EX in S1. cbn [nth_error] in S1. assert (sx = Some s) by congruence. subst sx.
    apply P_GateCand.omap_rel in EO. assert (EN : nth_error (enumerate (pat_specs py)) k = Some (k, sy)) by (rewrite enumerate_nth_error, K2; reflexivity). destruct (F2_nth' _ _ _ _ _ EO EN) as (fs & E1 & E2). cbn [fst snd] in E2. rewrite S2 in E2. cbn [obind] in E2.
    destruct (specify f 0 k s) as [f'|] eqn:E3; [|exfalso; apply specify_raises in E3; eauto]. exists f'. split.
    + apply in_concat. exists fs. split; [eapply nth_error_In; eauto|]. apply (omap_In _ _ _ E2). exists s. split; auto. apply filter_In. split; auto. destruct sy as [sy|]; auto. destruct (spec_eqb s sy) eqn:E4; auto. apply spec_eqb_ok in E4. congruence.
    + apply (C28_narrows f 0 k s f' x); auto; [lia|lia|]. split; auto. unfold get_spec. rewrite EX. cbn [nth_error]. exact K1.
Qed.

Lemma link_paths_spec hash sm fm : hash_ok hash -> exists F sres, (forall fuel, F <= fuel -> link_paths d N mc (M_Gates.SP hash fuel sm fm) l = Some sres) /\ NoDup sres /\
  (forall ps, In ps sres -> Forall2 (point_path d N [l] mc) [l] ps) /\
  (forall qs, Forall2 (point_path d N [l] mc) [l] qs -> exists ps, (In ps sres /\ same_paths d [l] qs ps) /\ forall ps', In ps' sres -> same_paths d [l] qs ps' -> ps' = ps).
Proof.
  intros HH. pose proof (S2 d N Hd HN) as H2. destruct (C33_tuples d N [l] mc [l] H2 HU HU) as (g & EG & HT). destruct (HT hash sm fm HH) as (F & res & sres & A & _ & B).
  assert (EL : pg_links g = [l]). { unfold mk_generator in EG. destruct (init_exit2next _ _ _ _ _ _) in EG; [|discriminate]. cbn in EG. injection EG as <-. reflexivity. }
  exists F, sres. split; auto. intros fuel Hf. unfold link_paths. rewrite EG. cbn [obind sp_hash sp_fuel sp_start sp_finish]. destruct (A fuel Hf) as [_ A2].
  rewrite <- A2. unfold generate_paths, restrictions. rewrite EL. reflexivity.
Qed.
(** the same for a result at any fuel *)
Lemma link_paths_any hash sm fm fuel sres : hash_ok hash -> link_paths d N mc (M_Gates.SP hash fuel sm fm) l = Some sres -> NoDup sres /\
  (forall ps, In ps sres -> Forall2 (point_path d N [l] mc) [l] ps) /\
  (forall qs, Forall2 (point_path d N [l] mc) [l] qs -> exists ps, (In ps sres /\ same_paths d [l] qs ps) /\ forall ps', In ps' sres -> same_paths d [l] qs ps' -> ps' = ps).
Proof.
  intros HH E. destruct (link_paths_spec hash sm fm HH) as (F & sres' & A & B). pose proof (link_paths_mono d N fuel (Nat.max fuel F) ltac:(lia) hash sm fm mc l sres E) as E'. rewrite A in E' by lia. injection E' as ->. exact B.
Qed.
(** tuples with one path *)
Lemma same1 q p : same_paths d [l] [q] [p] <-> exists b, wf_bm d b /\ pl_mul b l = l /\ pa_mul point_ops b q = Some p.
Proof.
  split.
  - intros (rs & L & F2 & P). destruct rs as [|r [|? ?]]; cbn in L; try discriminate. inversion F2 as [|? ? ? ? (b & (W & K) & E) _]; subst. cbn in P. apply Permutation_length_1 in P. injection P as ->. exists b. auto.
  - intros (b & W & K & E). exists [p]. split; auto. split; [|apply Permutation_refl]. cbn [combine]. constructor; [|constructor]. exists b. split; [split; auto|auto].
Qed.
Lemma tuple1 ps : Forall2 (point_path d N [l] mc) [l] ps -> exists p, ps = [p] /\ valid_ppath d p /\ valid_proto d N (pa_proto p).
Proof.
  intros H. destruct (tuple_valid d N 1 Hd HN ltac:(lia) [l] mc ps ltac:(discriminate) HU H) as [(_ & _ & _ & V) _]. inversion H as [|? p ? ? ? H']; subst. inversion H'; subst. apply Forall_inv in V. exists p. split; auto.
Qed.
Lemma same_proto protos q p : image_protos Y = Some protos -> valid_ppath d q -> valid_proto d N (pa_proto q) -> same_paths d [l] [q] [p] -> first_proto_in protos [q] = true -> first_proto_in protos [p] = true.
Proof.
  intros EP VP VQ HS HF. apply same1 in HS. destruct HS as (b & W & _ & E). assert (EPr : pa_proto p = pr_mul b (pa_proto q)).
  { destruct (pa_mul_eq d b q W VP) as [A _]. assert (p = pa_image b q) by congruence. subst p. reflexivity. }
  unfold image_protos in EP. destruct (one_pattern Y HY) as (py & Y1 & _). rewrite Y1 in EP. cbn [option_map] in EP. injection EP as <-. destruct (proto_len Y py HY Y1) as (L2 & B1 & B2). cbn [first_proto_in] in *. unfold memb in *. rewrite dimY in *.
  apply existsb_exists in HF. destruct HF as (x & Hx & EX). apply in_map_iff in Hx. destruct Hx as (b1 & <- & Hb1). apply In_gen_base_maps in Hb1. destruct Hb1 as [Hb1 _]. apply existsb_exists. exists (pr_mul (bm_mul b b1) (pat_proto py)). split.
  - apply in_map_iff. exists (bm_mul b b1). split; auto. apply In_gen_base_maps. split; auto. apply wf_mul; auto.
  - unfold pr_eqb in *. apply (list_eqb_ok _ ocube_eqb_ok) in EX. apply (list_eqb_ok _ ocube_eqb_ok). rewrite EPr, (pr_mul_mul d) by auto. destruct VQ as (Q1 & Q2 & _). unfold pr_mul in *. cbn [pr_cubes pr_dim pr_div] in *. rewrite ?Q1, ?Q2, ?B1, ?B2 in *. rewrite ?EX. reflexivity.
Qed.
(** the number of paths with the prototype of Y does not depend on the parameters of the search *)
Lemma count_any protos hash0 sm0 fm0 fuel0 sres0 hash sm fm : image_protos Y = Some protos -> hash_ok hash0 -> link_paths d N mc (M_Gates.SP hash0 fuel0 sm0 fm0) l = Some sres0 -> length (filter (first_proto_in protos) sres0) = 1 ->
  hash_ok hash -> exists F sres, (forall fuel, F <= fuel -> link_paths d N mc (M_Gates.SP hash fuel sm fm) l = Some sres) /\ length (filter (first_proto_in protos) sres) = 1.
Proof.
  intros EP HH0 E0 EL HH. destruct (link_paths_any hash0 sm0 fm0 fuel0 sres0 HH0 E0) as (_ & B0 & C0). destruct (link_paths_spec hash sm fm HH) as (F & sres & A & ND & B & C). exists F, sres. split; auto.
  destruct (filter (first_proto_in protos) sres0) as [|pi [|? ?]] eqn:EF; try discriminate.
  assert (HPi : forall ps, In ps (filter (first_proto_in protos) sres) -> exists q p0 b, ps = [q] /\ pi = [p0] /\ valid_ppath d q /\ wf_bm d b /\ pl_mul b l = l /\ pa_mul point_ops b q = Some p0).
  { intros ps Hps. apply filter_In in Hps. destruct Hps as [H1 H2]. pose proof (B ps H1) as P1. destruct (C0 ps P1) as (ps0 & (I0 & S0) & _). destruct (tuple1 ps P1) as (q & -> & Vq & Vp). destruct (tuple1 ps0 (B0 ps0 I0)) as (p0 & -> & _).
    assert (In [p0] (filter (first_proto_in protos) sres0)) as HI by (apply filter_In; split; auto; eapply same_proto; eauto). rewrite EF in HI. destruct HI as [HI|[]]. apply same1 in S0. destruct S0 as (b & W & K & E). exists q, p0, b. auto 10. }
  assert (HEq : forall ps1 ps2, In ps1 (filter (first_proto_in protos) sres) -> In ps2 (filter (first_proto_in protos) sres) -> ps1 = ps2).
  { intros ps1 ps2 H1 H2. destruct (HPi ps1 H1) as (q1 & p0 & b1 & -> & -> & V1 & W1 & K1 & M1). destruct (HPi ps2 H2) as (q2 & p0' & b2 & -> & EQ & V2 & W2 & K2 & M2). injection EQ as <-.
    apply filter_In in H1, H2. destruct H1 as [H1 _], H2 as [H2 _]. destruct (C [q1] (B _ H1)) as (ps & _ & U).
    assert (HL : pl_dim d l) by (unfold unit_links in HU; apply Forall_inv in HU; destruct HU as ((U1 & _) & (U2 & _)); split; auto). pose proof HL as [HL1 HL2].
    rewrite (U [q1] H1), (U [q2] H2); auto; apply same1.
    - exists (bm_mul (bm_inv b2) b1). split; [apply wf_mul; auto using wf_inv|]. split; [rewrite (pl_mul_mul d) by auto using wf_inv; rewrite K1, <- K2 at 1; rewrite <- (pl_mul_mul d) by auto using wf_inv; rewrite (mul_inv_l d) by auto; apply (pl_mul_id d); auto|].
      destruct (pa_mul_eq d b1 q1 W1 V1) as [A1 A2]. destruct (pa_mul_eq d b2 q2 W2 V2) as [A3 A4]. destruct (pa_mul_eq d (bm_mul (bm_inv b2) b1) q1 (wf_mul d _ _ (wf_inv d b2 W2) W1) V1) as [A5 _]. rewrite A5. f_equal.
      rewrite (pa_image_mul d) by auto using wf_inv. replace (pa_image b1 q1) with (pa_image b2 q2) by congruence. rewrite <- (pa_image_mul d) by auto using wf_inv. rewrite (mul_inv_l d) by auto. apply (pa_image_id d); auto.
    - exists (id_map d). split; [apply wf_id|]. split; [apply (pl_mul_id d); auto|]. destruct (pa_mul_eq d (id_map d) q1 (wf_id d) V1) as [A1 _]. rewrite A1, (pa_image_id d) by auto. auto. }
  assert (HNE : filter (first_proto_in protos) sres <> []).
  { destruct (class_image Y sres HY GY B) as (ps & f & b & I1 & I2 & I3 & I4 & I5); [intros qs Hqs; destruct (C qs Hqs) as (ps & (P1 & P2) & _); eauto|]. intros X. assert (HI : In ps (filter (first_proto_in protos) sres)).
    { apply filter_In. split; auto. apply (proto_test protos Y ps b); auto. destruct (one_pattern Y HY) as (py & Y1 & _). exists py, py, (id_map d). rewrite dimY. split; auto. split; auto. split; [apply wf_id|]. symmetry. apply pr_mul_id. apply (proto_len Y py HY Y1). }
    rewrite X in HI. destruct HI. }
  pose proof (NoDup_filter (first_proto_in protos) ND) as ND'. destruct (filter (first_proto_in protos) sres) as [|a [|a' r]]; [congruence|reflexivity|exfalso].
  assert (a = a') by (apply HEq; cbn; auto). subst a'. inversion ND'; subst. cbn in *. tauto.
Qed.
Lemma same_sym q p : valid_ppath d q -> same_paths d [l] [q] [p] -> same_paths d [l] [p] [q].
Proof.
  intros Vq HS. apply same1 in HS. destruct HS as (b & W & K & E). assert (HL : pl_dim d l) by (unfold unit_links in HU; apply Forall_inv in HU; destruct HU as ((U1 & _) & (U2 & _)); split; auto). pose proof HL as [HL1 HL2].
  apply same1. exists (bm_inv b). split; [apply wf_inv; auto|]. split; [rewrite <- K at 1; rewrite <- (pl_mul_mul d) by auto using wf_inv; rewrite (mul_inv_l d) by auto; apply (pl_mul_id d); auto|].
  destruct (pa_mul_eq d b q W Vq) as [A1 A2]. assert (p = pa_image b q) by congruence. subst p. destruct (pa_mul_eq d (bm_inv b) (pa_image b q) (wf_inv d b W) A2) as [A3 _]. rewrite A3. f_equal.
  rewrite <- (pa_image_mul d) by auto using wf_inv. rewrite (mul_inv_l d) by auto. apply (pa_image_id d); auto.
Qed.
(** if there are paths with another prototype, every search finds some *)
Lemma other_any protos hash0 sm0 fm0 fuel0 sres0 hash sm fm fuel sres : image_protos Y = Some protos -> hash_ok hash0 -> link_paths d N mc (M_Gates.SP hash0 fuel0 sm0 fm0) l = Some sres0 ->
  (exists ps, In ps sres0 /\ first_proto_in protos ps = false) -> hash_ok hash -> link_paths d N mc (M_Gates.SP hash fuel sm fm) l = Some sres -> exists ps, In ps sres /\ first_proto_in protos ps = false.
Proof.
  intros EP HH0 E0 (ps0 & I0 & P0) HH E. destruct (link_paths_any hash0 sm0 fm0 fuel0 sres0 HH0 E0) as (_ & B0 & _). destruct (link_paths_any hash sm fm fuel sres HH E) as (_ & B & C).
  destruct (C ps0 (B0 ps0 I0)) as (ps & (I1 & S1) & _). exists ps. split; auto. destruct (first_proto_in protos ps) eqn:EF; auto. exfalso. destruct (tuple1 ps0 (B0 ps0 I0)) as (q & -> & Vq & Vqp). destruct (tuple1 ps (B ps I1)) as (p & -> & Vp & Vpp).
  apply same_sym in S1; auto. pose proof (same_proto protos p q EP Vp Vpp S1 EF). congruence.
Qed.
Lemma protos_exist : exists protos, image_protos Y = Some protos.
Proof. destruct (one_pattern Y HY) as (py & E & _). unfold image_protos. rewrite E. cbn. eauto. Qed.
Lemma paths_curves sres : (forall ps, In ps sres -> Forall2 (point_path d N [l] mc) [l] ps) -> exists fs, omap (fun ps => init_from_paths ps None false) sres = Some fs /\ Forall (joined_input d) fs.
Proof.
  intros HS. destruct (omap_some_all (fun ps => init_from_paths ps None false) sres) as (fs & E); [intros ps Hps; apply (tuple_fuzzy d N 1 Hd HN ltac:(lia) [l] mc); auto; discriminate|].
  exists fs. split; auto. apply Forall_forall. intros f Hf. apply (omap_In _ _ _ E) in Hf. destruct Hf as (ps & Hps & EI). exists N, None, false, ps.
  destruct (tuple_valid d N 1 Hd HN ltac:(lia) [l] mc ps ltac:(discriminate) HU (HS ps Hps)) as [T1 T2]. split; [apply no_group|]. split; auto. split; auto. apply built_init; auto.
Qed.
Lemma changed_exist : exists fs, changed_pcurves Y = Some fs /\ Forall (joined_input d) fs.
Proof.
  pose proof HY as [VY D1 D2 D3 CK _]. assert (PY : cv_pnum Y = 0) by (destruct VY as (_ & _ & P & _); lia). destruct (one_pattern Y HY) as (py & Y1 & Y2).
  destruct (C26_forget Y None false VY) as (f & pl & F1 & F2 & F3); [rewrite D1; apply no_group| |exact PY|].
  { intros p k s E. split; [|split; discriminate]. unfold get_spec in E. destruct (nth_error (cv_pats Y) p) as [pat|] eqn:E1; [|discriminate]. destruct VY as (_ & _ & _ & _ & HF). rewrite Forall_forall in HF. destruct (HF pat (nth_error_In _ _ E1)) as (_ & _ & HS).
    rewrite Forall_forall in HS. destruct (HS _ (nth_error_In _ _ E)) as (s' & Es & W & _). injection Es as ->. exact W. }
  pose proof F1 as F1'. unfold forget in F1'. rewrite (get_paths_eq Y VY) in F1'. cbn [obind] in F1'. pose proof (forget_paths_valid Y VY) as PV. rewrite D1, D2 in PV.
  pose proof (built_init _ _ _ _ F1') as HB. destruct (C26_possible d N None false _ f (no_group d) PV HB) as (l' & L1 & _ & _ & _ & L2). assert (l' = pl) by congruence. subst l'. apply L2 in F3.
  assert (LY : length (pat_specs py) = N ^ d). { destruct VY as (_ & _ & _ & _ & HF). rewrite Y2 in HF. apply Forall_inv in HF. destruct HF as (_ & L & _). rewrite L, D1, D2. auto. }
  destruct (omap_some_all (fun cs => obind (gen_allowed_specs f 0 (fst cs)) (fun allowed => omap (specify f 0 (fst cs)) (filter (fun sp => match snd cs with Some s => negb (spec_eqb sp s) | None => true end) allowed))) (enumerate (pat_specs py))) as (fss & EF).
  { intros [k so] Hin. apply In_enumerate in Hin. assert (Hk : k < N ^ d) by (rewrite <- LY; apply nth_error_Some; congruence). cbn [fst snd].
    destruct F3 as (_ & X1 & X2 & _ & X4 & _ & X6). destruct (X6 0 k) as (s & al & S1 & S2 & S3). { apply (f_equal (@length _)) in X4. rewrite !map_length in X4. unfold cv_mult in *. lia. } { unfold cv_genus. rewrite <- X1, <- X2, D1, D2. auto. }
    rewrite S2. cbn [obind]. apply omap_some_all. intros s' Hs'. apply filter_In in Hs'. destruct Hs' as [Hs' _]. destruct (specify f 0 k s') as [f'|] eqn:E; eauto. exfalso. apply specify_raises in E. apply E. eauto. }
  exists (concat fss). split; [unfold changed_pcurves; rewrite F1; cbn [obind]; rewrite Y1; cbn [obind]; rewrite EF; reflexivity|].
  apply Forall_forall. intros f' Hf'. apply in_concat in Hf'. destruct Hf' as (fs & Hfs & Hf'). apply (omap_In _ _ _ EF) in Hfs. destruct Hfs as ([k so] & _ & E). cbn [fst snd] in E. destruct (gen_allowed_specs f 0 k) as [al|]; [|discriminate]. cbn [obind] in E.
  apply (omap_In _ _ _ E) in Hf'. destruct Hf' as (s & _ & ES). exists N, None, false, (map (cpath Y) (range (cv_mult Y))). split; [apply no_group|]. split; auto. split; [|eapply built_specify; eauto].
  intros p Hp. apply in_map_iff in Hp. destruct Hp as (i & <- & Hi). apply in_seq in Hi. apply (joined_kcont Y VY); [apply check_kcont; auto|lia].
Qed.

Section Run.
Context (ratio : ratio_func) (rR : list R -> R -> R) (RO : ratio_ok d (ratio d) rR) (hq : heap_impl bpair) (Hhq : heapq_ok hq) (hs : heap_impl citem) (Hhs : heapq_ok hs)
  (solver : sat_solver) (Hsat : sat_ok solver) (sched : Z -> Z).
Lemma seq_bound fuel fs rel result f x c : Forall (joined_input d) fs -> estimate_dilation_sequence ratio hq hs fuel solver sched None fs rel 4 None = Some result -> In f fs -> chosen_from f x ->
  (forall M, dilation_ge rR x M -> dilation_ge rR c M) -> reported_bound rR result c.
Proof.
  intros HJ E Hf HX HT. assert (HF : Forall (fuzzy_input d) fs) by (eapply Forall_impl; [|exact HJ]; intros a; apply joined_fuzzy).
  pose proof (seq_spec hq Hhq hs Hhs ratio rR d fuel solver sched None fs rel 4%Z None result HF RO Hsat E) as HS. unfold reported_bound. destruct result as [[[[lo up] exs] idxs]|].
  - destruct HS as (HS & _). apply HT. apply (HS f Hf). auto.
  - destruct HS as [->|(u & E' & _)]; [destruct Hf|discriminate].
Qed.
Lemma transfer b c M : sc c -> wf_bm d b -> dilation_ge rR (cv_mul_bm b c) M -> dilation_ge rR c M.
Proof. intros [V D1 _ _ _ _] Hb. apply (image_ge (ratio d) rR b (cv_pnum c) c M); rewrite ?D1; auto. destruct V as (_ & _ & P & _). exact P. Qed.

Theorem non_ye_spec hash sm fm : hash_ok hash -> forall fuel efuel rel result,
  check_non_ye d N mc (M_Gates.SP hash fuel sm fm) l Y ratio hq hs efuel solver sched rel = Some result ->
  forall c, sc c -> has_gates d c [l] -> ~ proto_image_of Y c -> reported_bound rR result c.
Proof.
  intros HH fuel efuel rel result E c HC HG HNI. destruct protos_exist as (protos & EP). unfold check_non_ye in E. rewrite EP in E. cbn [obind] in E. destruct (link_paths _ _ _ _ _) as [sres|] eqn:A in E; [|discriminate]. cbn [obind] in E.
  destruct (link_paths_any hash sm fm fuel sres HH A) as (_ & B & C). set (L := filter _ sres) in E. assert (BL : forall ps, In ps L -> Forall2 (point_path d N [l] mc) [l] ps) by (intros ps Hps; apply filter_In in Hps; apply B, Hps).
  destruct (paths_curves L BL) as (fs & EF & HJ). rewrite EF in E. cbn [obind] in E.
  destruct (class_image c sres HC HG B) as (ps & f & b & I1 & I2 & I3 & I4 & I5); [intros qs Hqs; destruct (C qs Hqs) as (ps & (P1 & P2) & _); eauto|].
  apply (seq_bound efuel fs rel result f (cv_mul_bm b c) c HJ E); auto; [|intros M; apply transfer; auto].
  apply (omap_In _ _ _ EF). exists ps. split; auto. apply filter_In. split; auto. destruct (first_proto_in protos ps) eqn:EE; auto. exfalso. apply HNI. apply (proto_test protos c ps b); auto.
Qed.
Theorem non_ye_returns hash sm fm pw rel : hash_ok hash -> ratio_power pw rR -> (0 < rel)%Z -> exists F result, forall fuel, F <= fuel ->
  check_non_ye d N mc (M_Gates.SP hash fuel sm fm) l Y ratio hq hs fuel solver sched rel = Some result.
Proof.
  intros HH RP Hrel. destruct (link_paths_spec hash sm fm HH) as (F & sres & A & _ & B & C). destruct protos_exist as (protos & EP). set (L := filter (fun paths => negb (first_proto_in protos paths)) sres).
  assert (BL : forall ps, In ps L -> Forall2 (point_path d N [l] mc) [l] ps) by (intros ps Hps; apply filter_In in Hps; apply B, Hps). destruct (paths_curves L BL) as (fs & EF & HJ).
  destruct (seq_ends hq Hhq hs Hhs ratio rR pw d fs HJ RO RP solver sched rel 4%Z None Hsat Hrel ltac:(lia)) as (F' & r & ER). exists (Nat.max F F'), r. intros fuel Hf. unfold check_non_ye. rewrite EP, (A fuel) by lia. cbn [obind]. fold L. rewrite EF. cbn [obind]. apply ER. lia.
Qed.
Theorem ye_proto_spec hash sm fm : hash_ok hash -> forall fuel efuel rel result,
  check_ye_proto d N mc (M_Gates.SP hash fuel sm fm) l Y ratio hq hs efuel solver sched rel = Some result ->
  forall c, sc c -> has_gates d c [l] -> proto_image_of Y c -> image_of Y c \/ reported_bound rR result c.
Proof.
  intros HH fuel efuel rel result E c HC HG HI. destruct protos_exist as (protos & EP). unfold check_ye_proto in E. rewrite EP in E. cbn [obind] in E. destruct (link_paths _ _ _ _ _) as [sres|] eqn:A in E; [|discriminate]. cbn [obind] in E.
  destruct (link_paths_any hash sm fm fuel sres HH A) as (_ & B & C). destruct (Nat.eqb_spec (length (filter (first_proto_in protos) sres)) 1) as [EL|]; [|discriminate]. destruct changed_exist as (fs & EF & HJ). rewrite EF in E. cbn [obind] in E.
  assert (C' : forall qs, Forall2 (point_path d N [l] mc) [l] qs -> exists ps, In ps sres /\ same_paths d [l] qs ps) by (intros qs Hqs; destruct (C qs Hqs) as (ps & (P1 & P2) & _); eauto).
  destruct (class_image c sres HC HG B C') as (ps & f & b & I1 & I2 & I3 & I4 & I5). destruct (class_image Y sres HY GY B C') as (psY & fY & bY & J1 & J2 & J3 & J4 & J5).
  assert (TY : proto_image_of Y Y). { destruct (one_pattern Y HY) as (py & Y1 & _). exists py, py, (id_map d). rewrite dimY. split; auto. split; auto. split; [apply wf_id|]. symmetry. apply pr_mul_id. apply (proto_len Y py HY Y1). }
  assert (EQ : ps = psY).
  { assert (In ps (filter (first_proto_in protos) sres)) as Q1 by (apply filter_In; split; auto; apply (proto_test protos c ps b); auto). assert (In psY (filter (first_proto_in protos) sres)) as Q2 by (apply filter_In; split; auto; apply (proto_test protos Y psY bY); auto).
    destruct (filter (first_proto_in protos) sres) as [|a [|? ?]]; cbn in EL; try discriminate. destruct Q1 as [<-|[]], Q2 as [<-|[]]; auto. }
  subst psY. pose proof HC as [VC D1 D2 D3 _ _]. pose proof HY as [VY E1 E2 E3 _ _]. destruct (sc_image b c HC I3) as (V1 & V1d & V1n & V1m). destruct (sc_image bY Y HY J3) as (V2 & V2d & V2n & V2m).
  assert (W : wf_bm d (bm_inv bY)) by (apply wf_inv; auto). set (x := cv_mul_bm (bm_inv bY) (cv_mul_bm b c)).
  assert (Ex : x = cv_mul_bm (bm_mul (bm_inv bY) b) c) by (apply curve_action; rewrite ?D1; auto; apply valid_curve_fuzzy; auto).
  assert (EY : cv_mul_bm (bm_inv bY) (cv_mul_bm bY Y) = Y) by (apply (curve_action Y bY bY); rewrite ?E1; auto; apply valid_curve_fuzzy; auto).
  assert (Vx : valid_curve x) by (unfold x; apply mul_bm_valid; rewrite ?V1d; auto). assert (Mx : cv_mult x = 1) by (unfold x; rewrite mul_bm_mult; auto).
  assert (GP : get_paths x = get_paths Y).
  { rewrite <- EY. unfold x. set (c1 := cv_mul_bm b c) in *. set (Y1 := cv_mul_bm bY Y) in *. unfold cv_mul_bm. rewrite (image_paths c1 V1 (bm_inv bY)) with (ps := ps); [|rewrite V1d; auto|destruct V1 as (_ & _ & P & _); exact P|auto].
    rewrite (image_paths Y1 V2 (bm_inv bY)) with (ps := ps); [|rewrite V2d; auto|destruct V2 as (_ & _ & P & _); exact P|auto]. reflexivity. }
  destruct (changed_covers fs x EF Vx Mx GP) as [EQ|(f' & Hf' & HX)]; [left|right].
  - exists (bm_mul (bm_inv b) bY). rewrite E1. split; [apply wf_mul; auto using wf_inv|]. assert (EB : cv_mul_bm bY x = cv_mul_bm b c).
    { unfold x. pose proof (curve_action (cv_mul_bm b c) (bm_inv bY) (bm_inv bY)) as CA. rewrite V1d in CA. destruct (CA W W (valid_curve_fuzzy _ V1)) as (_ & _ & CA' & _). rewrite (inv_inv d) in CA' by auto. exact CA'. }
    rewrite EQ in EB. destruct (curve_action Y (bm_inv b) bY) as (CA & _); rewrite ?E1; auto using wf_inv, valid_curve_fuzzy. rewrite <- CA, EB. symmetry. apply (curve_action c b b); rewrite ?D1; auto. apply valid_curve_fuzzy; auto.
  - apply (seq_bound efuel fs rel result f' x c HJ E); auto. intros M. rewrite Ex. apply transfer; auto. apply wf_mul; auto.
Qed.
Theorem ye_proto_returns hash sm fm pw rel : hash_ok hash -> ratio_power pw rR -> (0 < rel)%Z ->
  (exists F sres protos, image_protos Y = Some protos /\ (forall fuel, F <= fuel -> link_paths d N mc (M_Gates.SP hash fuel sm fm) l = Some sres) /\ length (filter (first_proto_in protos) sres) = 1) ->
  exists F result, forall fuel, F <= fuel -> check_ye_proto d N mc (M_Gates.SP hash fuel sm fm) l Y ratio hq hs fuel solver sched rel = Some result.
Proof.
  intros HH RP Hrel (F & sres & protos & EP & A & EL). destruct changed_exist as (fs & EF & HJ).
  destruct (seq_ends hq Hhq hs Hhs ratio rR pw d fs HJ RO RP solver sched rel 4%Z None Hsat Hrel ltac:(lia)) as (F' & r & ER). exists (Nat.max F F'), r. intros fuel Hf. unfold check_ye_proto. rewrite EP, (A fuel) by lia. cbn [obind]. rewrite EL, EF. cbn [Nat.eqb obind]. apply ER. lia.
Qed.
(** with at least one curve there is a result *)
Lemma seq_some fuel fs rel result : Forall (joined_input d) fs -> fs <> [] -> estimate_dilation_sequence ratio hq hs fuel solver sched None fs rel 4 None = Some result -> exists r, result = Some r.
Proof.
  intros HJ HF E. assert (HF' : Forall (fuzzy_input d) fs) by (eapply Forall_impl; [|exact HJ]; intros a; apply joined_fuzzy).
  pose proof (seq_spec hq Hhq hs Hhs ratio rR d fuel solver sched None fs rel 4%Z None result HF' RO Hsat E) as HS. destruct result as [r|]; [eauto|]. destruct HS as [->|(u & E' & _)]; [congruence|discriminate].
Qed.
Lemma non_ye_some hash sm fm fuel efuel rel result : hash_ok hash -> (forall protos sres, image_protos Y = Some protos -> link_paths d N mc (M_Gates.SP hash fuel sm fm) l = Some sres -> exists ps, In ps sres /\ first_proto_in protos ps = false) ->
  check_non_ye d N mc (M_Gates.SP hash fuel sm fm) l Y ratio hq hs efuel solver sched rel = Some result -> exists r, result = Some r.
Proof.
  intros HH HO E. destruct protos_exist as (protos & EP). unfold check_non_ye in E. rewrite EP in E. cbn [obind] in E. destruct (link_paths _ _ _ _ _) as [sres|] eqn:A in E; [|discriminate]. cbn [obind] in E.
  destruct (link_paths_any hash sm fm fuel sres HH A) as (_ & B & C). set (L := filter _ sres) in E. assert (BL : forall ps, In ps L -> Forall2 (point_path d N [l] mc) [l] ps) by (intros ps Hps; apply filter_In in Hps; apply B, Hps).
  destruct (paths_curves L BL) as (fs & EF & HJ). rewrite EF in E. cbn [obind] in E. apply (seq_some efuel fs rel result HJ); auto.
  destruct (HO protos sres EP A) as (ps & H1 & H2). assert (HI : In ps L) by (apply filter_In; split; auto; rewrite H2; auto). intros ->. destruct L; [destruct HI|]. cbn in EF. destruct (init_from_paths _ _ _); [|discriminate]. destruct (omap _ _); discriminate.
Qed.
Lemma ye_proto_some hash sm fm fuel efuel rel result : changed_pcurves Y <> Some [] ->
  check_ye_proto d N mc (M_Gates.SP hash fuel sm fm) l Y ratio hq hs efuel solver sched rel = Some result -> exists r, result = Some r.
Proof.
  intros HC E. unfold check_ye_proto in E. destruct (image_protos Y) as [protos|]; [|discriminate]. cbn [obind] in E. destruct (link_paths _ _ _ _ _) as [sres|]; [|discriminate]. cbn [obind] in E. destruct (Nat.eqb _ _); [|discriminate].
  destruct changed_exist as (fs & EF & HJ). rewrite EF in E, HC. cbn [obind] in E. apply (seq_some efuel fs rel result HJ); auto. congruence.
Qed.
End Run.
End Cases.
