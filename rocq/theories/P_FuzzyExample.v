(** get_curve_example of the fuzzy curves a user can build; small facts used by T_Fuzzy. *)
From Verif Require Import Py L_Py L_Qc M_BaseMaps S_BaseMaps L_BaseMaps P_Actions P_GenMaps M_Subsets S_Subsets P_Subsets P_Points
  M_Paths M_Utils M_Curves M_Zoo S_Utils S_Curves S_Paths S_Fuzzy S_Junctions P_Combi P_CurveAct P_Core P_Bridge P_Paths P_Entrance P_Cont P_Check P_Subdiv
  P_Valid P_Fuzzy P_FuzzyInit P_FuzzyCurves P_FuzzyMain P_FuzzyOps P_FuzzyBuilt P_Templates P_TemplJunc.
From Coq Require Import Lia.
Local Open Scope nat_scope.

Lemma in_enum {A} (l : list A) i a : In (i, a) (enumerate l) <-> nth_error l i = Some a.
Proof.
  unfold enumerate, range. assert (H : forall n, In (i, a) (combine (seq n (length l)) l) <-> n <= i /\ nth_error l (i - n) = Some a).
  { induction l as [|b l IH]; intros n; cbn [length seq combine In].
    - split; [tauto|]. intros [_ E]. destruct (i - n); discriminate.
    - rewrite IH. split.
      + intros [E|[H1 H2]]; [injection E as <- <-; rewrite Nat.sub_diag; cbn; split; [lia|auto]|]. split; [lia|]. replace (i - n) with (S (i - S n)) by lia. auto.
      + intros [H1 H2]. destruct (Nat.eq_dec n i) as [->|Hn]; [left; rewrite Nat.sub_diag in H2; cbn in H2; congruence|]. right. split; [lia|]. replace (i - n) with (S (i - S n)) in H2 by lia. auto. }
  rewrite H. rewrite Nat.sub_0_r. split; [tauto|]. intros; split; [lia|auto].
Qed.
Lemma enum_fst {A} (l : list A) : map fst (enumerate l) = seq 0 (length l).
Proof. unfold enumerate, range. generalize 0. induction l; intros n; cbn; [auto|f_equal; auto]. Qed.
Lemma undefined_in specs k : In k (undefined_of specs) <-> nth_error specs k = Some None.
Proof.
  unfold undefined_of. rewrite in_flat_map. split.
  - intros ([i o] & A & B). apply in_enum in A. cbn in B. destruct o; [destruct B|]. destruct B as [<-|[]]. auto.
  - intros E. exists (k, None). split; [apply in_enum; auto|]. cbn. auto.
Qed.
Lemma undefined_nodup specs : NoDup (undefined_of specs).
Proof.
  unfold undefined_of. assert (H : forall l : list (nat * option spec), NoDup (map fst l) -> NoDup (flat_map (fun cs => match snd cs with Some _ => [] | None => [fst cs] end) l) /\ incl (flat_map (fun cs => match snd cs with Some _ => [] | None => [fst cs] end) l) (map fst l)).
  { induction l as [|[i o] l IH]; intros HN; [split; [constructor|intros x []]|]. cbn [map fst] in HN. inversion HN; subst. destruct (IH H2) as [A B]. cbn [flat_map snd fst map]. destruct o; cbn [app].
    - split; auto. intros x Hx. right. auto.
    - split; [constructor; auto|]. intros x [<-|Hx]; [left; auto|right; auto]. }
  apply H. rewrite enum_fst. apply seq_NoDup.
Qed.
Lemma omap_map_fst {A B} (f : A -> option (A * B)) l l' : (forall a b, f a = Some b -> fst b = a) -> omap f l = Some l' -> map fst l' = l.
Proof.
  intros H. revert l'. induction l as [|a l IH]; intros l'; cbn [omap]; [intros E; injection E as <-; auto|]. destruct (f a) as [b|] eqn:E; [|discriminate]. destruct (omap f l) as [r|]; [|discriminate]. intros X. injection X as <-. cbn. rewrite (H _ _ E). f_equal. apply IH. auto.
Qed.
Lemma omap_map_fst' {A B C} (g : A -> C) (f : A -> option (C * B)) l l' : (forall a b, f a = Some b -> fst b = g a) -> omap f l = Some l' -> map fst l' = map g l.
Proof.
  intros H. revert l'. induction l as [|a l IH]; intros l'; cbn [omap map]; [intros E; injection E as <-; auto|]. destruct (f a) as [b|] eqn:E; [|discriminate]. destruct (omap f l) as [r|]; [|discriminate]. intros X. injection X as <-. cbn. rewrite (H _ _ E). f_equal. apply IH. auto.
Qed.
Lemma nodup_filter_fst {A B} (f : A * B -> bool) l : NoDup (map fst l) -> NoDup (map fst (filter f l)).
Proof.
  induction l as [|a l IH]; cbn; auto. intros HN. inversion HN; subst. destruct (f a); cbn; auto. constructor; auto. intros Hin. apply H1. apply in_map_iff in Hin as (x & <- & Hx). apply filter_In in Hx as [Hx _]. apply in_map. auto.
Qed.
Lemma dget_in {K V} (keqb : K -> K -> bool) (H : eqb_ok keqb) (D : list (K * V)) k v : NoDup (map fst D) -> In (k, v) D -> dget keqb D k = Some v.
Proof.
  induction D as [|[k0 v0] D IH]; intros HN; [intros []|]. cbn [map fst] in HN. inversion HN; subst. cbn [dget]. intros [E|Hin].
  - injection E as -> ->. rewrite (proj2 (H k k) eq_refl). auto.
  - destruct (keqb k k0) eqn:E; auto. apply H in E. subst. exfalso. apply H2. apply (in_map fst) in Hin. auto.
Qed.

Lemma example_ok c : (forall p k, p < cv_mult c -> k < cv_genus c -> exists l, gen_allowed_specs c p k = Some l /\ l <> []) ->
  Forall (fun pat => length (pat_specs pat) = cv_genus c) (cv_pats c) -> cv_kind c <> KFuzzy ->
  exists e, get_curve_example c = Some e /\ same_frame c e /\
    forall p k, p < cv_mult c -> k < cv_genus c -> exists s l, get_spec e p k = Some (Some s) /\ gen_allowed_specs c p k = Some l /\ In s l.
Proof.
  intros HA HL HK. unfold get_curve_example.
  set (inner := fun p cnum => match gen_allowed_specs c p cnum with Some (s :: _) => Some (cnum, s) | _ => None end).
  set (pats := filter _ (enumerate (cv_pats c))).
  assert (PIN : forall p pat, In (p, pat) pats -> nth_error (cv_pats c) p = Some pat /\ p < cv_mult c /\ length (pat_specs pat) = cv_genus c).
  { intros p pat H. apply filter_In in H as [H _]. apply in_enum in H. split; auto. split; [unfold cv_mult; apply nth_error_Some; congruence|]. rewrite Forall_forall in HL. apply HL. apply nth_error_In with p; auto. }
  assert (IN : forall p pat, In (p, pat) pats -> exists u, omap (inner p) (undefined_of (pat_specs pat)) = Some u).
  { intros p pat H. apply PIN in H as (E & Hp & Hl). apply omap_some_all. intros k Hk. apply undefined_in in Hk. assert (k < cv_genus c) by (rewrite <- Hl; apply nth_error_Some; congruence).
    destruct (HA p k Hp H) as (l & A & B). unfold inner. rewrite A. destruct l; [congruence|eauto]. }
  destruct (omap_some_all (fun pp : nat * pattern => option_map (pair (fst pp)) (omap (fun cnum => match gen_allowed_specs c (fst pp) cnum with Some (s :: _) => Some (cnum, s) | _ => None end) (undefined_of (pat_specs (snd pp))))) pats) as (D & ED).
  { intros [p pat] H. cbn [fst snd]. destruct (IN p pat H) as (u & E). unfold inner in E. rewrite E. cbn. eauto. }
  rewrite ED. cbn [obind].
  assert (FD : map fst D = map fst pats). { apply (omap_map_fst' fst _ _ _) in ED; auto. intros [p pat] b. cbn [fst snd]. destruct (omap _ (undefined_of _)); [|discriminate]. cbn. intros E. injection E as <-. auto. }
  assert (ND : NoDup (map fst D)). { rewrite FD. apply nodup_filter_fst. rewrite enum_fst. apply seq_NoDup. }
  assert (DIN : forall p u, In (p, u) D <-> exists pat, In (p, pat) pats /\ omap (inner p) (undefined_of (pat_specs pat)) = Some u).
  { intros p u. split.
    - intros H. apply In_nth_error in H as (i & Hi). destruct (omap_nth' _ _ _ _ _ ED Hi) as ([p0 pat] & A & B). cbn [fst snd] in B. destruct (omap _ (undefined_of _)) as [u0|] eqn:EO; [|discriminate]. cbn in B. injection B as -> ->. exists pat. split; [apply nth_error_In with i; auto|]. exact EO.
    - intros (pat & H & EO). apply In_nth_error in H as (i & Hi). destruct (omap_nth _ _ _ _ _ ED Hi) as (b & A & B). cbn [fst snd] in B. unfold inner in EO. rewrite EO in B. cbn in B. injection B as <-. apply nth_error_In with i; auto. }
  assert (UN : forall p pat u, omap (inner p) (undefined_of (pat_specs pat)) = Some u -> map fst u = undefined_of (pat_specs pat)).
  { intros p pat u E. apply omap_map_fst in E; auto. intros a b. unfold inner. destruct (gen_allowed_specs c p a) as [[|s l]|]; try discriminate. intros X. injection X as <-. auto. }
  destruct (specify_allowed_ok D c ND) as (e & E1 & E2 & E3).
  { intros p u H. apply DIN in H as (pat & H & EO). pose proof (UN _ _ _ EO) as EU. split; [rewrite EU; apply undefined_nodup|]. destruct (PIN p pat H) as (E & _). exists pat. split; auto.
    apply Forall_forall. intros [k s] Hin. cbn. apply (in_map fst) in Hin. rewrite EU in Hin. cbn in Hin. apply undefined_in in Hin. apply nth_error_Some. congruence. }
  exists e. split; auto. split; auto. intros p k Hp Hk. rewrite E3. unfold lookup2.
  destruct (nth_error (cv_pats c) p) as [pat|] eqn:EP; [|apply nth_error_None in EP; unfold cv_mult in Hp; lia].
  assert (Hl : length (pat_specs pat) = cv_genus c) by (rewrite Forall_forall in HL; apply HL; apply nth_error_In with p; auto).
  destruct (nth_error (pat_specs pat) k) as [[s|]|] eqn:ES; [| |apply nth_error_None in ES; lia].
  - exists s, [s]. assert (GS : get_spec c p k = Some (Some s)) by (unfold get_spec; rewrite EP; auto).
    assert (NL : match dget Nat.eqb D p with Some u => dget Nat.eqb u k | None => None end = None).
    { destruct (dget Nat.eqb D p) as [u|] eqn:EU; auto. apply (dget_In _ nat_eqb_ok) in EU. apply DIN in EU as (pat' & H & EO). destruct (PIN p pat' H) as (E & _). assert (pat' = pat) by congruence. subst pat'.
      destruct (dget Nat.eqb u k) as [s'|] eqn:EK; auto. exfalso. apply (dget_In _ nat_eqb_ok) in EK. apply (in_map fst) in EK. rewrite (UN _ _ _ EO) in EK. cbn in EK. apply undefined_in in EK. congruence. }
    rewrite NL. split; auto. unfold gen_allowed_specs. rewrite GS. split; [destruct (cv_kind c); congruence|left; auto].
  - assert (HI : In (p, pat) pats).
    { apply filter_In. split; [apply in_enum; auto|]. cbn [snd]. assert (In k (undefined_of (pat_specs pat))) by (apply undefined_in; auto). destruct (undefined_of (pat_specs pat)); [destruct H|auto]. }
    destruct (IN p pat HI) as (u & EO). assert (HD : In (p, u) D) by (apply DIN; eauto). rewrite (dget_in _ nat_eqb_ok D p u ND HD).
    assert (HU : In k (undefined_of (pat_specs pat))) by (apply undefined_in; auto). apply In_nth_error in HU as (i & Hi). destruct (omap_nth _ _ _ _ _ EO Hi) as ([k' s] & A & B).
    destruct (HA p k Hp Hk) as (l & L1 & L2). unfold inner in B. rewrite L1 in B. destruct l as [|s0 l]; [congruence|]. injection B as <- <-. exists s0, (s0 :: l).
    rewrite (dget_in _ nat_eqb_ok u k s0); [|rewrite (UN _ _ _ EO); apply undefined_nodup|apply nth_error_In with i; auto]. cbn. auto.
Qed.
Theorem built_example d N group dtr paths c : valid_group d group -> valid_paths d N paths -> built group dtr paths c ->
  exists e, get_curve_example c = Some e /\ cv_dim e = cv_dim c /\ cv_div e = cv_div c /\ cv_pnum e = cv_pnum c /\ map pat_proto (cv_pats e) = map pat_proto (cv_pats c) /\
    forall p k, p < cv_mult c -> k < cv_genus c -> exists s l, get_spec e p k = Some (Some s) /\ gen_allowed_specs c p k = Some l /\ In s l.
Proof.
  intros HG HP HB. destruct (example_ok c) as (e & E & (S1 & S2 & S3 & S4 & S5 & S6) & H).
  - apply (built_A d N group dtr paths HG HP c HB).
  - apply (built_len d N group dtr paths HG HP c HB).
  - destruct (built_A d N group dtr paths HG HP c HB 0 0) as (l & A & _).
    + destruct (built_good d N group dtr paths HG HP c HB) as ((_ & _ & V & _) & _). lia.
    + pose proof (built_G2 d N group dtr paths HG HP c HB). lia.
    + unfold gen_allowed_specs in A. intros E. rewrite E in A. discriminate.
  - exists e. repeat split; auto.
Qed.
Lemma built_same d N group dtr paths c : valid_group d group -> valid_paths d N paths -> built group dtr paths c ->
  cv_dim c = d /\ cv_div c = N /\ cv_mult c = length paths /\ valid_fuzzy c.
Proof. intros HG HP HB. destruct (built_good d N group dtr paths HG HP c HB) as (A & _ & B & C & D & _). auto. Qed.
Lemma built_allowed_mul d N group dtr paths c b q p k : valid_group d group -> valid_paths d N paths -> built group dtr paths c -> wf_bm d b -> p < cv_mult c -> k < cv_genus c ->
  exists l, gen_allowed_specs c p (flip_num b (cv_genus c) k) = Some l /\
    gen_allowed_specs (cv_mul_sp (Sp b q) c) p k = Some (map (fun s => Sp (bm_mul (bm_mul b (sp_bm s)) (bm_inv b)) (sp_pnum s)) l).
Proof.
  intros HG HP HB Hb Hp Hk. pose proof (built_good d N group dtr paths HG HP c HB) as (V & DO & E1 & _ & _ & _ & A). rewrite <- E1 in Hb.
  destruct (A p (flip_num b (cv_genus c) k) Hp) as (l & L & _ & _ & LW); [apply flip_lt; auto|]. exists l. split; auto.
  unfold cv_mul_sp. cbn [sp_bm sp_pnum]. rewrite (allowed_mul c V DO b Hb q p k Hp Hk), L. cbn [option_map]. f_equal. apply map_ext_in. intros s Hs. destruct (LW s Hs) as [W _]. rewrite <- E1 in W.
  unfold sp_conj. f_equal. apply (conj_cube (cv_dim c)); auto.
Qed.
Lemma specified_allowed c p k s : cv_kind c <> KFuzzy -> get_spec c p k = Some (Some s) -> gen_allowed_specs c p k = Some [s].
Proof. intros HK E. unfold gen_allowed_specs. rewrite E. destruct (cv_kind c); congruence. Qed.
Lemma usable_all d b : usable d None false b <-> wf_bm d b.
Proof. unfold usable. split; [tauto|]. intros. repeat split; auto; try discriminate; apply H. Qed.
Lemma forget_possible x group dtr : valid_curve x -> valid_group (cv_dim x) group -> (forall p k s, get_spec x p k = Some (Some s) -> usable (cv_dim x) group dtr (sp_bm s)) -> cv_pnum x = 0 ->
  exists f l, forget x group dtr = Some f /\ gen_possible_curves f = Some l /\ In x l.
Proof.
  intros HC HG HU H0. destruct (forget_chosen x HC group dtr HG HU) as (f & l & A & B & C). exists f, l. split; auto. split; auto.
  replace (pattern_curve x 0) with x in C; auto. destruct x. cbn in *. subst. reflexivity.
Qed.
Lemma specify_frame c p k s c' : specify c p k s = Some c' ->
  cv_dim c' = cv_dim c /\ cv_div c' = cv_div c /\ cv_pnum c' = cv_pnum c /\ map pat_proto (cv_pats c') = map pat_proto (cv_pats c) /\
  (get_spec c' p k = Some (Some s) /\ gen_allowed_specs c' p k = Some [s]) /\
  forall p' k', (p', k') <> (p, k) -> get_spec c' p' k' = get_spec c p' k' /\ gen_allowed_specs c' p' k' = gen_allowed_specs c p' k'.
Proof.
  intros E. destruct (specify_keeps c p k s c' E) as (E1 & E2 & E3 & E4 & E5 & E6 & E7). pose proof (specify_allowed_specs c p k s c' E) as EA.
  do 4 (split; auto). split.
  - rewrite E7, EA, !Nat.eqb_refl. auto.
  - intros p' k' Hn. rewrite E7, EA. destruct (Nat.eqb_spec p p'); cbn [andb]; auto. destruct (Nat.eqb_spec k k'); auto. congruence.
Qed.
