(** Fractions of (fuzzy) curves as the estimator handles them: positions, division, the curves chosen from a fuzzy curve. *)
From Verif Require Import Py L_Py L_Qc M_BaseMaps S_BaseMaps L_BaseMaps P_Actions M_Subsets S_Subsets P_Subsets P_Facets
  M_Paths M_Curves M_Utils M_Heap M_Sat M_Dilation S_Utils S_Curves S_Fuzzy P_CurveAct L_Digits P_Core P_Bridge P_Subdiv P_Faces P_Check P_FuzzyInit P_FuzzyCurves P_FuzzyOps P_FuzzyBuilt
  P_Cont S_Ratio S_Dilation P_Entrance P_JuncMain P_DilGeo P_DilRatio P_DilBounds.
From Coq Require Import Reals.
Local Open Scope nat_scope.

(** Curves the estimator can work with. *)
Notation dcls := estimable.

Lemma dcls_curve c : valid_curve c -> dcls c.
Proof.
  intros HC. split; [apply valid_curve_fuzzy; auto|]. intros p k Hp Hk. destruct (all_defined c HC p k Hp Hk) as [s E]. exists [s].
  pose proof HC as (_ & _ & _ & EK & _). unfold gen_allowed_specs. rewrite EK, E. repeat split; auto; try discriminate; try (constructor; auto; constructor); destruct (nth_spec_wf c (valid_curve_fuzzy c HC) p k s E) as (W & _); destruct H as [<-|[]]; apply W.
Qed.
Lemma chosen_self c : valid_curve c -> chosen_from c c.
Proof.
  intros HC. pose proof HC as (_ & _ & _ & EK & HF). repeat (split; auto).
  - revert HF. apply Forall_impl. intros pat (_ & H & _). exact H.
  - intros p k Hp Hk. destruct (all_defined c HC p k Hp Hk) as [s E]. exists s, [s]. unfold gen_allowed_specs. rewrite EK, E. repeat split; auto. left; auto.
Qed.
Lemma specify_in c p k s c' : specify c p k s = Some c' -> exists l, gen_allowed_specs c p k = Some l /\ In s l.
Proof.
  intros E. unfold specify in E. destruct (gen_allowed_specs c p k) as [l|]; [|discriminate]. destruct (memb spec_eqb s l) eqn:EM; [|discriminate]. apply (memb_In _ spec_eqb_ok) in EM. eauto.
Qed.
Lemma dcls_specify c p k s c' : dcls c -> p < cv_mult c -> k < cv_genus c -> specify c p k s = Some c' -> dcls c'.
Proof.
  intros (V & A) Hp Hk ES. destruct (specify_keeps c p k s c' ES) as (F1 & F2 & F3 & F4 & F5 & F6 & F7). destruct (specify_genus c p k s c' ES) as [EG EM].
  destruct (specify_in c p k s c' ES) as (l & EL & Hin). destruct (A p k Hp Hk) as (l' & A1 & A2 & A3 & A4). assert (l' = l) by congruence. subst l'. pose proof (A4 s Hin) as Ws.
  split.
  - destruct V as (V1 & V2 & V3 & V4 & V5). unfold valid_fuzzy. rewrite F1, F2, F3, F4, EM. repeat (split; auto). apply Forall_forall. intros pat' Hp'.
    apply In_nth_error in Hp' as (i & Hi). pose proof (f_equal (fun l => nth_error l i) F5) as G5. pose proof (f_equal (fun l => nth_error l i) F6) as G6. cbn in G5, G6.
    rewrite !nth_error_map, Hi in G5, G6. destruct (nth_error (cv_pats c) i) as [pat|] eqn:Ei; [|discriminate]. cbn in G5, G6. rewrite Forall_forall in V5.
    destruct (V5 pat (nth_error_In _ _ Ei)) as (W1 & W2 & W3). injection G5 as G5. injection G6 as G6. split; [rewrite G5; auto|]. split; [congruence|].
    apply Forall_forall. intros os Hos s' ->. apply In_nth_error in Hos as (j & Hj). specialize (F7 i j). unfold get_spec in F7. rewrite Hi, Hj, Ei in F7.
    destruct (Nat.eqb p i && Nat.eqb k j); [injection F7 as ->; auto|]. rewrite Forall_forall in W3. apply (W3 (Some s')); auto. apply nth_error_In with j; auto.
  - rewrite EG, EM, F2. intros p' k' Hp' Hk'. rewrite (specify_allowed_specs c p k s c' ES). destruct (Nat.eqb p p' && Nat.eqb k k'); auto. exists [s]. repeat split; auto.
    + constructor; auto. constructor.
    + discriminate.
    + destruct H as [<-|[]]. apply Ws.
    + destruct H as [<-|[]]. apply Ws.
Qed.
Lemma dcls_chosen c x : dcls c -> chosen_from c x -> valid_curve x.
Proof.
  intros (V & A) (K1 & K2 & K3 & K4 & K5 & K6 & K7). destruct V as (V1 & V2 & V3 & V4 & V5).
  assert (EM : cv_mult x = cv_mult c) by (unfold cv_mult; rewrite <- (map_length pat_proto (cv_pats x)), K5, map_length; auto).
  unfold valid_curve. rewrite K2, K3, K4, EM. repeat (split; auto). apply Forall_forall. intros pat Hp. apply In_nth_error in Hp as (i & Hi).
  assert (Hi' : i < cv_mult c) by (rewrite <- EM; unfold cv_mult; apply nth_error_Some; congruence).
  pose proof (f_equal (fun l => nth_error l i) K5) as G5. cbn in G5. rewrite !nth_error_map, Hi in G5. destruct (nth_error (cv_pats c) i) as [pat'|] eqn:Ei; [|discriminate]. injection G5 as G5.
  rewrite Forall_forall in V5. destruct (V5 pat' (nth_error_In _ _ Ei)) as (W1 & W2 & W3). rewrite Forall_forall in K6. pose proof (K6 pat (nth_error_In _ _ Hi)) as HL.
  split; [rewrite G5; auto|]. split; auto. apply Forall_forall. intros os Hos. apply In_nth_error in Hos as (k & Hk).
  assert (Hk' : k < cv_genus c) by (rewrite <- HL; apply nth_error_Some; congruence). destruct (K7 i k Hi' Hk') as (s & l & S1 & S2 & S3).
  exists s. unfold get_spec in S1. rewrite Hi, Hk in S1. split; [congruence|]. destruct (A i k Hi' Hk') as (l' & A1 & A2 & A3 & A4). apply A4. congruence.
Qed.
Lemma chosen_genus c x : chosen_from c x -> cv_genus x = cv_genus c /\ cv_mult x = cv_mult c /\ cv_dim x = cv_dim c /\ cv_div x = cv_div c.
Proof.
  intros (K1 & K2 & K3 & K4 & K5 & K6 & K7). unfold cv_genus, cv_mult. rewrite K2, K3. rewrite <- (map_length pat_proto (cv_pats x)), K5, map_length. auto.
Qed.
Lemma chosen_consistent c x : dcls c -> chosen_from c x -> consistent c x.
Proof.
  intros (V & A) (K1 & K2 & K3 & K4 & K5 & K6 & K7) p k s E. destruct (nth_spec_wf c V p k s E) as (_ & Hk & Hp).
  destruct (K7 p k Hp Hk) as (s' & l & S1 & S2 & S3). unfold gen_allowed_specs in S2. rewrite E in S2. assert (l = [s]) by (destruct (cv_kind c); congruence). subst l.
  destruct S3 as [<-|[]]. auto.
Qed.

(** Two curves with the same frame agree along defined specs. *)
Definition sub_curve (c x : curve) : Prop := cv_dim x = cv_dim c /\ cv_div x = cv_div c /\ cv_mult x = cv_mult c /\
  map pat_proto (cv_pats x) = map pat_proto (cv_pats c) /\ consistent c x.
Lemma chosen_sub c x : dcls c -> chosen_from c x -> sub_curve c x.
Proof. intros HD HX. destruct (chosen_genus c x HX) as (E1 & E2 & E3 & E4). repeat (split; auto). apply HX. apply chosen_consistent; auto. Qed.
Lemma specify_sub c p k s c' : specify c p k s = Some c' -> sub_curve c c'.
Proof.
  intros ES. destruct (specify_keeps c p k s c' ES) as (F1 & F2 & F3 & F4 & F5 & F6 & F7). destruct (specify_genus c p k s c' ES) as [EG EM].
  repeat (split; auto). intros p' k' s' E. rewrite F7. destruct (Nat.eqb_spec p p'); auto. destruct (Nat.eqb_spec k k'); auto. subst. cbn.
  destruct (specify_in c _ _ s c' ES) as (l & EL & Hin). unfold gen_allowed_specs in EL. rewrite E in EL. assert (l = [s']) by (destruct (cv_kind c); congruence). subst l. destruct Hin as [->|[]]; auto.
Qed.
Section Sub.
Context (c x : curve) (HS : sub_curve c x).
Lemma sub_flip b k : kflip (core_of x) b k = kflip (core_of c) b k.
Proof. destruct HS as (E1 & E2 & _). unfold kflip, kG, core_of. cbn. rewrite E1, E2. auto. Qed.
Lemma sub_cube p k : kcube (core_of x) p k = kcube (core_of c) p k.
Proof.
  destruct HS as (E1 & E2 & E3 & E4 & _). cbn. pose proof (f_equal (fun l => nth_error l p) E4) as G. cbn in G. rewrite !nth_error_map in G. rewrite E1.
  destruct (nth_error (cv_pats x) p), (nth_error (cv_pats c) p); cbn in G; try discriminate; auto. injection G as ->. auto.
Qed.
Lemma sub_kcb X k : kcb (core_of x) X k = kcb (core_of c) X k.
Proof. unfold kcb. rewrite sub_flip, sub_cube. destruct HS as (E1 & E2 & _). cbn [kN core_of]. rewrite E2. auto. Qed.
Lemma sub_spec p k : defined_at c p k -> defined_at x p k /\ kspec (core_of x) p k = kspec (core_of c) p k.
Proof. intros [s E]. destruct HS as (_ & _ & _ & _ & HC). pose proof (HC p k s E) as E'. split; [exists s; auto|]. cbn. rewrite E, E'. auto. Qed.
Lemma sub_along cs : forall X, defined_along c X cs -> defined_along x X cs /\ kst (core_of x) X cs = kst (core_of c) X cs /\ kcubes (core_of x) X cs = kcubes (core_of c) X cs.
Proof.
  induction cs as [|k cs IH]; intros X; cbn [defined_along kst kcubes]; auto. intros [H1 H2]. destruct (sub_spec _ _ H1) as [H3 H4].
  assert (E : kstep (core_of x) X k = kstep (core_of c) X k) by (unfold kstep; rewrite sub_flip, H4; auto). destruct (IH _ H2) as (I1 & I2 & I3).
  rewrite sub_flip, E, sub_kcb. repeat split; auto; congruence.
Qed.
Lemma sub_cubes cs k X : defined_along c X cs -> kcubes (core_of x) X (cs ++ [k]) = kcubes (core_of c) X (cs ++ [k]).
Proof.
  intros H. rewrite !kcubes_app. destruct (sub_along cs X H) as (_ & E1 & E2). rewrite E1, E2. cbn. rewrite sub_kcb. auto.
Qed.
Lemma sub_G : kG (core_of x) = kG (core_of c).
Proof. destruct HS as (E1 & E2 & _). unfold kG. cbn. rewrite E1, E2. auto. Qed.
End Sub.
Lemma sub_trans a b c : sub_curve a b -> sub_curve b c -> sub_curve a c.
Proof. intros (A1 & A2 & A3 & A4 & A5) (B1 & B2 & B3 & B4 & B5). repeat split; try congruence. intros p k s E. auto. Qed.
Lemma defined_app c cs cs' : forall X, defined_along c X (cs ++ cs') <-> defined_along c X cs /\ defined_along c (kst (core_of c) X cs) cs'.
Proof. induction cs as [|k cs IH]; intros X; cbn [app defined_along kst]; [tauto|]. rewrite IH. tauto. Qed.

(** A fraction of the pattern p, known by its number; all specs but the last one are defined. *)
Definition piece_ok (c : curve) (p : nat) (pos : position) : Prop :=
  p < cv_mult c /\ pos_ok (core_of c) p pos /\
  exists init lst, po_cnums pos = init ++ [lst] /\ defined_along c (Sp (id_map (cv_dim c)) p) init.
Lemma pos_ok_sub c x p pos init lst : sub_curve c x -> po_cnums pos = init ++ [lst] -> defined_along c (Sp (id_map (cv_dim c)) p) init ->
  pos_ok (core_of c) p pos -> pos_ok (core_of x) p pos.
Proof.
  intros HS E HD (H1 & H2 & H3 & H4). pose proof HS as (E1 & E2 & _). unfold pos_ok. cbn [kd kN core_of] in *. rewrite E1, E2. repeat (split; auto).
  - unfold wfc in *. rewrite (sub_G c x HS). auto.
  - rewrite H4, E. symmetry. apply (sub_cubes c x HS); auto.
Qed.
Lemma piece_sub c x p pos : sub_curve c x -> piece_ok c p pos -> piece_ok x p pos.
Proof.
  intros HS (Hp & HO & init & lst & E & HD). pose proof HS as (E1 & E2 & E3 & _). split; [lia|]. split; [eapply pos_ok_sub; eauto|].
  exists init, lst. split; auto. rewrite E1. apply (sub_along c x HS); auto.
Qed.
Lemma deep_def c : valid_fuzzy c -> forall cs X, wfS (core_of c) X -> wfc (core_of c) cs -> defined_along c X cs ->
  fold_left (fun s cnum => obind s (fun s => compose_specs c s cnum)) (map Z.of_nat cs) (Some X) = Some (kst (core_of c) X cs).
Proof.
  intros HV. induction cs as [|k cs IH]; intros X HX Hc HD; cbn [map fold_left kst]; auto. inversion Hc; subst. destruct HD as [H3 H4].
  unfold obind at 2. rewrite compose_eq by auto. apply IH; auto. apply kstep_wf; auto. apply full_ok, core_of_full; auto.
Qed.
Lemma fproto_list c X pat : valid_fuzzy c -> wf_spec (cv_dim c) (cv_mult c) X -> nth_error (cv_pats c) (sp_pnum X) = Some pat ->
  pr_cubes (pr_mul (sp_bm X) (pat_proto pat)) = map (fun k => Some (kcb (core_of c) X k)) (seq 0 (cv_genus c)).
Proof.
  intros HV HX Ep. apply list_as_map.
  - unfold pr_mul. cbn [pr_cubes]. rewrite map_length. destruct (time_rev (sp_bm X)); rewrite ?rev_length; apply (cubes_length c HV _ _ Ep).
  - intros k Hk. apply (pat_mul_cube c HV); auto.
Qed.

(** Division *)
Lemma concat_prod {A B C} (f : A -> B -> C) (l : list B) : forall la, concat (map (fun a => map (f a) l) la) = map (fun ab => f (fst ab) (snd ab)) (list_prod la l).
Proof. induction la as [|a la IH]; cbn; auto. rewrite IH, map_app, map_map. auto. Qed.
Lemma NoDup_prod {A B} (l : list B) : NoDup l -> forall la : list A, NoDup la -> NoDup (list_prod la l).
Proof.
  intros HB. induction la as [|a la IH]; intros HA; cbn; [constructor|]. inversion HA; subst. apply NoDup_app_intro; auto.
  - apply NoDup_map_inj; auto. intros x y E. congruence.
  - intros [a' b] H H'. apply in_map_iff in H as (b' & E & _). injection E as -> ->. apply in_prod_iff in H' as [H' _]. auto.
Qed.
Definition spec_next (c : curve) (p k : nat) (s : spec) : curve := match specify c p k s with Some c' => c' | None => c end.
Section Divide.
Context (c : curve) (HD : dcls c) (p : nat) (pos : position) (HP : piece_ok c p pos).
Let HV : valid_fuzzy c := proj1 HD.
Let HF : core_full (core_of c) := core_of_full c HV.
Notation K := (core_of c). Notation d := (cv_dim c). Notation G := (cv_genus c).
Lemma divide_eq : exists S orig specs, wfS K S /\ orig < G /\ gen_allowed_specs c (sp_pnum S) orig = Some specs /\ NoDup specs /\
  piece_divide c p pos = Some (map (fun sk => (spec_next c (sp_pnum S) orig (fst sk), po_specify pos (snd sk) (kcb K (bm_mul_sp (sp_bm S) (fst sk)) (snd sk)))) (list_prod specs (seq 0 G))) /\
  forall s, In s specs -> let c' := spec_next c (sp_pnum S) orig s in specify c (sp_pnum S) orig s = Some c' /\ dcls c' /\ sub_curve c c' /\
    (forall x, chosen_from c' x <-> chosen_from c x /\ get_spec x (sp_pnum S) orig = Some (Some s)) /\
    defined_along c' (Sp (id_map d) p) (po_cnums pos) /\ kst (core_of c') (Sp (id_map d) p) (po_cnums pos) = bm_mul_sp (sp_bm S) s.
Proof.
  pose proof HP as (Hp & (O1 & O2 & O3 & O4) & init & lst & E & Hdef). pose proof (full_ok K HF) as HK.
  rewrite E in O3. apply Forall_app in O3 as [O3 O3']. inversion O3' as [|? ? Hl _]; subst.
  set (X0 := Sp (id_map d) p) in *. assert (HX0 : wfS K X0) by (apply (fwfS_id c); auto).
  set (S := kst K X0 init). assert (HS : wfS K S) by (apply kst_wf; auto). exists S, (kflip K (sp_bm S) lst).
  assert (Ho : kflip K (sp_bm S) lst < G) by (apply (kflip_lt K); auto).
  destruct (proj2 HD (sp_pnum S) _ (proj2 HS) Ho) as (specs & A1 & A2 & A3 & A4). exists specs. split; auto. split; auto. split; auto. split; auto.
  assert (HC : forall s, In s specs -> let c' := spec_next c (sp_pnum S) (kflip K (sp_bm S) lst) s in specify c (sp_pnum S) (kflip K (sp_bm S) lst) s = Some c').
  { intros s Hs. unfold spec_next. destruct (specify c (sp_pnum S) (kflip K (sp_bm S) lst) s) eqn:ES; auto. exfalso. apply (specify_raises c _ _ s) in ES. apply ES. eauto. }
  split.
  - unfold piece_divide. rewrite E, rev_app_distr. cbn [rev app]. rewrite rev_involutive. unfold get_deep_spec. fold X0. rewrite deep_def by auto. fold S.
    assert (EI : apply_cnum (sp_bm S) (Z.of_nat G) (Z.of_nat lst) = Z.of_nat (kflip K (sp_bm S) lst)).
    { unfold apply_cnum, kflip. rewrite kG_genus. rewrite kG_genus in Hl. destruct (time_rev (sp_bm S)); lia. }
    rewrite EI. rewrite (proj2 (Z.ltb_ge _ _)) by lia. rewrite Nat2Z.id, A1.
    rewrite (omap_ext_in _ (fun s => Some (map (fun k => (spec_next c (sp_pnum S) (kflip K (sp_bm S) lst) s, po_specify pos k (kcb K (bm_mul_sp (sp_bm S) s) k))) (seq 0 G)))).
    + rewrite omap_some_map. cbn [option_map]. f_equal. apply (concat_prod (fun s k => (spec_next c (sp_pnum S) (kflip K (sp_bm S) lst) s, po_specify pos k (kcb K (bm_mul_sp (sp_bm S) s) k)))).
    + intros s Hs. rewrite (HC s Hs). destruct (nth_pat c HV (sp_pnum s) (proj2 (A4 s Hs))) as (pat & Ep & _). rewrite Ep.
      assert (WS : wf_spec d (cv_mult c) (bm_mul_sp (sp_bm S) s)) by (split; [apply wf_mul; [exact (proj1 HS)|exact (proj1 (A4 s Hs))]|exact (proj2 (A4 s Hs))]).
      change (bm_mul (sp_bm S) (sp_bm s)) with (sp_bm (bm_mul_sp (sp_bm S) s)). rewrite (fproto_list c _ pat HV WS Ep), enum_map_seq, omap_map'. cbn [option_map fst snd]. rewrite omap_some_map. auto.
  - intros s Hs c'. specialize (HC s Hs). fold c' in HC. cbn zeta in HC. pose proof (specify_sub _ _ _ _ _ HC) as SB. split; auto. split; [exact (dcls_specify c _ _ s c' HD (proj2 HS) Ho HC)|]. split; auto.
    split; [intros x; exact (specify_chosen c _ _ s c' x (proj2 HS) Ho HC)|].
    destruct (sub_along c c' SB init X0 Hdef) as (D1 & D2 & D3). rewrite E.
    destruct (specify_keeps _ _ _ _ _ HC) as (_ & _ & _ & _ & _ & _ & F7). specialize (F7 (sp_pnum S) (kflip K (sp_bm S) lst)). rewrite !Nat.eqb_refl in F7. cbn [andb] in F7.
    rewrite kst_app, D2. fold S. cbn [kst]. split.
    + apply defined_app. split; auto. rewrite D2. fold S. cbn [defined_along]. split; auto. exists s. rewrite (sub_flip c c' SB). auto.
    + unfold kstep. rewrite (sub_flip c c' SB). f_equal. cbn [kspec core_of]. rewrite F7. auto.
Qed.
(** Children: every one is a fraction of the divided one; for a curve chosen from c they are exactly the G fractions. *)
Definition child_ok (cp : curve * position) : Prop := dcls (fst cp) /\ sub_curve c (fst cp) /\ piece_ok (fst cp) p (snd cp) /\
  defined_along (fst cp) (Sp (id_map d) p) (po_cnums pos) /\ (forall x, chosen_from (fst cp) x -> chosen_from c x) /\
  (exists q k s, q < cv_mult c /\ k < G /\ specify c q k s = Some (fst cp)) /\
  exists k cube, k < G /\ snd cp = po_specify pos k cube.
Theorem divide_ok : exists l, piece_divide c p pos = Some l /\ Forall child_ok l /\
  forall x k, chosen_from c x -> k < G -> exists i cp, nth_error l i = Some cp /\ chosen_from (fst cp) x /\ po_cnums (snd cp) = po_cnums pos ++ [k] /\
    forall i' cp', nth_error l i' = Some cp' -> chosen_from (fst cp') x -> po_cnums (snd cp') = po_cnums pos ++ [k] -> i' = i.
Proof.
  destruct divide_eq as (S & orig & specs & HS & Ho & EL & ND & ED & HC). eexists. split; [exact ED|]. split.
  - apply Forall_forall. intros cp Hcp. apply in_map_iff in Hcp as ([s k] & <- & Hin). apply in_prod_iff in Hin as [Hs Hk]. apply in_seq in Hk. cbn [fst snd].
    destruct (HC s Hs) as (C1 & C2 & C3 & C4 & C5 & C6). set (c' := spec_next c (sp_pnum S) orig s) in *. unfold child_ok. cbn [fst snd].
    split; auto. split; auto. split; [|split; [auto|split; [intros x Hx; apply C4; auto|split; [exists (sp_pnum S), orig, s; split; [apply HS|auto]|exists k; eexists; split; [lia|reflexivity]]]]].
    destruct (piece_sub c c' p pos C3 HP) as (Q1 & (O1 & O2 & O3 & O4) & init & lst & E & Hdef). pose proof C3 as (E1 & E2 & _).
    split; auto. split.
    + unfold pos_ok, po_specify. cbn [po_dim po_div po_cnums po_cubes]. repeat (split; auto).
      * apply Forall_app. split; auto. constructor; auto. rewrite (sub_G c c' C3). change (kG K) with G. lia.
      * rewrite kcubes_app, O4. f_equal. cbn [kcubes]. rewrite (sub_kcb c c' C3). cbn [kd core_of]. rewrite E1, C6. auto.
    + exists (po_cnums pos), k. split; auto. rewrite E1. auto.
  - intros x k Hx Hk. pose proof Hx as (_ & _ & _ & _ & _ & _ & K7). destruct (K7 _ _ (proj2 HS) Ho) as (s & l & S1 & S2 & S3). assert (l = specs) by congruence. subst l.
    assert (Hin : In (s, k) (list_prod specs (seq 0 G))) by (apply in_prod; auto; apply in_seq; lia). apply In_nth_error in Hin as (i & Hi).
    exists i. eexists. split; [rewrite nth_error_map, Hi; reflexivity|]. cbn [fst snd option_map]. split; [apply HC; auto|]. split; [reflexivity|].
    intros i' cp' Hi' Hx' E'. rewrite nth_error_map in Hi'. destruct (nth_error (list_prod specs (seq 0 G)) i') as [[s' k']|] eqn:Ei'; [|discriminate]. injection Hi' as <-. cbn [fst snd po_specify po_cnums] in *.
    apply app_inv_head in E'. injection E' as ->. pose proof (nth_error_In _ _ Ei') as Hin'. apply in_prod_iff in Hin' as [Hs' _]. apply (HC s' Hs') in Hx' as [_ Hx']. assert (s' = s) by congruence. subst s'.
    pose proof (NoDup_prod (seq 0 G) (seq_NoDup _ _) specs ND) as NP. rewrite NoDup_nth_error in NP. symmetry. apply NP; [apply nth_error_Some; congruence|congruence].
Qed.
End Divide.

(** Curves obtained by choosing specs. *)
Inductive refines (c0 : curve) : curve -> Prop :=
| ref_refl : refines c0 c0
| ref_step c p k s c' : refines c0 c -> p < cv_mult c -> k < cv_genus c -> specify c p k s = Some c' -> refines c0 c'.
Lemma refines_dcls c0 c : dcls c0 -> refines c0 c -> dcls c.
Proof. intros H. induction 1; auto. eapply dcls_specify; eauto. Qed.
Lemma sub_refl c : sub_curve c c. Proof. repeat split; auto. intros p k s E; auto. Qed.
Lemma refines_sub c0 c : refines c0 c -> sub_curve c0 c.
Proof. induction 1; [apply sub_refl|]. eapply sub_trans; eauto. eapply specify_sub; eauto. Qed.
Lemma refines_chosen c0 c x : refines c0 c -> chosen_from c x -> chosen_from c0 x.
Proof. induction 1; auto. intros HX. apply IHrefines. apply (specify_chosen c p k s c' x); auto. Qed.
Lemma specify_curve c p k s c' : cv_kind c = KCurve -> specify c p k s = Some c' -> c' = c.
Proof.
  intros EK E. destruct (specify_in c p k s c' E) as (l & EL & Hin). unfold specify in E. rewrite EL in E. rewrite (proj2 (memb_In _ spec_eqb_ok _ _) Hin) in E.
  unfold gen_allowed_specs in EL. destruct (get_spec c p k) as [[s0|]|]; [congruence| |]; rewrite EK in EL; discriminate.
Qed.
Lemma refines_curve c0 c : valid_curve c0 -> refines c0 c -> c = c0.
Proof. intros (_ & _ & _ & EK & _). induction 1; auto. subst. eapply specify_curve; eauto. Qed.
Lemma chosen_curve_eq c x : valid_curve c -> chosen_from c x -> x = c.
Proof.
  intros HC HX. pose proof (chosen_consistent c x (dcls_curve c HC) HX) as CN. pose proof HC as (_ & _ & _ & EK & HF). destruct HX as (K1 & K2 & K3 & K4 & K5 & K6 & K7).
  assert (EP : cv_pats x = cv_pats c).
  { apply nth_error_ext. intros i. pose proof (f_equal (fun l => nth_error l i) K5) as E. cbn in E. rewrite !nth_error_map in E.
    destruct (nth_error (cv_pats x) i) as [p1|] eqn:E1, (nth_error (cv_pats c) i) as [p2|] eqn:E2; cbn in E; try discriminate; auto. f_equal.
    assert (ES : pat_specs p1 = pat_specs p2).
    { rewrite Forall_forall in HF, K6. pose proof (K6 p1 (nth_error_In _ _ E1)) as L1. destruct (HF p2 (nth_error_In _ _ E2)) as (_ & L2 & _).
      apply nth_error_ext. intros k. destruct (le_lt_dec (cv_genus c) k) as [Hk|Hk].
      - rewrite !nth_error_ge; auto. + unfold cv_genus in Hk. lia. + lia.
      - assert (Hi : i < cv_mult c) by (unfold cv_mult; apply nth_error_Some; congruence). destruct (all_defined c HC i k Hi Hk) as [s Es]. pose proof (CN i k s Es) as Es'.
        unfold get_spec in Es, Es'. rewrite E1 in Es'. rewrite E2 in Es. congruence. }
    injection E as E. destruct p1, p2; cbn in *. congruence. }
  destruct x, c; cbn in *. congruence.
Qed.
