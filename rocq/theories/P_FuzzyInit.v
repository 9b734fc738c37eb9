(** init_from_paths: allowed specs, KeyError, validity (C25). *)
From Verif Require Import Py L_Py L_Qc M_BaseMaps S_BaseMaps L_BaseMaps P_Actions P_GenMaps M_Subsets S_Subsets P_Subsets P_Points
  M_Paths M_Utils M_Curves S_Utils S_Curves S_Paths S_Fuzzy P_CurveAct P_Bridge P_Paths P_Fuzzy.
From Coq Require Import Lia.
Local Open Scope nat_scope.

Lemma omap_none {A B} (f : A -> option B) l : omap f l = None <-> exists a, In a l /\ f a = None.
Proof.
  induction l as [|a l IH]; cbn; [split; [discriminate|intros (a & [] & _)]|]. destruct (f a) as [b|] eqn:E.
  - destruct (omap f l); [split; [discriminate|]|split; auto].
    + intros (a' & [<-|H] & F); [congruence|]. discriminate (proj2 IH (ex_intro _ a' (conj H F))).
    + intros _. destruct (proj1 IH eq_refl) as (a' & H & F). eauto.
  - split; auto. intros _. eauto.
Qed.
Lemma omap_some_all {A B} (f : A -> option B) l : (forall a, In a l -> exists b, f a = Some b) -> exists l', omap f l = Some l'.
Proof.
  intros H. destruct (omap f l) eqn:E; eauto. apply omap_none in E as (a & Ha & F). destruct (H a Ha). congruence.
Qed.
Lemma omap_nth {A B} (f : A -> option B) l l' i a : omap f l = Some l' -> nth_error l i = Some a -> exists b, nth_error l' i = Some b /\ f a = Some b.
Proof.
  intros E. apply omap_Some in E. revert i. induction E as [|x y l l' Hx E IH]; intros [|i] H; cbn in *; try discriminate; eauto.
  inversion H; subst. eauto.
Qed.
Lemma omap_length {A B} (f : A -> option B) l l' : omap f l = Some l' -> length l' = length l.
Proof. intros E. apply omap_Some in E. induction E; cbn; auto. Qed.
Lemma omap_nth' {A B} (f : A -> option B) l l' i b : omap f l = Some l' -> nth_error l' i = Some b -> exists a, nth_error l i = Some a /\ f a = Some b.
Proof.
  intros E. apply omap_Some in E. revert i. induction E as [|x y l l' Hx E IH]; intros [|i] H; cbn in *; try discriminate; eauto.
  inversion H; subst. eauto.
Qed.

Section Init.
Context (d N : nat) (group : option (list base_map)) (dtr : bool) (paths : list (path (list Qc))).
Context (HG : valid_group d group) (HP : valid_paths d N paths).
Let g := opt_group group dtr d.
Let Hg : subgroup d g := opt_group_subgroup d group dtr HG.
Lemma path_valid p : In p paths -> valid_ppath d p /\ valid_proto d N (pa_proto p).
Proof. destruct HP as (_ & _ & _ & H). rewrite Forall_forall in H. apply H. Qed.
Lemma path_link_dim p : In p paths -> pl_dim d (pa_link p).
Proof. intros H. apply ppath_link_dim, path_valid; auto. Qed.
Lemma path_links_dim p l : In p paths -> In l (pa_links p) -> pl_dim d l.
Proof. intros H Hl. pose proof (vp_links _ _ (proj1 (path_valid p H))) as F. rewrite Forall_forall in F. auto. Qed.
Lemma fits_image p k pth l : nth_error paths p = Some pth -> nth_error (pa_links pth) k = Some l ->
  forall s, fits d group dtr paths p k s <-> (exists other, nth_error paths (sp_pnum s) = Some other /\ In (sp_bm s) g /\ pl_mul (sp_bm s) (pa_link other) = l).
Proof.
  intros E F s. unfold fits. split.
  - intros (pth' & l' & other & A & B & C & D & E'). exists other. rewrite E in A. inversion A; subst pth'. rewrite F in B. inversion B; subst l'.
    split; auto. split; auto. apply In_opt_group; auto.
  - intros (other & A & B & C). exists pth, l, other. repeat split; auto; apply (In_opt_group d group dtr (sp_bm s) HG) in B; apply B.
Qed.
Definition proto0 := match paths with p :: _ => pa_proto p | [] => Pr 0 0 [] end.
Lemma proto0_eq : pr_dim proto0 = d /\ pr_div proto0 = N /\ exists p, In p paths.
Proof.
  pose proof path_valid as HV. destruct HP as (_ & _ & NE & _). unfold proto0. destruct paths as [|p0 ps]; [congruence|]. destruct (HV p0 (or_introl eq_refl)) as [_ (A & B & _)].
  repeat split; auto. exists p0; left; auto.
Qed.
Lemma init_unfold : init_from_paths paths group dtr =
  match init_links_std g paths with
  | None => None
  | Some std =>
      match omap (fun p => omap (init_fraction g std) (pa_links p)) paths with
      | None => None
      | Some frs => Some (Cv d N (map (fun p => Pat (pa_proto p) (repeat None (length (pr_cubes (pa_proto p))))) paths) 0
                       (KPath (PFD (symm_of g std) std (map (map fst) frs) (map (map snd) frs))))
      end
  end.
Proof.
  pose proof proto0_eq as (A & B & _). unfold init_from_paths, proto0, g, symm_of in *. destruct paths as [|p0 ps] eqn:E.
  - exfalso. destruct HP as (_ & _ & NE & _). congruence.
  - rewrite A, B. reflexivity.
Qed.
Lemma init_ok c : init_from_paths paths group dtr = Some c ->
  cv_dim c = d /\ cv_div c = N /\ cv_pnum c = 0 /\
  cv_pats c = map (fun p => Pat (pa_proto p) (repeat None (length (pr_cubes (pa_proto p))))) paths /\
  exists f, cv_kind c = KPath f /\ valid_kind d (KPath f) /\
  forall p k pth l, nth_error paths p = Some pth -> nth_error (pa_links pth) k = Some l ->
    exists R, pf_allowed f p k = Some R /\ NoDup R /\ forall s, In s R <-> fits d group dtr paths p k s.
Proof.
  rewrite init_unfold. destruct (init_std_ok d g Hg paths) as (D & -> & HD).
  destruct (omap _ paths) as [frs|] eqn:E; [|discriminate]. intros EC. inversion EC; subst c. clear EC. cbn [cv_dim cv_div cv_pnum cv_pats cv_kind].
  repeat split; auto. eexists. split; [reflexivity|]. split.
  { split; cbn [links_std pat_reprs].
    - apply Forall_forall. intros [sl L] Hin. apply Forall_forall. intros [pn m] Hm. cbn in *. destruct HD as (H1 & H2 & _).
      apply (In_dget _ pl_eqb_ok) in Hin; auto. destruct (H2 sl L Hin) as (_ & _ & H). destruct (H pn m Hm) as (_ & _ & _ & A & _). apply (g_wf d g Hg); auto.
    - rewrite Forall_map. apply Forall_forall. intros fr Hfr. rewrite Forall_map. apply Forall_forall. intros [sl r] Hr. cbn [snd].
      apply In_nth_error in Hfr as (i & Hi). destruct (omap_nth' _ _ _ _ _ E Hi) as (pth & _ & E1). apply In_nth_error in Hr as (j & Hj).
      destruct (omap_nth' _ _ _ _ _ E1 Hj) as (l & _ & E2). unfold init_fraction in E2. destruct (std_link_of g l) as [sl'|]; [|discriminate].
      destruct (dget pl_eqb D sl'); [|discriminate]. destruct (first_such _ g) as [r'|] eqn:F; [|discriminate]. inversion E2; subst.
      apply find_some in F. apply (g_wf d g Hg); tauto. }
  intros p k pth l Hp Hl. destruct (omap_nth _ _ _ _ _ E Hp) as (fr & F1 & F2). destruct (omap_nth _ _ _ _ _ F2 Hl) as ([sl r] & F3 & F4).
  unfold pf_allowed. cbn [pat_links pat_reprs links_symm links_std]. rewrite !nth_error_map, F1. cbn [option_map]. rewrite !nth_error_map, F3. cbn [option_map fst snd].
  rewrite dget_symm. pose proof (path_links_dim pth l (nth_error_In _ _ Hp) (nth_error_In _ _ Hl)) as Hd.
  pose proof F4 as F5. unfold init_fraction in F5. destruct (std_link_of g l) as [sl'|]; [|discriminate].
  destruct (dget pl_eqb D sl') as [L|] eqn:EL; [|discriminate]. destruct (first_such _ g); [|discriminate]. inversion F5; subst sl' b. clear F5.
  rewrite EL. cbn [option_map]. eexists. split; [reflexivity|].
  destruct (allowed_exact d g Hg paths path_link_dim D HD l sl r L Hd F4 EL) as [A B]. split; [exact A|].
  intros s. rewrite (fits_image p k pth l Hp Hl). apply B.
Qed.
Lemma image_fits l : image g paths l -> forall p k pth, nth_error paths p = Some pth -> nth_error (pa_links pth) k = Some l -> exists s, fits d group dtr paths p k s.
Proof.
  intros (pn & other & b & A & B & C) p k pth E F. exists (Sp b pn). apply (fits_image p k pth l E F). eauto.
Qed.
Lemma init_none : init_from_paths paths group dtr = None <->
  exists p k pth l, nth_error paths p = Some pth /\ nth_error (pa_links pth) k = Some l /\ forall s, ~ fits d group dtr paths p k s.
Proof.
  rewrite init_unfold. destruct (init_std_ok d g Hg paths) as (D & -> & HD). split.
  - destruct (omap _ paths) as [frs|] eqn:E; [discriminate|]. intros _. apply omap_none in E as (pth & Hin & E). apply omap_none in E as (l & Hl & E).
    apply In_nth_error in Hin as (p & Ep). apply In_nth_error in Hl as (k & El). exists p, k, pth, l. split; auto. split; auto. intros s Hs.
    apply (fits_image p k pth l Ep El) in Hs as (other & A & B & C).
    destruct (fraction_some d g Hg paths path_link_dim D HD l) as (sl & r & L & X & _).
    + apply (path_links_dim pth); eauto using nth_error_In.
    + exists (sp_pnum s), other, (sp_bm s). auto.
    + congruence.
  - intros (p & k & pth & l & Ep & El & H). destruct (omap _ paths) as [frs|] eqn:E; auto. exfalso.
    destruct (omap_nth _ _ _ _ _ E Ep) as (fr & _ & E1). destruct (omap_nth _ _ _ _ _ E1 El) as (x & _ & E2).
    rewrite (fraction_none d g Hg paths path_link_dim D HD l) in E2; [discriminate| |].
    + apply (path_links_dim pth); eauto using nth_error_In.
    + intros I. destruct (image_fits l I p k pth Ep El) as (s & Hs). apply (H s); auto.
Qed.
Lemma path_len p pth : nth_error paths p = Some pth -> length (pa_links pth) = N ^ d /\ length (pr_cubes (pa_proto pth)) = N ^ d.
Proof.
  intros E. destruct (path_valid pth (nth_error_In _ _ E)) as [A B]. rewrite (vp_len _ _ A). rewrite (valid_proto_cubes d N); auto.
Qed.
Lemma init_valid c : init_from_paths paths group dtr = Some c -> valid_fuzzy c.
Proof.
  intros E. destruct (init_ok c E) as (E1 & E2 & E3 & E4 & f & E5 & HK & _). destruct HP as (H1 & H2 & NE & HF).
  unfold valid_fuzzy, cv_mult. rewrite E1, E2, E3, E4, E5, map_length. repeat split; try lia; try apply HK.
  - destruct paths; [congruence|cbn; lia].
  - rewrite Forall_map. rewrite Forall_forall in *. intros p Hp. specialize (HF p Hp) as [_ HF]. repeat split; cbn; try apply HF.
    + rewrite repeat_length. apply (valid_proto_cubes d N); auto.
    + apply Forall_forall. intros os Hos s ->. apply repeat_spec in Hos. discriminate.
Qed.
Lemma init_undefined c p k : init_from_paths paths group dtr = Some c -> p < length paths -> k < N ^ d -> get_spec c p k = Some None.
Proof.
  intros E Hp Hk. destruct (init_ok c E) as (E1 & E2 & E3 & E4 & _). unfold get_spec. rewrite E4, nth_error_map.
  destruct (nth_error paths p) as [pth|] eqn:F; [|apply nth_error_None in F; lia]. cbn [option_map pat_specs]. apply path_len in F as [_ ->].
  clear -Hk. revert k Hk. induction (N ^ d) as [|n IH]; intros k Hk; [lia|]. destruct k; cbn; auto. apply IH; lia.
Qed.
Lemma init_allowed c p k : init_from_paths paths group dtr = Some c -> p < length paths -> k < N ^ d ->
  exists R, gen_allowed_specs c p k = Some R /\ NoDup R /\ forall s, In s R <-> fits d group dtr paths p k s.
Proof.
  intros E Hp Hk. pose proof (init_undefined c p k E Hp Hk) as HU. destruct (init_ok c E) as (E1 & E2 & E3 & E4 & f & E5 & _ & HA).
  unfold gen_allowed_specs. rewrite E5, HU. destruct (nth_error paths p) as [pth|] eqn:F; [|apply nth_error_None in F; lia].
  destruct (nth_error (pa_links pth) k) as [l|] eqn:F2; [|apply nth_error_None in F2; rewrite (proj1 (path_len _ _ F)) in F2; lia]. eauto.
Qed.
Lemma fits_wf p k s : fits d group dtr paths p k s -> wf_spec d (length paths) s.
Proof. intros (pth & l & other & _ & _ & A & (B & _) & _). split; auto. apply nth_error_Some. congruence. Qed.
Lemma fits_nonempty c p k : init_from_paths paths group dtr = Some c -> p < length paths -> k < N ^ d -> exists s, fits d group dtr paths p k s.
Proof.
  intros E Hp Hk. destruct (nth_error paths p) as [pth|] eqn:F; [|apply nth_error_None in F; lia].
  destruct (nth_error (pa_links pth) k) as [l|] eqn:F2; [|apply nth_error_None in F2; rewrite (proj1 (path_len _ _ F)) in F2; lia].
  rewrite init_unfold in E. destruct (init_std_ok d g Hg paths) as (D & E0 & HD). rewrite E0 in E. destruct (omap _ paths) as [frs|] eqn:E1; [|discriminate].
  destruct (omap_nth _ _ _ _ _ E1 F) as (fr & _ & E2). destruct (omap_nth _ _ _ _ _ E2 F2) as (x & _ & E3).
  assert (HI : exists L sl, std_link_of g l = Some sl /\ dget pl_eqb D sl = Some L).
  { unfold init_fraction in E3. destruct (std_link_of g l) as [sl|]; [|discriminate]. destruct (dget pl_eqb D sl) eqn:G; [|discriminate]. eauto. }
  destruct HI as (L & sl & S1 & S2). pose proof HD as (_ & H2 & _). destruct (H2 sl L S2) as (_ & NE & H). destruct L as [|[pn m] L]; [congruence|].
  destruct (H pn m (or_introl eq_refl)) as (other & A & B & Hm & Em). apply In_enumerate in A. destruct (std_image g l sl S1) as (a & Ha & Ea).
  exists (Sp (bm_mul (bm_inv a) m) pn). apply (fits_image p k pth l F F2). exists other. cbn [sp_pnum sp_bm]. split; auto.
  split; [apply (g_mul d g Hg); auto; apply (g_inv d g Hg); auto|]. rewrite <- (pl_act d g Hg); auto; [|apply (g_inv d g Hg); auto|apply path_link_dim; eauto using nth_error_In].
  rewrite Em, <- Ea. apply (pl_back d g Hg); auto. apply (path_links_dim pth); eauto using nth_error_In.
Qed.
End Init.
