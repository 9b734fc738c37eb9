(** The candidates of the facet mode: the generated groups. *)
From Verif Require Import Py L_Py L_Qc L_BaseMaps M_BaseMaps M_Subsets M_Paths M_Curves M_PathTree M_PathGen M_Utils M_Gates S_BaseMaps S_Subsets S_Paths S_Utils S_Curves S_Fuzzy S_Gates S_PathGen S_PathTree
  P_GenMaps P_Actions P_Points P_Subsets P_Paths P_Core P_Bridge P_Entrance P_FuzzyCurves P_Check P_PathGen P_PathYield P_PathAll P_PathLaws P_PathTuples T_PathGen T_PathParent T_Fuzzy P_GateEqs P_GateLoop P_GateSys P_GateCand P_GateMain P_GateGen P_Combi P_Facets P_FuzzyInit P_CurveAct P_Argmul.
From Coq Require Import Permutation.
Local Open Scope nat_scope.

(** ** Results for all large fuel *)
Definition ev {A} (f : nat -> option A) (a : A) : Prop := exists F, forall fuel, F <= fuel -> f fuel = Some a.
Lemma ev_obind {A B} (f : nat -> option A) (g : nat -> A -> option B) a b : ev f a -> ev (fun n => g n a) b -> ev (fun n => obind (f n) (g n)) b.
Proof. intros (F1 & H1) (F2 & H2). exists (Nat.max F1 F2). intros n Hn. rewrite H1 by lia. cbn. apply H2. lia. Qed.
Lemma ev_map {A B} (f : nat -> option A) (g : A -> B) a : ev f a -> ev (fun n => option_map g (f n)) (g a).
Proof. intros (F & H). exists F. intros n Hn. rewrite H by lia. auto. Qed.
Lemma ev_const {A} (a : A) : ev (fun _ => Some a) a. Proof. exists 0. auto. Qed.
Lemma ev_omap {A B} (f : nat -> A -> option B) (R : A -> B -> Prop) l : (forall a, In a l -> exists b, ev (fun n => f n a) b /\ R a b) ->
  exists bs, ev (fun n => omap (f n) l) bs /\ Forall2 R l bs.
Proof.
  induction l as [|a l IH]; intros H; [exists []; split; [apply ev_const|constructor]|]. destruct (H a (or_introl eq_refl)) as (b & (F1 & H1) & Rb). destruct IH as (bs & (F2 & H2) & Rbs); [intros; apply H; right; auto|].
  exists (b :: bs). split; [|constructor; auto]. exists (Nat.max F1 F2). intros n Hn. cbn [omap]. rewrite H1, H2 by lia. auto.
Qed.
Lemma Forall2_lprod {A B} (R : A -> B -> Prop) l (bs : list (list B)) : Forall2 (fun a b => forall x, In x b <-> R a x) l bs -> forall xs, In xs (lprod bs) <-> Forall2 R l xs.
Proof.
  intros H xs. rewrite In_lprod. revert xs. induction H as [|a b l bs HR H IH]; intros xs.
  - split; intros X; inversion X; constructor.
  - split; intros X; inversion X; subst; constructor; try (apply HR; auto); try (apply IH; auto).
Qed.

Section FGroups.
Context (d N m : nat) (Hd : 2 <= d) (HN : 2 <= N) (Hm : 1 <= m) (hash : future_t (link facet_set) -> Z) (HH : hash_ok hash) (smax : nat) (fmax : option nat).
Let H2 : 2 <= N ^ d := G_ge2 d N m ltac:(lia) HN Hm.
Notation par := (fun n => SP hash n smax fmax).
Notation want := (wanted facet_ops d N in_facet).
Notation fV := (fun l : link facet_set => facet_of d N (entrance l) /\ facet_of d N (exit l)).
Definition narrow_of (paths : list (path facet_set)) (narrow : list narrow_links) : Prop :=
  Forall2 (fun P n => exists np, facet_along d N (map pa_link paths) None P np /\ narrow_key np = Some n) paths narrow.
Lemma nl_eqb_ok : eqb_ok nl_eqb.
Proof.
  intros [a b c] [a' b' c']. unfold nl_eqb. cbn. rewrite !andb_true_iff. pose proof (lk_eqb_ok fs_eqb fs_eqb_ok') as HE. unfold eqb_ok in HE. rewrite !HE. split; [intros [[-> ->] ->]; auto|intros [= -> -> ->]; auto].
Qed.
(** the ends of a path *)
Lemma path_key z p : path_of d N z p -> mk_path facet_ops (pa_proto p) (pa_links p) = Some p -> exists c0 l0 c1 l1, hd_error z = Some (c0, l0) /\ hd_error (rev z) = Some (c1, l1) /\
  narrow_key p = Some (NL (pa_link p) l0 l1) /\ so_map_to_cube facet_ops N c0 (entrance l0) = Some (entrance (pa_link p)) /\ so_map_to_cube facet_ops N c1 (exit l1) = Some (exit (pa_link p)).
Proof.
  intros HP HM. assert (EP : mkp facet_ops d N z = Some p) by (apply mkp_path_of; auto). pose proof (mkp_shape _ _ _ _ _ EP) as (_ & EL & NE).
  destruct (hd_error z) as [[c0 l0]|] eqn:E0; [|destruct z; [congruence|discriminate]].
  destruct (hd_error (rev z)) as [[c1 l1]|] eqn:E1; [|destruct (rev z) eqn:ER; [|discriminate]; apply (f_equal (@rev _)) in ER; rewrite rev_involutive in ER; cbn in ER; congruence].
  exists c0, l0, c1, l1. split; auto. split; auto. rewrite (mkp_ends _ _ _ _ _ _ _ _ E0 E1) in EP.
  destruct (so_map_to_cube facet_ops N c0 (entrance l0)) as [e|]; [|discriminate]. destruct (so_map_to_cube facet_ops N c1 (exit l1)) as [x|]; [|discriminate]. injection EP as <-. cbn [pa_link entrance exit]. split; [|auto].
  unfold narrow_key. cbn [pa_links pa_link] in *. assert (A0 : pyget (map snd z) 0 = Some l0).
  { unfold pyget. cbn. destruct z as [|z0 z]; [discriminate|]. cbn in *. injection E0 as ->. auto. }
  assert (A1 : pyget (map snd z) (-1) = Some l1).
  { unfold pyget. replace (0 <=? -1)%Z with false by auto. assert (HL : length z <> 0) by (destruct z; [congruence|cbn; lia]). rewrite map_length. replace (0 <=? Z.of_nat (length z) + -1)%Z with true by (symmetry; apply Z.leb_le; lia).
    replace (Z.to_nat (Z.of_nat (length z) + -1)) with (length z - 1) by lia. rewrite nth_error_map.
    pose proof (nth_error_rev z 0 ltac:(lia)) as NR. replace (length z - 1 - 0) with (length z - 1) in NR by lia. rewrite <- NR. destruct (rev z); [discriminate|]. cbn in *. injection E1 as ->. auto. }
  rewrite A0, A1. auto.
Qed.
Lemma chain_link links z p : Forall fV links -> path_of d N z p -> mk_path facet_ops (pa_proto p) (pa_links p) = Some p -> good_chain in_facet (so_mul facet_ops) d N links None z ->
  fV (pa_link p) /\ Forall (fun cl => fV (snd cl)) z.
Proof.
  intros HL HP HM HC. destruct (path_key z p HP HM) as (c0 & l0 & c1 & l1 & E0 & E1 & _ & M0 & M1).
  pose proof (chain_nodes facet_ops false d N _ _ (facet_laws d N ltac:(lia)) links HL None z HC) as NZ. split; [|eapply Forall_impl; [|exact NZ]; cbn; tauto]. rewrite Forall_forall in NZ.
  destruct (NZ _ (hd_In _ _ E0)) as (G0 & V0 & _). destruct (NZ _ (proj2 (in_rev _ _) (hd_In _ _ E1))) as (G1 & _ & V1). cbn [fst snd so_map_to_cube facet_ops] in *. split; [exact (proj1 (facet_map d N _ _ _ V0 G0 M0))|exact (proj1 (facet_map d N _ _ _ V1 G1 M1))].
Qed.
Lemma want_link links lk p : Forall fV links -> want links None lk p -> fV (pa_link p).
Proof. intros HL (HM & z & HP & HC & _). apply (chain_link links z p); auto. Qed.

Lemma narrow_links_eq paths : paths <> [] -> Forall (facet_parent d N) paths -> facet_links d N (map pa_link paths) ->
  exists narrows, ev (fun n => gen_narrow_links d N (par n) paths) narrows /\ forall narrow, In narrow narrows <-> narrow_of paths narrow.
Proof.
  intros NE HP HL. destruct (C45_example_parents d N (map pa_link paths) None paths false H2 HL HP) as (g & HG & HE). destruct (HE hash smax fmax HH) as (F & ex & HX & HR).
  unfold gen_narrow_links. rewrite HG. cbn [obind sp_hash sp_fuel sp_start sp_finish].
  destruct ex as [ps|].
  - assert (ps <> []) by (intros ->; inversion HR; subst; auto). destruct ps as [|p0 ps]; [congruence|].
    destruct (ev_omap (fun n path => obind (pg_generic facet_ops false g hash n smax fmax false None (Some path)) (fun nps => option_map (dedup nl_eqb) (omap narrow_key nps)))
      (fun P ns => forall x, In x ns <-> exists np, facet_along d N (map pa_link paths) None P np /\ narrow_key np = Some x) paths) as (bs & (F2 & EB) & RB).
    { intros P HIP. rewrite Forall_forall in HP. destruct (C45_facet_parent d N (map pa_link paths) None P H2 HL (HP P HIP)) as (g' & HG' & HR'). rewrite HG in HG'. injection HG' as <-.
      destruct (HR' hash smax fmax HH) as (F' & nps & A & _ & B). destruct (omap_some_all narrow_key nps) as (ks & EK).
      { intros np Hnp. apply B in Hnp. destruct Hnp as (HM & z & PZ & _). destruct (path_key z np PZ HM) as (? & ? & ? & ? & _ & _ & K & _). eauto. }
      exists (dedup nl_eqb ks). split.
      - exists F'. intros n Hn. rewrite A by auto. cbn [obind]. rewrite EK. auto.
      - intros x. rewrite (In_dedup _ nl_eqb_ok). apply omap_rel in EK. split.
        + intros Hx. destruct (Forall2_In_r _ _ _ _ EK Hx) as (np & Hnp & E). exists np. split; auto. apply B; auto.
        + intros (np & Hnp & E). apply B in Hnp. destruct (Forall2_In_l _ _ _ _ EK Hnp) as (x' & Hx' & E'). rewrite E in E'. injection E' as ->. auto. }
    exists (lprod bs). split.
    + exists (Nat.max F F2). intros n Hn. rewrite HX by lia. cbn [obind]. rewrite EB by lia. auto.
    + intros narrow. apply (Forall2_lprod (fun P n => exists np, facet_along d N (map pa_link paths) None P np /\ narrow_key np = Some n)); auto.
  - exists []. split; [exists F; intros n Hn; rewrite HX by lia; auto|]. intros narrow. split; [intros []|]. intros HNR. destruct HR as (P & HIP & HNO). destruct (Forall2_In_l _ _ _ _ HNR HIP) as (n & _ & np & A & _). exact (HNO np A).
Qed.
Definition narrow_ok (narrow : list narrow_links) (p : nat) (w : bool) (s : spec) : Prop := sp_pnum s < m /\ exists n n', nth_error narrow p = Some n /\ nth_error narrow (sp_pnum s) = Some n' /\
  In (sp_bm s) (fl_argmul (nl_link n') (if w then nl_last n else nl_first n)).
Lemma narrow_variants narrow : length narrow = m -> exists lists, omap (narrow_specs m narrow) (boundary m) = Some lists /\
  forall specs, In specs (lprod lists) <-> exists sp, specs = spec_seq sp (range m) /\ forall p w, p < m -> narrow_ok narrow p w (sp p w).
Proof.
  intros HL. assert (HS : forall p (w : bool), p < m -> exists l, narrow_specs m narrow (p, cn w) = Some l /\ forall s, In s l <-> narrow_ok narrow p w s).
  { intros p w Hp. unfold narrow_specs. cbn [fst snd]. destruct (nth_error narrow p) as [n|] eqn:E; [|apply nth_error_None in E; lia]. cbn [obind]. eexists. split; [reflexivity|]. intros s.
    replace (cn w =? 0)%Z with (negb w) by (destruct w; auto). rewrite in_flat_map. unfold narrow_ok. split.
    - intros (pn & Hn & HI). apply in_seq in Hn. destruct (nth_error narrow pn) as [n'|] eqn:E'; [|destruct HI]. apply in_map_iff in HI. destruct HI as (b & <- & HI). cbn [sp_pnum sp_bm]. split; [lia|]. exists n, n'. split; auto. split; auto. destruct w; auto.
    - intros (Hs & n0 & n' & E0 & E' & HI). rewrite E in E0. injection E0 as <-. exists (sp_pnum s). split; [apply in_seq; lia|]. rewrite E'. apply in_map_iff. exists (sp_bm s). split; [destruct s; auto|destruct w; auto]. }
  destruct (omap_some_all (narrow_specs m narrow) (boundary m)) as (lists & E).
  { intros [p z] Hp. unfold boundary in Hp. apply in_prod_iff in Hp. destruct Hp as [Hp Hz]. apply in_seq in Hp. destruct (HS p (negb (z =? 0)%Z) ltac:(lia)) as (l & E & _). exists l. rewrite <- E. f_equal. f_equal. destruct Hz as [<-|[<-|[]]]; auto. }
  exists lists. split; auto. intros specs. rewrite (In_variants _ m lists specs E). split; intros (sp & ES & H); exists sp; (split; [auto|]); intros p w Hp.
  - destruct (H p w Hp) as (l & El & Hl). destruct (HS p w Hp) as (l' & El' & Hl'). rewrite El' in El. injection El as <-. apply Hl'; auto.
  - destruct (HS p w Hp) as (l' & El' & Hl'). exists l'. split; auto. apply Hl'; auto.
Qed.
(** the links of the facet mode *)
Lemma variant_ok l : In l (link_variants d N) -> fV l.
Proof.
  assert (A : forall c v, c < d -> (v = 0%Z \/ v = 1%Z) -> facet_of d N (FS d N (c, v) [])) by (intros c v Hc Hv; split; [|auto]; split; [cbn; lia|]; split; [cbn; auto|]; split; [cbn; auto|]; constructor).
  unfold link_variants, facet0, facet1, facet2. intros [<-|[<-|[<-|[]]]]; cbn [entrance exit]; split; apply A; auto; lia.
Qed.
Lemma links_ok links : In links (links_list d N m) -> length links = m /\ Forall fV links.
Proof. intros H. apply combs_repl_sound in H. destruct H as [A B]. split; auto. eapply Forall_impl; [|exact B]. cbn. apply variant_ok. Qed.

Definition group_of (paths : list (path facet_set)) (c : list proto * list spec) : Prop :=
  exists narrow sp, narrow_of paths narrow /\ c = (map pa_proto paths, spec_seq sp (range m)) /\ forall p w, p < m -> narrow_ok narrow p w (sp p w).
Lemma candidates_concat l : candidates (concat l) = concat (map candidates l).
Proof. unfold candidates. induction l; cbn; auto. rewrite flat_map_app, IHl. auto. Qed.
Lemma paths_groups links paths : In links (links_list d N m) -> Forall2 (want links None) links paths ->
  exists gr, ev (fun n => obind (gen_narrow_links d N (par n) paths) (fun narrows =>
        omap (fun narrow => option_map (pair (map pa_proto paths)) (omap (narrow_specs m narrow) (boundary m))) narrows)) gr /\
    forall c, In c (candidates gr) <-> group_of paths c.
Proof.
  intros HI HW. destruct (links_ok links HI) as [LL LV]. pose proof (Forall2_length HW) as LP.
  assert (HP : Forall (facet_parent d N) paths).
  { apply Forall_forall. intros p Hp. destruct (Forall2_In_r _ _ _ _ HW Hp) as (lk & _ & W). apply (C45_parents d N links None lk p p H2 LV). left. exact W. }
  assert (HL : facet_links d N (map pa_link paths)).
  { unfold facet_links. rewrite Forall_map, Forall_forall. intros p Hp. destruct (Forall2_In_r _ _ _ _ HW Hp) as (lk & _ & W). exact (want_link links lk p LV W). }
  assert (NE : paths <> []) by (intros ->; cbn in LP; lia). destruct (narrow_links_eq paths NE HP HL) as (narrows & EN & HNR).
  destruct (omap_some_all (fun narrow => option_map (pair (map pa_proto paths)) (omap (narrow_specs m narrow) (boundary m))) narrows) as (gr & EG).
  { intros narrow Hn. apply HNR in Hn. apply Forall2_length in Hn. destruct (narrow_variants narrow ltac:(lia)) as (lists & -> & _). eexists. reflexivity. }
  exists gr. split; [apply (ev_obind _ _ narrows); auto; exists 0; auto|]. apply omap_rel in EG. intros c. unfold candidates. rewrite in_flat_map. split.
  - intros ((protos & lists) & HG & HC). destruct (Forall2_In_r _ _ _ _ EG HG) as (narrow & Hn & EP). apply HNR in Hn. destruct (narrow_variants narrow) as (lists' & EL & HV); [apply Forall2_length in Hn; lia|]. rewrite EL in EP. cbn in EP. injection EP as <- <-.
    cbn [fst snd] in HC. apply in_map_iff in HC. destruct HC as (specs & <- & HS). apply HV in HS. destruct HS as (sp & -> & HS). exists narrow, sp. auto.
  - intros (narrow & sp & Hn & -> & HS). destruct (narrow_variants narrow) as (lists' & EL & HV); [apply Forall2_length in Hn; lia|]. apply HNR in Hn.
    destruct (Forall2_In_l _ _ _ _ EG Hn) as (g & HG & EP). rewrite EL in EP. cbn in EP. injection EP as <-. eexists. split; [exact HG|]. cbn [fst snd]. apply in_map_iff. eexists. split; [reflexivity|]. apply HV. exists sp. auto.
Qed.
Lemma generate_none (g : @paths_generator facet_set) fuel std : generate_paths facet_ops false g hash fuel smax fmax None None std = generate_paths facet_ops false g hash fuel smax fmax (Some (pg_links g)) None std.
Proof. reflexivity. Qed.
Lemma generator_links links mc g : mk_generator facet_ops false d N links mc = Some g -> pg_links g = links.
Proof. unfold mk_generator. intros H. destruct (init_exit2next _ _ _ _ _ _) in H; [|discriminate]. cbn in H. injection H as <-. reflexivity. Qed.

Lemma facet_groups_eq : exists groups, ev (fun n => facet_groups d N m (par n)) groups /\
  (forall c, In c (candidates groups) -> exists links paths, In links (links_list d N m) /\ Forall2 (want links None) links paths /\ group_of paths c) /\
  (forall links qs, In links (links_list d N m) -> Forall2 (want links None) links qs -> exists ps, Forall2 (want links None) links ps /\ same_tuple facet_ops d links qs ps /\
     forall c, group_of ps c -> In c (candidates groups)).
Proof.
  unfold facet_groups.
  destruct (ev_omap (fun n links => obind (mk_generator facet_ops false d N links None) (fun pg => obind (generate_paths facet_ops false pg (sp_hash (par n)) (sp_fuel (par n)) (sp_start (par n)) (sp_finish (par n)) None None true) (fun plist =>
    option_map (@concat _) (omap (fun paths => obind (gen_narrow_links d N (par n) paths) (fun narrows =>
        omap (fun narrow => option_map (pair (map pa_proto paths)) (omap (narrow_specs m narrow) (boundary m))) narrows)) plist))))
    (fun links grs => exists plist, (forall paths, In paths plist -> Forall2 (want links None) links paths) /\
       (forall qs, Forall2 (want links None) links qs -> exists ps, In ps plist /\ same_tuple facet_ops d links qs ps) /\
       forall c, In c (candidates grs) <-> exists paths, In paths plist /\ group_of paths c) (links_list d N m)) as (gss & EV & HR).
  { intros links HI. destruct (links_ok links HI) as [LL LV]. pose proof (facet_laws d N ltac:(lia)) as LW. destruct (generator_exists facet_ops false d N _ _ LW links LV None) as (g & HG & _). rewrite HG. cbn [obind sp_hash sp_fuel sp_start sp_finish].
    destruct (tuples_std facet_ops false d N _ _ LW links LV None H2 g HG hash HH smax fmax links LV) as (F & plist & A & _ & B & C).
    destruct (ev_omap (fun n paths => obind (gen_narrow_links d N (par n) paths) (fun narrows => omap (fun narrow => option_map (pair (map pa_proto paths)) (omap (narrow_specs m narrow) (boundary m))) narrows))
      (fun paths gr => forall c, In c (candidates gr) <-> group_of paths c) plist) as (grs & EG & RG). { intros paths Hp. apply (paths_groups links); auto. }
    exists (concat grs). split.
    - apply (ev_obind _ _ plist); [exists F; intros n Hn; rewrite generate_none, (generator_links _ _ _ HG); apply A; auto|]. apply ev_map. exact EG.
    - exists plist. split; auto. split; [intros qs Hq; destruct (C qs Hq) as (ps & (P1 & P2) & _); eauto|]. intros c. rewrite candidates_concat, in_concat. setoid_rewrite in_map_iff. split.
      + intros (l & (gr & <- & Hgr) & Hc). destruct (Forall2_In_r _ _ _ _ RG Hgr) as (paths & Hp & HX). exists paths. split; auto. apply HX; auto.
      + intros (paths & Hp & HX). destruct (Forall2_In_l _ _ _ _ RG Hp) as (gr & Hgr & HY). exists (candidates gr). split; [eauto|]. apply HY; auto. }
  exists (concat gss). split; [apply ev_map; exact EV|]. split.
  - intros c Hc. rewrite candidates_concat, in_concat in Hc. destruct Hc as (l & Hl & Hc). apply in_map_iff in Hl. destruct Hl as (grs & <- & Hg). destruct (Forall2_In_r _ _ _ _ HR Hg) as (links & HI & plist & A & _ & B). apply B in Hc. destruct Hc as (paths & Hp & HG). exists links, paths. auto.
  - intros links qs HI HQ. destruct (Forall2_In_l _ _ _ _ HR HI) as (grs & Hg & plist & A & B & C). destruct (B qs HQ) as (ps & Hp & HS). exists ps. split; auto. split; auto. intros c Hc. rewrite candidates_concat, in_concat. exists (candidates grs). split; [apply in_map; auto|]. apply C. eauto.
Qed.

Lemma chain_proto links z p : path_of d N z p -> good_chain in_facet (so_mul facet_ops) d N links None z -> valid_proto d N (pa_proto p).
Proof.
  intros (P1 & P2) [Z1 Z2 _ _]. rewrite P1. split; auto. split; auto. exists (map fst z). split; [cbn; rewrite map_map; auto|]. split; auto. intros q. symmetry. apply Z2.
Qed.
Lemma path_bnd (z : list (list Z * link facet_set)) p c0 l0 c1 l1 : path_of d N z p -> valid_proto d N (pa_proto p) -> hd_error z = Some (c0, l0) -> hd_error (rev z) = Some (c1, l1) ->
  pr_div (pa_proto p) = N /\ length (pr_cubes (pa_proto p)) = N ^ d /\ forall w : bool, nth_error (pr_cubes (pa_proto p)) (endn d N w) = Some (Some (if w then c1 else c0)).
Proof.
  intros (P1 & P2) VP E0 E1. pose proof (valid_proto_cubes d N _ VP) as HL. split; [rewrite P1; auto|]. split; auto. rewrite P1 in HL |- *. cbn [pr_cubes] in *. rewrite map_length in HL. intros w. rewrite nth_error_map. destruct w; cbn [endn].
  - rewrite <- HL. pose proof (nth_error_rev z 0 ltac:(lia)) as NR. replace (length z - 1 - 0) with (length z - 1) in NR by lia. rewrite <- NR. destruct (rev z); [discriminate|]. cbn in *. injection E1 as ->. auto.
  - destruct z; [discriminate|]. cbn in *. injection E0 as ->. auto.
Qed.

Lemma fV_dim l : fV l -> fl_dim d l. Proof. intros ((A & B & _) & (A' & B' & _)). repeat split; auto; apply A || apply A'. Qed.
Lemma along_key links P np n : Forall fV links -> facet_along d N links None P np -> narrow_key np = Some n -> fV (nl_link n) /\ fV (nl_first n) /\ fV (nl_last n).
Proof.
  intros HL (HM & z & HP & HC & _) K. destruct (path_key z np HP HM) as (c0 & l0 & c1 & l1 & E0 & E1 & K' & _). rewrite K in K'. injection K' as ->. cbn [nl_link nl_first nl_last].
  destruct (chain_link links z np HL HP HM HC) as (A & B). split; auto. rewrite Forall_forall in B. split; [exact (B _ (hd_In _ _ E0))|exact (B _ (proj2 (in_rev _ _) (hd_In _ _ E1)))].
Qed.
(** ** Candidates are valid *)
Lemma group_valid links paths c : In links (links_list d N m) -> Forall2 (want links None) links paths -> group_of paths c -> valid_cand d N m c.
Proof.
  intros HI HW (narrow & sp & HNR & -> & HS). destruct (links_ok links HI) as [LL LV]. pose proof (Forall2_length HW) as LP.
  assert (HL : Forall fV (map pa_link paths)).
  { rewrite Forall_map, Forall_forall. intros p Hp. destruct (Forall2_In_r _ _ _ _ HW Hp) as (lk & _ & W). exact (want_link links lk p LV W). }
  destruct (fin_choice (fun i (x : list Z * list Z) => exists p, nth_error paths i = Some p /\ grid_cube d N (fst x) /\ grid_cube d N (snd x) /\ fst x <> snd x /\ pr_div (pa_proto p) = N /\ length (pr_cubes (pa_proto p)) = N ^ d /\
     forall w : bool, nth_error (pr_cubes (pa_proto p)) (endn d N w) = Some (Some (if w then snd x else fst x))) ([], []) m) as (f & Hf).
  { intros i Hi. destruct (nth_error paths i) as [p|] eqn:E; [|apply nth_error_None in E; lia]. pose proof (nth_error_In _ _ E) as Hp. destruct (Forall2_In_r _ _ _ _ HW Hp) as (lk & _ & (HM & z & PZ & HC & _)).
    destruct (path_key z p PZ HM) as (c0 & l0 & c1 & l1 & E0 & E1 & _). exists (c0, c1), p. split; auto. pose proof HC as [C1 C2 _ _]. cbn [fst snd].
    split; [apply C2; exact (in_map fst _ _ (hd_In _ _ E0))|]. split; [apply C2; exact (in_map fst _ _ (proj2 (in_rev _ _) (hd_In _ _ E1)))|]. pose proof (chain_proto links z p PZ HC) as VP. pose proof (path_bnd z p _ _ _ _ PZ VP E0 E1) as PB. split; [|exact PB].
    intros ->. destruct PB as (_ & HLn & PB). destruct PZ as [P1 _]. rewrite P1 in HLn, PB. cbn [pr_cubes] in *. assert (ND : NoDup (map (fun cl => Some (fst cl)) z)).
    { rewrite <- (map_map fst Some). apply FinFun.Injective_map_NoDup; auto. intros a b [= ->]; auto. }
    pose proof (proj1 (NoDup_nth_error _) ND (endn d N false) (endn d N true)) as X. rewrite HLn, !PB in X. cbn in X. specialize (X ltac:(lia) eq_refl). lia. }
  exists (fun i (w : bool) => if w then snd (f i) else fst (f i)), sp. cbn [fst snd]. split; auto. split; [|split; [|split]].
  - intros p w Hp. destruct (Hf p Hp) as (q & _ & A & B & _). destruct w; auto.
  - intros p w Hp. destruct (HS p w Hp) as (Hn & n & n' & E1 & E2 & HA). split; auto. apply nth_error_In in E2. destruct (Forall2_In_r _ _ _ _ HNR E2) as (P & _ & np & A & K).
    destruct (along_key _ _ _ _ HL A K) as (V0 & _). apply (proj2 (fl_argmul_exact d _ _ (fV_dim _ V0))) in HA. apply HA.
  - intros p Hp. destruct (Hf p Hp) as (q & _ & _ & _ & A & _). auto.
  - split; [rewrite map_length; lia|]. intros p Hp. destruct (Hf p Hp) as (q & E & _ & _ & _ & A & B & C). exists (pa_proto q). split; [rewrite nth_error_map, E; auto|]. auto.
Qed.

(** ** Standard facets of a gate *)
Lemma two_first j1 j2 : j1 < d -> j2 < d -> j1 <> j2 -> exists r, Permutation (j1 :: j2 :: r) (seq 0 d).
Proof.
  intros A B NE. destruct (in_split j1 (seq 0 d)) as (l1 & l2 & E); [apply in_seq; lia|]. assert (P1 : Permutation (j1 :: l1 ++ l2) (seq 0 d)) by (rewrite E; apply Permutation_middle).
  assert (HI : In j2 (l1 ++ l2)) by (assert (In j2 (j1 :: l1 ++ l2)) as [|] by (apply (Permutation_in _ (Permutation_sym P1)), in_seq; lia); [congruence|auto]).
  destruct (in_split j2 (l1 ++ l2) HI) as (l3 & l4 & E'). exists (l3 ++ l4). rewrite <- P1, E'. constructor. apply Permutation_middle.
Qed.
Lemma in_facet_edge x c v : unit_point d x -> c < d -> nth c x 0%Qc = Zq v -> (forall i, edge_coord x i -> i = c) -> in_facet (FS d N (c, v) []) x.
Proof.
  intros (XL & XF) Hc Hv HU. split; [exact XL|]. split; [exact Hv|]. cbn [fs_dim fs_facet fs_div fs_cubes fst snd map]. intros k Hk. unfold open_interval, facet_coord. cbn [length value Z.of_nat].
  set (j := if Nat.ltb k c then k else S k). assert (Hj : j < d /\ j <> c) by (unfold j; destruct (Nat.ltb_spec k c); lia). destruct Hj as [Hj NJ].
  assert (XC : (0 <= nth j x 0%Qc)%Qc /\ (nth j x 0%Qc <= 1)%Qc) by (unfold in_cube01 in XF; rewrite Forall_forall in XF; apply XF, nth_In; lia).
  change (Zq (Z.of_nat N ^ 0)) with 1%Qc. change (Zq (value (Z.of_nat N) [])) with 0%Qc. rewrite Qcmult_1_r.
  assert (N0 : nth j x 0%Qc <> 0%Qc) by (intros E; apply NJ, HU; split; [lia|auto]). assert (N1 : nth j x 0%Qc <> 1%Qc) by (intros E; apply NJ, HU; split; [lia|auto]).
  split; [apply Qcnot_le_lt; intros L; apply N0, Qcle_antisym; tauto|]. replace (0 + 1)%Qc with 1%Qc by ring. apply Qcnot_le_lt. intros L. apply N1, Qcle_antisym; tauto.
Qed.
Lemma edge_image b x j k f : wf_bm d b -> unit_point d x -> j < d -> nth j (coords b) (0, false) = (k, f) -> (forall i, edge_coord x i -> i = k) ->
  forall v, nth k x 0%Qc = Zq (if f then 1 - v else v)%Z -> in_facet (FS d N (j, v) []) (pt_mul b x).
Proof.
  intros W U Hj E HU v Hv. pose proof (lw_V _ _ _ _ _ _ (point_laws d N ltac:(lia)) b x W U) as UI. change (unit_point d (pt_mul b x)) in UI. apply in_facet_edge; auto.
  - rewrite (nth_pt_mul d) by auto. cbv zeta. rewrite E. cbn [fst snd]. rewrite Hv. destruct f; auto. rewrite <- Zq_1, <- Zq_sub. f_equal. lia.
  - intros i Hi. assert (Hid : i < d) by (destruct Hi as [Hi _]; rewrite (proj1 UI) in Hi; auto). apply (edge_mul d) in Hi; auto; [|apply U]. apply HU in Hi. apply (wf_nth_inj d b i j); auto. rewrite Hi, E. auto.
Qed.
Lemma facet_std g : unit_point d (entrance g) -> unit_point d (exit g) -> inside_facet (entrance g) -> inside_facet (exit g) ->
  exists bl, wf_bm d (fst bl) /\ In (snd bl) (link_variants d N) /\ has_link in_facet (snd bl) (lk_mul pt_mul (fst bl) g).
Proof.
  intros U1 U2 (j1 & (J1 & V1) & H1) (j2 & (J2 & V2) & H2'). destruct g as [x y]. cbn [entrance exit] in *. rewrite (proj1 U1) in J1. rewrite (proj1 U2) in J2.
  assert (F1 : exists f1 : bool, nth j1 x 0%Qc = Zq (if f1 then 1 else 0)) by (destruct V1; [exists false|exists true]; auto). destruct F1 as (f1 & F1).
  assert (F2 : exists f2 : bool, nth j2 y 0%Qc = Zq (if f2 then 1 else 0)) by (destruct V2; [exists false|exists true]; auto). destruct F2 as (f2 & F2).
  assert (HB : forall k1 k2 (f1 f2 : bool), k1 < d -> k2 < d -> k1 <> k2 -> exists b, wf_bm d b /\ time_rev b = false /\ nth 0 (coords b) (0, false) = (k1, f1) /\ nth 1 (coords b) (0, false) = (k2, f2)).
  { intros k1 k2 e1 e2 K1 K2 NE. destruct (two_first k1 k2 K1 K2 NE) as (r & P). exists (BM ((k1, e1) :: (k2, e2) :: map (fun k => (k, false)) r) false). split; [|auto]. unfold wf_bm. cbn. rewrite map_map. cbn. rewrite map_id. exact P. }
  destruct (Nat.eq_dec j1 j2) as [<-|NE].
  - assert (HK : exists k, k < d /\ j1 <> k) by (destruct (Nat.eq_dec j1 0); [exists 1|exists 0]; lia). destruct HK as (k & K1 & K2). destruct (HB j1 k f1 false J1 K1 K2) as (b & W & T & B0 & _).
    exists (b, Lk (FS d N (0, 0%Z) []) (FS d N (0, if Bool.eqb f1 f2 then 0%Z else 1%Z) [])). cbn [fst snd]. split; auto. split; [unfold link_variants, facet0, facet1, facet2; destruct (Bool.eqb f1 f2); cbn; auto|].
    unfold has_link, lk_mul. rewrite T. cbn [entrance exit]. split.
    + apply (edge_image b x 0 j1 f1); auto; try lia; rewrite F1; destruct f1; auto.
    + apply (edge_image b y 0 j1 f1); auto; try lia; rewrite F2; destruct f1, f2; auto.
  - destruct (HB j1 j2 f1 f2 J1 J2 NE) as (b & W & T & B0 & B1). exists (b, Lk (FS d N (0, 0%Z) []) (FS d N (1, 0%Z) [])). cbn [fst snd]. split; auto. split; [unfold link_variants, facet0, facet1, facet2; cbn; auto|].
    unfold has_link, lk_mul. rewrite T. cbn [entrance exit]. split.
    + apply (edge_image b x 0 j1 f1); auto; try lia; rewrite F1; destruct f1; auto.
    + apply (edge_image b y 1 j2 f2); auto; rewrite F2; destruct f2; auto.
Qed.

(** ** Coverage *)
Notation system := (chains_ok point_ops d N m (unit_point d) is_point).
Notation fsystem := (chains_ok facet_ops d N m (facet_of d N) in_facet).
Lemma chains_ext Zs g g' : (forall p, p < m -> g p = g' p) -> system Zs g -> system Zs g'.
Proof.
  intros E HS p Hp. destruct (HS p Hp) as (A & B & C & D). assert (EL : map g' (range m) = map g (range m)) by (apply map_ext_in; intros q Hq; apply in_seq in Hq; symmetry; apply E; lia).
  assert (EZ : zl point_ops g' (Zs p) = zl point_ops g (Zs p)).
  { unfold zl. apply map_ext_in. intros cs Hcs. rewrite Forall_forall in A. destruct (A cs Hcs) as [_ Hs]. rewrite (E _ Hs). auto. }
  rewrite EL, EZ, <- (E p Hp). auto.
Qed.
(** the link of the facet path of a pattern contains its gate *)
Lemma narrow_has Zs g L p q : system Zs g -> (forall i, i < m -> fV (L i) /\ has_link in_facet (L i) (g i)) -> p < m -> mkp facet_ops d N (zl facet_ops L (Zs p)) = Some q ->
  fV (pa_link q) /\ has_link in_facet (pa_link q) (g p).
Proof.
  intros HS HL Hp HQ. pose proof (facet_laws d N ltac:(lia)) as LW. pose proof (lift_ok facet_ops false d N m _ _ LW H2 Zs g HS L HL) as HF. apply mkp_path_of in HQ. destruct HQ as (HM & HP).
  destruct (HF p Hp) as (F1 & _ & F3 & _). destruct (chain_link _ _ q (chains_V facet_ops d N m _ _ H2 Zs L HF) HP HM F3) as (VQ & VZ). split; auto.
  destruct (path_key _ q HP HM) as (c0 & l0 & c1 & l1 & E0 & E1 & _ & M0 & M1). destruct (HS p Hp) as (S1 & _ & _ & ((a0 & k0 & X0 & x0 & y0 & Y0 & Y0' & Y0'') & (a1 & k1 & X1 & x1 & y1 & Y1 & Y1' & Y1''))).
  unfold is_point in *. subst x0 x1 y0 y1. pose proof (hd_In _ _ E0) as I0. pose proof (proj2 (in_rev _ _) (hd_In _ _ E1)) as I1. rewrite Forall_forall in VZ. pose proof (VZ _ I0) as (V0 & _). pose proof (VZ _ I1) as (_ & V1). cbn [snd] in V0, V1.
  destruct F3 as [_ C2 _ _]. assert (G0 : grid_cube d N c0) by (apply C2; exact (in_map fst _ _ I0)). assert (G1 : grid_cube d N c1) by (apply C2; exact (in_map fst _ _ I1)). clear C2.
  cbn [so_map_to_cube facet_ops] in M0, M1. pose proof (facet_map d N _ _ _ V0 G0 M0) as (_ & _ & R0). pose proof (facet_map d N _ _ _ V1 G1 M1) as (_ & _ & R1).
  unfold zl in E0, E1, X0, X1. rewrite <- map_rev in E1. rewrite <- map_rev in X1. rewrite hd_map in E0. rewrite hd_map in E1. rewrite hd_map in X0. rewrite hd_map in X1.
  destruct (hd_error (Zs p)) as [[e0 s0]|] eqn:Z0; [|discriminate]. destruct (hd_error (rev (Zs p))) as [[e1 s1]|] eqn:Z1; [|discriminate]. cbn [option_map fst snd] in *.
  injection E0 as <- <-. injection E1 as <- <-. injection X0 as <- <-. injection X1 as <- <-. rewrite Forall_forall in S1. destruct (S1 _ (hd_In _ _ Z0)) as [W0 P0]. destruct (S1 _ (proj2 (in_rev _ _) (hd_In _ _ Z1))) as [W1 P1]. cbn [snd] in *.
  pose proof (has_mul facet_ops false d N _ _ LW (sp_bm s0) (L (sp_pnum s0)) (g (sp_pnum s0)) W0 (proj1 (HL _ P0)) (proj2 (HL _ P0))) as (A0 & _).
  pose proof (has_mul facet_ops false d N _ _ LW (sp_bm s1) (L (sp_pnum s1)) (g (sp_pnum s1)) W1 (proj1 (HL _ P1)) (proj2 (HL _ P1))) as (_ & A1).
  split; [apply (R0 _ _ Y0'); exact A0|apply (R1 _ _ Y1'); exact A1].
Qed.
Lemma arg_mem b l k x : wf_bm d b -> fV l -> fV k -> has_link in_facet l x -> has_link in_facet k (lk_mul pt_mul b x) -> In b (fl_argmul l k).
Proof.
  intros W VL VK HL HK. pose proof (facet_laws d N ltac:(lia)) as LW. apply (proj2 (fl_argmul_exact d _ _ (fV_dim _ VL))). split; auto. destruct (fop_mul d N b (entrance l) W (proj1 VL)) as (e & E1 & E2 & E3 & _). destruct (fop_mul d N b (exit l) W (proj2 VL)) as (e' & E1' & E2' & E3' & _).
  unfold fl_mul. rewrite E2, E2'. eexists. split; [reflexivity|]. pose proof (has_mul facet_ops false d N _ _ LW b l x W VL HL) as (A & B). destruct HK as [K1 K2]. destruct VK as [VK1 VK2].
  assert (EQ : lk_mul (so_mul facet_ops) b l = if time_rev b then Lk e' e else Lk e e') by (unfold lk_mul; rewrite E1, E1'; auto). rewrite EQ in A, B. unfold lk_intersects. apply andb_true_iff.
  split; apply (facet_inter d N); eauto; destruct (time_rev b); auto.
Qed.
Lemma nth_Forall2 {A B} (R : A -> B -> Prop) l r i a b : Forall2 R l r -> nth_error l i = Some a -> nth_error r i = Some b -> R a b.
Proof. intros H. revert i. induction H; intros [|i] E1 E2; cbn in *; try discriminate; [congruence|eauto]. Qed.
Lemma Forall2_range' {A B} (R : A -> B -> Prop) (f : nat -> A) (g : nat -> B) : (forall i, i < m -> R (f i) (g i)) -> Forall2 R (map f (range m)) (map g (range m)).
Proof. intros H. unfold range. apply Forall2_map_l, Forall2_map_r. assert (HA : Forall (fun i => i < m) (seq 0 m)) by (apply Forall_forall; intros i Hi; apply in_seq in Hi; lia). induction HA; constructor; auto. Qed.
Lemma nth_map_range {A} (f : nat -> A) i : i < m -> nth_error (map f (range m)) i = Some (f i).
Proof. intros Hi. unfold range. rewrite nth_error_map, (nth_error_nth' _ 0) by (rewrite seq_length; auto). rewrite seq_nth by auto. auto. Qed.
Lemma combine_maps {A B C} (u : A -> B) (v : A -> C) l : combine (map u l) (map v l) = map (fun i => (u i, v i)) l.
Proof. induction l; cbn; [auto|f_equal; auto]. Qed.
Lemma list_map_range {A} (l : list A) : length l = m -> exists f, l = map f (range m).
Proof.
  intros HL. destruct l as [|a l'] eqn:E; [cbn in HL; lia|]. rewrite <- E in *. exists (fun i => nth i l a). apply nth_error_eq_map; auto. intros i Hi. apply nth_error_nth'. lia.
Qed.

Context (cands : list (list proto * list spec)).
Context (HC : forall links qs, In links (links_list d N m) -> Forall2 (want links None) links qs -> exists ps, Forall2 (want links None) links ps /\ same_tuple facet_ops d links qs ps /\
     forall c, group_of ps c -> In c cands).
Lemma facet_cover Zs g : system Zs g -> (forall p, p < m -> gface true (g p)) ->
  exists s t b Zs' cu sp protos, perm_on m s t /\ (forall i, i < m -> wf_bm d (b i)) /\ system Zs' (tr_l point_ops s b g) /\ sys_bnd m Zs' cu sp /\ proto_bnd d N m cu protos /\
    In (protos, spec_seq sp (range m)) cands.
Proof.
  intros HS HF. pose proof (facet_laws d N ltac:(lia)) as LW. pose proof (point_laws d N ltac:(lia)) as LP.
  (* step 1: standard facets *)
  destruct (fin_choice (fun p bl => wf_bm d (fst bl) /\ In (snd bl) (link_variants d N) /\ has_link in_facet (snd bl) (lk_mul pt_mul (fst bl) (g p))) (id_map d, Lk (facet0 d N) (facet0 d N)) m) as (f & Hf).
  { intros p Hp. destruct (HS p Hp) as (_ & (U1 & U2) & _). destruct (HF p Hp). apply facet_std; auto. }
  destruct (combs_repl_complete (link_variants d N) (dec_of_eqb _ (lk_eqb_ok fs_eqb fs_eqb_ok')) m (map (fun p => snd (f p)) (range m))) as (links & HL & PM).
  { rewrite map_length. unfold range. apply seq_length. }
  { rewrite Forall_map, Forall_forall. intros p Hp. apply in_seq in Hp. apply Hf. lia. }
  destruct (perm_index m _ links PM) as (s1 & t1 & PO1 & HI1). pose proof PO1 as [P1 _]. set (b1 := fun i => fst (f (s1 i))). assert (HB1 : forall i, i < m -> wf_bm d (b1 i)) by (intros i Hi; apply Hf, P1; auto).
  set (L1 := fun i => snd (f (s1 i))). destruct (links_ok links HL) as [LL LV]. assert (EL : links = map L1 (range m)) by (apply nth_error_eq_map; auto).
  pose proof (tr_ok point_ops true d N m _ _ LP H2 s1 t1 b1 Zs g PO1 HB1 HS) as HS1. set (Z1 := fun i => tr_z N t1 b1 (b1 i) (Zs (s1 i))) in HS1. set (g1 := tr_l point_ops s1 b1 g) in HS1.
  assert (HL1 : forall i, i < m -> fV (L1 i) /\ has_link in_facet (L1 i) (g1 i)).
  { intros i Hi. destruct (Hf (s1 i)) as (_ & A & B); [apply P1; auto|]. split; [apply variant_ok; auto|exact B]. }
  pose proof (lift_ok facet_ops false d N m _ _ LW H2 Z1 g1 HS1 L1 HL1) as HF1.
  destruct (fin_choice (fun i q => mkp facet_ops d N (zl facet_ops L1 (Z1 i)) = Some q /\ want links None (L1 i) q) (Pa (Pr 0 0 []) [] (Lk (facet0 d N) (facet0 d N))) m) as (q & Hq).
  { intros i Hi. rewrite EL. apply (chains_path facet_ops false d N m _ _ LW H2 Z1 L1 HF1 i Hi). }
  destruct (HC links (map q (range m)) HL) as (ps & WP & (rs & LR & HR & PR) & HG). { rewrite EL at 2. apply Forall2_range'. intros i Hi. apply Hq; auto. }
  (* step 2: the generated tuple of facet paths *)
  destruct (list_map_range rs) as (r & ER); [lia|]. rewrite EL, ER in HR. rewrite EL, ER in PR.
  rewrite combine_maps in HR. rewrite combine_maps in PR. destruct (perm_index m _ _ PR) as (s2 & t2 & PO2 & HI2). pose proof PO2 as [P2 _]. pose proof (Forall2_length WP) as LPS. destruct (list_map_range ps) as (pf & EPS); [lia|]. rewrite EPS, combine_maps in HI2.
  assert (HI2' : forall i, i < m -> L1 i = L1 (s2 i) /\ pf i = r (s2 i)). { intros i Hi. pose proof (HI2 i Hi) as E. rewrite nth_map_range in E by auto. injection E as E1 E2. auto. }
  destruct (fin_choice (fun i b => (wf_bm d b /\ lk_mul (so_mul facet_ops) b (L1 i) = L1 i) /\ pa_mul facet_ops b (q i) = Some (r i)) (id_map d) m) as (k0 & Hk).
  { intros i Hi. apply (nth_Forall2 _ _ _ i (L1 i, q i) (r i)) in HR; [exact HR|apply (nth_map_range (fun i => (L1 i, q i))); auto|apply nth_map_range; auto]. }
  set (k := fun i => k0 (s2 i)). assert (HB2 : forall i, i < m -> wf_bm d (k i)) by (intros i Hi; apply Hk, P2; auto).
  pose proof (tr_ok point_ops true d N m _ _ LP H2 s2 t2 k Z1 g1 PO2 HB2 HS1) as HS2. set (Z2 := fun i => tr_z N t2 k (k i) (Z1 (s2 i))) in HS2. set (g2 := tr_l point_ops s2 k g1) in HS2.
  set (L2 := tr_l facet_ops s2 k L1).
  assert (HL2 : forall i, i < m -> fV (L2 i) /\ has_link in_facet (L2 i) (g2 i)).
  { intros i Hi. destruct (P2 i Hi) as [Hs _]. destruct (HL1 _ Hs) as [V1 M1]. split; [|apply (has_mul facet_ops false d N _ _ LW); auto]. unfold L2, tr_l. destruct (Hk _ Hs) as ((_ & E) & _). fold (k i) in E. rewrite E. auto. }
  assert (HM2 : forall i, i < m -> mkp facet_ops d N (zl facet_ops L2 (Z2 i)) = Some (pf i)).
  { intros i Hi. destruct (P2 i Hi) as [Hs _]. unfold L2, Z2. rewrite (tr_zl facet_ops false d N m _ _ LW s2 t2 k (k i) L1 _ PO2 HB2 (HB2 i Hi)) by (first [apply HS1; exact Hs|intros p Hp; apply HL1; auto]). rewrite <- (pa_mul_mkp facet_ops d N (k i) _ (q (s2 i))) by (apply Hq; auto).
    rewrite (proj2 (HI2' i Hi)). apply Hk; auto. }
  (* step 3: narrow links *)
  set (L3 := fun i => pa_link (pf i)). assert (HL3 : forall i, i < m -> fV (L3 i) /\ has_link in_facet (L3 i) (g2 i)) by (intros i Hi; apply (narrow_has Z2 g2 L2); auto).
  pose proof (lift_ok facet_ops false d N m _ _ LW H2 Z2 g2 HS2 L3 HL3) as HF3. pose proof (lift_ok facet_ops false d N m _ _ LW H2 Z2 g2 HS2 L2 HL2) as HF2.
  destruct (fin_choice (fun i np => mkp facet_ops d N (zl facet_ops L3 (Z2 i)) = Some np) (Pa (Pr 0 0 []) [] (Lk (facet0 d N) (facet0 d N))) m) as (nq & Hn).
  { intros i Hi. destruct (chains_path facet_ops false d N m _ _ LW H2 Z2 L3 HF3 i Hi) as (np & E & _). eauto. }
  destruct (sys_has_bnd d N m Z2 g2 HS2) as (cu & sp & SB). destruct (sys_cu d N m ltac:(lia) HN Hm Z2 g2 cu sp HS2 SB) as (GC & WS & _).
  assert (HD : forall (L : nat -> link facet_set) i (w : bool), i < m -> hd_error (if w then rev (zl facet_ops L (Z2 i)) else zl facet_ops L (Z2 i)) = Some (cu i w, lk_mul (so_mul facet_ops) (sp_bm (sp i w)) (L (sp_pnum (sp i w))))).
  { intros L i w Hi. pose proof (SB i w Hi) as E. unfold zl. destruct w; rewrite <- ?map_rev, hd_map, E; auto. }
  set (nf := fun i => NL (pa_link (nq i)) (lk_mul (so_mul facet_ops) (sp_bm (sp i false)) (L3 (sp_pnum (sp i false)))) (lk_mul (so_mul facet_ops) (sp_bm (sp i true)) (L3 (sp_pnum (sp i true))))).
  assert (HK : forall i, i < m -> narrow_key (nq i) = Some (nf i)).
  { intros i Hi. pose proof (Hn i Hi) as E. apply mkp_path_of in E. destruct E as (E1 & E2). destruct (path_key _ _ E2 E1) as (c0 & l0 & c1 & l1 & A0 & A1 & K & _). pose proof (HD L3 i false Hi) as B0. pose proof (HD L3 i true Hi) as B1. cbn in B0, B1.
    rewrite A0 in B0. rewrite A1 in B1. injection B0 as _ ->. injection B1 as _ ->. exact K. }
  assert (EPL : map pa_link ps = map L3 (range m)) by (rewrite EPS, map_map; auto).
  assert (HNR : narrow_of ps (map nf (range m))).
  { unfold narrow_of. rewrite EPL. rewrite EPS. apply Forall2_range'. intros i Hi. exists (nq i). split; [|apply HK; auto]. pose proof (Hn i Hi) as E. apply mkp_path_of in E. destruct E as (E1 & E2). split; auto. exists (zl facet_ops L3 (Z2 i)). split; auto.
    split; [apply (HF3 i Hi)|]. pose proof (HM2 i Hi) as E3. apply mkp_path_of in E3. destruct E3 as (_ & E3). destruct E2 as (A1 & A2). destruct E3 as (B1 & B2). split.
    - rewrite A1, B1. cbn [pr_cubes]. unfold zl. rewrite !map_map. auto.
    - rewrite A2, B2. unfold zl. rewrite !map_map. destruct (HS2 i Hi) as (S1 & _). apply Forall2_map_l, Forall2_map_r. clear - S1 HL2 HL3 LW. induction S1 as [|[c s] z [W P] S1 IH]; constructor; auto. cbn [fst snd] in *.
      destruct (HL2 _ P) as [V2 M2]. destruct (HL3 _ P) as [V3 M3].
      pose proof (has_mul facet_ops false d N _ _ LW (sp_bm s) (L2 (sp_pnum s)) (g2 (sp_pnum s)) W V2 M2) as (X2 & Y2). pose proof (has_mul facet_ops false d N _ _ LW (sp_bm s) (L3 (sp_pnum s)) (g2 (sp_pnum s)) W V3 M3) as (X3 & Y3). split; eauto. }
  exists (fun i => s1 (s2 i)), (fun i => t2 (t1 i)), (fun i => bm_mul (k i) (b1 (s2 i))), Z2, cu, sp, (map pa_proto ps). split; [|split; [|split; [|split; [|split]]]].
  - destruct PO1 as [A1 A2], PO2 as [B1 B2]. split; intros i Hi.
    + destruct (B1 i Hi) as [X1 X2]. destruct (A1 _ X1) as [X3 X4]. split; auto. rewrite X4. auto.
    + destruct (A2 i Hi) as [X1 X2]. destruct (B2 _ X1) as [X3 X4]. split; auto. rewrite X4. auto.
  - intros i Hi. apply wf_mul; auto. apply HB1, P2; auto.
  - apply (chains_ext Z2 g2); auto. intros i Hi. destruct (P2 i Hi) as [Hs _]. destruct (P1 _ Hs) as [Hs' _]. destruct (HS _ Hs') as (_ & (V1 & V2) & _). unfold g2, g1, tr_l.
    symmetry. apply (lk_mul_mul point_ops true d N _ _ LP); auto.
  - exact SB.
  - split; [rewrite map_length; lia|]. intros p Hp. exists (pa_proto (pf p)). split; [rewrite EPS, map_map; apply (nth_map_range (fun i => pa_proto (pf i))); auto|].
    pose proof (HM2 p Hp) as E. apply mkp_path_of in E. destruct E as (_ & E). pose proof (chain_proto _ _ _ E (proj1 (proj2 (proj2 (HF2 p Hp))))) as VP.
    destruct (path_bnd _ _ _ _ _ _ E VP (HD L2 p false Hp) (HD L2 p true Hp)) as (A & B & C). split; auto. split; auto. intros w. rewrite C. destruct w; auto.
  - apply HG. exists (map nf (range m)), sp. split; auto. split; auto. intros p w Hp. destruct (WS p w Hp) as [W Ps]. split; auto. exists (nf p), (nf (sp_pnum (sp p w))). split; [apply nth_map_range; auto|]. split; [apply nth_map_range; auto|].
    destruct (narrow_has Z2 g2 L3 _ _ HS2 HL3 Ps (Hn _ Ps)) as (VN & MN). destruct (HL3 _ Ps) as [V3 M3]. apply (arg_mem _ _ _ (g2 (sp_pnum (sp p w)))); auto.
    + destruct w; cbn [nf nl_last nl_first]; destruct V3; unfold lk_mul; destruct (time_rev _); cbn [entrance exit]; split; apply (lw_V _ _ _ _ _ _ LW); auto.
    + replace (if w then nl_last (nf p) else nl_first (nf p)) with (lk_mul (so_mul facet_ops) (sp_bm (sp p w)) (L3 (sp_pnum (sp p w)))) by (destruct w; auto). apply (has_mul facet_ops false d N _ _ LW); auto.
Qed.
End FGroups.
