(** C33: generation of paths (paths.py:162-396). *)
From Verif Require Import Py L_Py L_Qc L_BaseMaps M_BaseMaps M_Subsets M_Paths M_PathTree M_PathGen S_BaseMaps S_Subsets S_Paths S_PathGen S_PathTree
  P_Points P_Facets P_Paths P_PathTree P_PathGlue P_PathGrow P_PathGen P_PathNext P_PathChain P_PathYield P_PathAll P_PathLaws P_PathTuples.
From Coq Require Import Permutation.
Local Open Scope nat_scope.

(** A path of points in the sense of C33: all cubes of the grid, each once; every fraction's link is an image of one of
    the given links; adjacent fractions are joined and within max_cdist; the global link is [lk]; and the object was built
    by the constructor. *)
Definition point_path (d N : nat) (links : list plink) (max_cdist : option Z) (lk : plink) (p : path (list Qc)) : Prop :=
  mk_path point_ops (pa_proto p) (pa_links p) = Some p /\
  (exists z, path_of d N z p /\ good_chain is_point pt_mul d N links max_cdist z) /\
  pa_link p = lk.
(** Links of points of the unit cube. *)
Definition unit_links (d : nat) (ls : list plink) : Prop :=
  Forall (fun l => (length (entrance l) = d /\ in_cube01 1 (entrance l)) /\ (length (exit l) = d /\ in_cube01 1 (exit l))) ls.

Lemma N1 d N : 2 <= N ^ d -> 1 <= N. Proof. intros H. destruct N; [|lia]. destruct d; cbn in H; lia. Qed.
Lemma wanted_point d N links mc lk p : 2 <= N ^ d -> unit_links d links -> unit_links d [lk] ->
  (wanted point_ops d N is_point links mc lk p <-> point_path d N links mc lk p).
Proof.
  intros H2 HL HK. pose proof (N1 d N H2) as HN. inversion HK as [|? ? ((K1 & K2) & (K3 & K4)) _]; subst. unfold wanted, point_path.
  assert (HE : forall z, mk_path point_ops (pa_proto p) (pa_links p) = Some p -> path_of (length (entrance lk)) N z p ->
     good_chain is_point pt_mul (length (entrance lk)) N links mc z -> (good_ends is_point N lk z <-> pa_link p = lk)).
  { intros z HM HP HZ. pose proof (chain_nodes point_ops true _ N _ _ (point_laws _ N HN) links HL mc z HZ) as NZ. rewrite Forall_forall in NZ.
    assert (EP : mkp point_ops (length (entrance lk)) N z = Some p) by (apply mkp_path_of; auto).
    destruct (mkp_shape _ _ _ _ _ EP) as (_ & _ & NE).
    destruct (hd_error z) as [[c0 l0]|] eqn:E0; [|destruct z; [congruence|discriminate]].
    destruct (hd_error (rev z)) as [[c1 l1]|] eqn:E1; [|destruct (rev z) eqn:ER; [|discriminate]; apply (f_equal (@rev _)) in ER; rewrite rev_involutive in ER; cbn in ER; congruence].
    rewrite (mkp_ends _ _ _ _ _ _ _ _ E0 E1) in EP. cbn [so_map_to_cube point_ops] in EP. injection EP as <-. cbn [pa_link].
    pose proof (NZ _ (hd_In _ _ E0)) as ((G0 & _) & (A0 & _) & _). pose proof (NZ _ (proj2 (in_rev _ _) (hd_In _ _ E1))) as ((G1 & _) & _ & (A1 & _)). cbn [fst snd] in *.
    unfold good_ends, meets, is_point. rewrite E0, E1.
    pose proof (pt_map_to_cube_exact N HN c0 (entrance l0) ltac:(congruence) (entrance lk)) as X0.
    pose proof (pt_map_to_cube_exact N HN c1 (exit l1) ltac:(congruence) (exit lk)) as X1. split.
    - intros ((c & l & Q1 & x & y & Q2 & Q3 & Q4) & (c' & l' & Q1' & x' & y' & Q2' & Q3' & Q4')). injection Q1 as <- <-. injection Q1' as <- <-. subst x x'. rewrite Q4 in Q3. rewrite Q4' in Q3'.
      apply X0 in Q3. apply X1 in Q3'. rewrite Q3, Q3'. destruct lk; auto.
    - intros E. destruct lk as [a b]. injection E as E2 E3. cbn [entrance exit] in *. apply X0 in E2. apply X1 in E3. split; eexists _, _; (split; [reflexivity|]); eauto. }
  split.
  - intros (HM & z & HP & HZ & HEnd). split; auto. split; [exists z; auto|]. apply (HE z); auto.
  - intros (HM & (z & HP & HZ) & HK'). split; auto. exists z. split; auto. split; auto. apply (HE z); auto.
Qed.
Lemma unit_V d ls : unit_links d ls -> Forall (fun l => unit_point d (entrance l) /\ unit_point d (exit l)) ls. Proof. auto. Qed.
Lemma keeps_pt {T} (O : subset_ops T) d lk b : keeps O d lk b <-> keeps_link (so_mul O) d lk b. Proof. unfold keeps, keeps_link, lk_mul. destruct (time_rev b); tauto. Qed.

(** PathsGenerator(dim, div, links, max_cdist).generate_paths_generic(link=lk): exactly the paths of C33, each once; for
    all limits start_max_count and finish_max_count and every hash function that respects equality. *)
Theorem C33_point_paths : forall (d N : nat) (links : list plink) (max_cdist : option Z) (lk : plink),
  2 <= N ^ d -> unit_links d links -> unit_links d [lk] ->
  exists g, mk_generator point_ops true d N links max_cdist = Some g /\
  forall hash start_max finish_max, hash_ok hash ->
  exists fuel0 res, (forall fuel, fuel0 <= fuel -> pg_generic point_ops true g hash fuel start_max finish_max false (Some lk) None = Some res) /\
    NoDup res /\ forall p, In p res <-> point_path d N links max_cdist lk p.
Proof.
  intros d N links mc lk H2 HL HK. pose proof (point_laws d N (N1 d N H2)) as LW.
  destruct (generator_exists point_ops true d N _ _ LW links HL mc) as (g & HG & _). exists g. split; auto. intros hash sm fm HH.
  inversion HK as [|? ? (K1 & K2) _]; subst. destruct (generic_link point_ops true d N _ _ LW links HL mc H2 lk K1 K2 g hash sm fm HH HG) as (F & res & A & B & C).
  exists F, res. split; auto. split; auto. intros p. rewrite C. apply wanted_point; auto.
Qed.
Print Assumptions C33_point_paths.

(** std=True: one path of each class under the base maps that keep the link. *)
Theorem C33_point_paths_std : forall (d N : nat) (links : list plink) (max_cdist : option Z) (lk : plink),
  2 <= N ^ d -> unit_links d links -> unit_links d [lk] ->
  exists g, mk_generator point_ops true d N links max_cdist = Some g /\
  forall hash start_max finish_max, hash_ok hash ->
  exists fuel0 res, (forall fuel, fuel0 <= fuel -> pg_generic point_ops true g hash fuel start_max finish_max true (Some lk) None = Some res) /\
    NoDup res /\ (forall p, In p res -> point_path d N links max_cdist lk p) /\
    forall p, point_path d N links max_cdist lk p ->
      exists q, (In q res /\ exists b, keeps_link pt_mul d lk b /\ pa_mul point_ops b p = Some q) /\
                forall q', In q' res -> (exists b, keeps_link pt_mul d lk b /\ pa_mul point_ops b p = Some q') -> q' = q.
Proof.
  intros d N links mc lk H2 HL HK. pose proof (point_laws d N (N1 d N H2)) as LW.
  destruct (generator_exists point_ops true d N _ _ LW links HL mc) as (g & HG & _). exists g. split; auto. intros hash sm fm HH.
  inversion HK as [|? ? (K1 & K2) _]; subst. destruct (generic_std point_ops true d N _ _ LW links HL mc H2 lk K1 K2 g hash sm fm HH HG) as (F & res & A & B & C & D).
  exists F, res. split; auto. split; auto. split; [intros p Hp; apply wanted_point; auto|]. intros p Hp.
  destruct (D p) as (q & (Q1 & b & Q2 & Q3) & Q4); [apply wanted_point; auto|]. exists q. split.
  - split; auto. exists b. split; [exact Q2|auto].
  - intros q' Hq' (b' & B1 & B2). apply Q4; auto. exists b'. split; [exact B1|auto].
Qed.
Print Assumptions C33_point_paths_std.

(** Path.is_continuous() is True for each of these paths. *)
Theorem C33_continuous : forall d N links max_cdist lk p, 2 <= N ^ d -> unit_links d links -> point_path d N links max_cdist lk p ->
  pa_is_continuous point_ops p = Some true.
Proof.
  intros d N links mc lk p H2 HL (HM & (z & HP & HZ) & HK). pose proof (N1 d N H2) as HN.
  pose proof (chain_nodes point_ops true _ N _ _ (point_laws _ N HN) links HL mc z HZ) as NZ. rewrite Forall_forall in NZ. destruct HP as (P1 & P2).
  assert (HVP : valid_ppath d p).
  { constructor; try rewrite P1; cbn; auto.
    - rewrite Forall_map, Forall_forall. intros x Hx. exists (fst x). split; auto. apply NZ; auto.
    - rewrite P2, Forall_map, Forall_forall. intros x Hx. apply NZ in Hx. split; apply Hx.
    - rewrite P2, !map_length. auto.
    - rewrite P2. destruct z; [|discriminate]. destruct (mkp_shape point_ops d N [] p) as (_ & _ & NE); [unfold mkp; rewrite <- P1, <- P2; auto|congruence].
    - rewrite <- P1; auto. }
  destruct (is_continuous_exact d p HVP) as (r & E & HR). rewrite E. f_equal. apply HR. intros i c l c' l' y E1 E2 E3 E4. rewrite P1 in *. cbn [pr_cubes pr_div] in *. rewrite P2 in *.
  rewrite nth_error_map in E1, E2, E3, E4. destruct (nth_error z i) as [[c0 l0]|] eqn:F1; [|discriminate]. destruct (nth_error z (S i)) as [[c1 l1]|] eqn:F2; [|discriminate].
  cbn in E1, E2, E3, E4. injection E1 as <-. injection E2 as <-. injection E3 as <-. injection E4 as <-.
  pose proof HZ as [_ _ _ G4]. destruct (G4 i _ _ _ _ F1 F2) as ((x & x' & w & X1 & X2 & X3 & X4) & _). unfold is_point in X1, X2. subst x x'.
  pose proof (nth_error_In _ _ F1) as I1. pose proof (nth_error_In _ _ F2) as I2. apply NZ in I1, I2. cbn [fst snd] in *.
  destruct I1 as ((L0 & _) & _ & (L0' & _)), I2 as ((L1 & _) & (L1' & _) & _).
  apply (pt_map_to_cube_exact N HN) in X3; [|congruence]. apply (pt_map_to_cube_exact N HN) in X4; [|congruence].
  rewrite <- !(pt_map_to_cube_exact N HN) by congruence. rewrite X3, X4. tauto.
Qed.
Print Assumptions C33_continuous.

(** The same for links between facet sets (FacetDivSubset): adjacent fractions have a common point of the exit set and the
    entrance set, and the ends of the path meet the given sets. *)
Definition facet_links (d N : nat) (ls : list (link facet_set)) : Prop :=
  Forall (fun l => (valid_facet (entrance l) /\ fs_dim (entrance l) = d /\ fs_div (entrance l) = N) /\
                   (valid_facet (exit l) /\ fs_dim (exit l) = d /\ fs_div (exit l) = N)) ls.
Definition facet_path (d N : nat) (links : list (link facet_set)) (max_cdist : option Z) (lk : link facet_set) (p : path facet_set) : Prop :=
  mk_path facet_ops (pa_proto p) (pa_links p) = Some p /\
  exists z, path_of d N z p /\ good_chain in_facet (so_mul facet_ops) d N links max_cdist z /\ good_ends in_facet N lk z.
Theorem C33_facet_paths : forall (d N : nat) (links : list (link facet_set)) (max_cdist : option Z) (lk : link facet_set),
  2 <= N ^ d -> facet_links d N links -> facet_links d N [lk] ->
  exists g, mk_generator facet_ops false d N links max_cdist = Some g /\
  forall hash start_max finish_max, hash_ok hash ->
  exists fuel0 res, (forall fuel, fuel0 <= fuel -> pg_generic facet_ops false g hash fuel start_max finish_max false (Some lk) None = Some res) /\
    NoDup res /\ forall p, In p res <-> facet_path d N links max_cdist lk p.
Proof.
  intros d N links mc lk H2 HL HK. pose proof (facet_laws d N (N1 d N H2)) as LW.
  destruct (generator_exists facet_ops false d N _ _ LW links HL mc) as (g & HG & _). exists g. split; auto. intros hash sm fm HH.
  inversion HK as [|? ? (K1 & K2) _]; subst. apply (generic_link facet_ops false d N _ _ LW links HL mc H2 lk K1 K2 g hash sm fm HH HG).
Qed.
Print Assumptions C33_facet_paths.
Theorem C33_facet_paths_std : forall (d N : nat) (links : list (link facet_set)) (max_cdist : option Z) (lk : link facet_set),
  2 <= N ^ d -> facet_links d N links -> facet_links d N [lk] ->
  exists g, mk_generator facet_ops false d N links max_cdist = Some g /\
  forall hash start_max finish_max, hash_ok hash ->
  exists fuel0 res, (forall fuel, fuel0 <= fuel -> pg_generic facet_ops false g hash fuel start_max finish_max true (Some lk) None = Some res) /\
    NoDup res /\ (forall p, In p res -> facet_path d N links max_cdist lk p) /\
    forall p, facet_path d N links max_cdist lk p ->
      exists q, (In q res /\ exists b, keeps_link (so_mul facet_ops) d lk b /\ pa_mul facet_ops b p = Some q) /\
                forall q', In q' res -> (exists b, keeps_link (so_mul facet_ops) d lk b /\ pa_mul facet_ops b p = Some q') -> q' = q.
Proof.
  intros d N links mc lk H2 HL HK. pose proof (facet_laws d N (N1 d N H2)) as LW.
  destruct (generator_exists facet_ops false d N _ _ LW links HL mc) as (g & HG & _). exists g. split; auto. intros hash sm fm HH.
  inversion HK as [|? ? (K1 & K2) _]; subst. destruct (generic_std facet_ops false d N _ _ LW links HL mc H2 lk K1 K2 g hash sm fm HH HG) as (F & res & A & B & C & D).
  exists F, res. split; [auto|]. split; [auto|]. split; [exact C|]. exact D.
Qed.
Print Assumptions C33_facet_paths_std.

(** generate_paths(links=ls): without std all tuples of paths; with std one tuple for each class, where tuples are
    identified if they differ by base maps keeping the links and by permutations of the positions with equal links. *)
Definition same_paths (d : nat) (ls : list plink) (qs ps : list (path (list Qc))) : Prop :=
  exists rs, length rs = length ls /\
    Forall2 (fun lq r => exists b, keeps_link pt_mul d (fst lq) b /\ pa_mul point_ops b (snd lq) = Some r) (combine ls qs) rs /\
    Permutation (combine ls rs) (combine ls ps).
Theorem C33_tuples : forall (d N : nat) (links : list plink) (max_cdist : option Z) (ls : list plink),
  2 <= N ^ d -> unit_links d links -> unit_links d ls ->
  exists g, mk_generator point_ops true d N links max_cdist = Some g /\
  forall hash start_max finish_max, hash_ok hash ->
  exists fuel0 res sres,
    (forall fuel, fuel0 <= fuel -> generate_paths point_ops true g hash fuel start_max finish_max (Some ls) None false = Some res /\
                                   generate_paths point_ops true g hash fuel start_max finish_max (Some ls) None true = Some sres) /\
    (NoDup res /\ forall ps, In ps res <-> Forall2 (point_path d N links max_cdist) ls ps) /\
    (NoDup sres /\ (forall ps, In ps sres -> Forall2 (point_path d N links max_cdist) ls ps) /\
     forall qs, Forall2 (point_path d N links max_cdist) ls qs ->
       exists ps, (In ps sres /\ same_paths d ls qs ps) /\ forall ps', In ps' sres -> same_paths d ls qs ps' -> ps' = ps).
Proof.
  intros d N links mc ls H2 HL HK. pose proof (point_laws d N (N1 d N H2)) as LW.
  destruct (generator_exists point_ops true d N _ _ LW links HL mc) as (g & HG & _). exists g. split; auto. intros hash sm fm HH.
  destruct (tuples_product point_ops true d N _ _ LW links HL mc H2 g HG hash HH sm fm ls HK) as (F1 & res & A1 & A2 & A3).
  destruct (tuples_std point_ops true d N _ _ LW links HL mc H2 g HG hash HH sm fm ls HK) as (F2 & sres & B1 & B2 & B3 & B4).
  exists (F1 + F2), res, sres. split; [intros fuel Hf; split; [apply A1|apply B1]; lia|].
  assert (HW : forall ps, Forall2 (wanted point_ops d N is_point links mc) ls ps <-> Forall2 (point_path d N links mc) ls ps).
  { intros ps. clear - HK H2 HL. revert ps. induction HK as [|l ls Hl HK IH]; intros [|p ps]; split; intros H; inversion H; subst; constructor;
      try (apply IH; assumption); apply (wanted_point d N links mc l p H2 HL); auto; constructor; auto. }
  assert (HS : forall qs ps, same_tuple point_ops d ls qs ps <-> same_paths d ls qs ps).
  { intros qs ps. unfold same_tuple, same_paths. split; intros (rs & Q1 & Q2 & Q3); exists rs; (split; [auto|split; auto]);
      (eapply P_Subsets.Forall2_impl'; [|exact Q2]); intros lq r (b & B5 & B6); exists b; (split; [exact B5|auto]). }
  split; [split; auto; intros ps; rewrite A3; apply HW|]. split; auto. split; [intros ps Hps; apply HW; auto|].
  intros qs Hqs. apply HW in Hqs. destruct (B4 qs Hqs) as (ps & (P1 & P2) & P3). exists ps. split; [split; auto; apply HS; auto|]. intros ps2 Hps2 HS2. exact (P3 ps2 Hps2 (proj2 (HS qs ps2) HS2)).
Qed.
Print Assumptions C33_tuples.

(** Non-trivial instances: the Hilbert path, two Peano paths, and paths through facets. *)
Definition qpt (l : list Z) : list Qc := map Zq l.
Definition count_paths (d N : nat) (links : list plink) (std : bool) (lk : plink) : option nat :=
  obind (mk_generator point_ops true d N links None)
        (fun g => option_map (@length _) (pg_generic point_ops true g (fun _ => 0%Z) 40 10 (Some 10) std (Some lk) None)).
Example C33_example :
  hash_ok (fun _ : future_t plink => 0%Z) /\
  unit_links 2 [Lk (qpt [0; 0]%Z) (qpt [1; 0]%Z)] /\ unit_links 2 [Lk (qpt [0; 0]%Z) (qpt [1; 1]%Z)] /\
  obind (mk_generator point_ops true 2 2 [Lk (qpt [0; 0]%Z) (qpt [1; 0]%Z)] None)
        (fun g => option_map (map (fun p => pr_cubes (pa_proto p)))
                    (pg_generic point_ops true g (fun _ => 0%Z) 40 10 (Some 10) false (Some (Lk (qpt [0; 0]%Z) (qpt [1; 0]%Z))) None))
    = Some [map Some [[0; 0]; [0; 1]; [1; 1]; [1; 0]]%Z] /\
  count_paths 2 3 [Lk (qpt [0; 0]%Z) (qpt [1; 1]%Z)] false (Lk (qpt [0; 0]%Z) (qpt [1; 1]%Z)) = Some 6 /\
  count_paths 2 3 [Lk (qpt [0; 0]%Z) (qpt [1; 1]%Z)] true (Lk (qpt [0; 0]%Z) (qpt [1; 1]%Z)) = Some 2.
Proof.
  split; [intros ? ?; auto|]. split; [|split; [|split; [|split]]].
  - repeat constructor; vm_compute; discriminate.
  - repeat constructor; vm_compute; discriminate.
  - vm_compute. reflexivity.
  - vm_compute. reflexivity.
  - vm_compute. reflexivity.
Qed.
Example C33_facet_example :
  let l := Lk (FS 2 2 (0, 0%Z) []) (FS 2 2 (1, 0%Z) []) in let lk := Lk (FS 2 2 (0, 0%Z) [[0%Z]]) (FS 2 2 (0, 1%Z) [[0%Z]]) in
  facet_links 2 2 [l] /\ facet_links 2 2 [lk] /\
  obind (mk_generator facet_ops false 2 2 [l] None)
        (fun g => option_map (@length _) (pg_generic facet_ops false g (fun _ => 0%Z) 40 10 (Some 10) false (Some lk) None)) = Some 1.
Proof.
  cbv zeta. split; [|split].
  - repeat constructor; cbn; lia.
  - repeat constructor; cbn; lia.
  - vm_compute. reflexivity.
Qed.
