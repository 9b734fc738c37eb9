(** C45: generation of paths along a parent path, and get_paths_example (paths.py:257-396). *)
From Verif Require Import Py L_Py L_Qc L_BaseMaps M_BaseMaps M_Subsets M_Paths M_PathTree M_PathGen S_BaseMaps S_Subsets S_Paths S_PathGen S_PathTree
  P_Points P_Facets P_Paths P_PathTree P_PathGlue P_PathGrow P_PathGen P_PathNext P_PathChain P_PathYield P_PathAll P_PathLaws P_PathTuples P_PathParent T_PathGen.
From Coq Require Import Permutation.
Local Open Scope nat_scope.

(** A parent: a path built by the constructor that visits every cube of the grid once, with links between facet sets. It
    need not be continuous. *)
Definition facet_parent (d N : nat) (P : path facet_set) : Prop :=
  mk_path facet_ops (pa_proto P) (pa_links P) = Some P /\
  exists zp, path_of d N zp P /\ NoDup (map fst zp) /\ (forall c, grid_cube d N c <-> In c (map fst zp)) /\ facet_links d N (map snd zp).
(** A path along the parent: all cubes in the order of the parent; every fraction's link is an image of one of the given
    links and meets the link of the parent in this fraction, at the entrance and at the exit; adjacent fractions are joined
    and within max_cdist. *)
Definition facet_along (d N : nat) (links : list (link facet_set)) (max_cdist : option Z) (P p : path facet_set) : Prop :=
  mk_path facet_ops (pa_proto p) (pa_links p) = Some p /\
  exists z, path_of d N z p /\ good_chain in_facet (so_mul facet_ops) d N links max_cdist z /\ follows in_facet P p.

Lemma facet_int d N s t : facet_of d N s -> facet_of d N t -> (so_intersects facet_ops s t = true <-> exists x, in_facet s x /\ in_facet t x).
Proof. apply facet_inter. Qed.
Lemma facet_mapc d N c s t r : facet_of d N s -> facet_of d N t -> grid_cube d N c -> so_intersects facet_ops t s = true -> so_map_to_cube facet_ops N c s = Some r ->
  exists r', so_map_to_cube facet_ops N c t = Some r'.
Proof.
  intros (A1 & A2 & A3) (B1 & B2 & B3) _ HI. cbn [so_intersects so_map_to_cube facet_ops] in *. apply fs_intersects_iff in HI. destruct HI as (HF & _).
  unfold fs_map_to_cube, fs_edge. rewrite A3, B3, HF. destruct (Nat.eqb N N); [|discriminate]. destruct (nth_error c (fst (fs_facet s))); [|discriminate].
  destruct (_ =? _)%Z; [|discriminate]. eauto.
Qed.
Lemma facet_parent_ok d N P : facet_parent d N P <-> parent_ok facet_ops d N (facet_of d N) P.
Proof.
  unfold facet_parent, parent_ok, facet_links, facet_of. split; intros (A & zp & B1 & B2 & B3 & B4); split; auto; exists zp; (split; [auto|split; [auto|split; [auto|]]]).
  - rewrite Forall_map in B4. exact B4.
  - rewrite Forall_map. exact B4.
Qed.
Theorem C45_facet_parent : forall (d N : nat) (links : list (link facet_set)) (max_cdist : option Z) (P : path facet_set),
  2 <= N ^ d -> facet_links d N links -> facet_parent d N P ->
  exists g, mk_generator facet_ops false d N links max_cdist = Some g /\
  forall hash start_max finish_max, hash_ok hash ->
  exists fuel0 res, (forall fuel, fuel0 <= fuel -> pg_generic facet_ops false g hash fuel start_max finish_max false None (Some P) = Some res) /\
    NoDup res /\ forall p, In p res <-> facet_along d N links max_cdist P p.
Proof.
  intros d N links mc P H2 HL HP. pose proof (facet_laws d N (N1 d N H2)) as LW. apply facet_parent_ok in HP.
  destruct (generator_exists facet_ops false d N _ _ LW links HL mc) as (g & HG & _). exists g. split; auto. intros hash sm fm HH.
  apply (generic_parent facet_ops false d N _ _ LW (facet_int d N) (facet_mapc d N) links HL mc H2 P HP g hash sm fm HH HG).
Qed.
Print Assumptions C45_facet_parent.
(** std=True: one path of each class under the base maps that keep the parent. *)
Theorem C45_facet_parent_std : forall (d N : nat) (links : list (link facet_set)) (max_cdist : option Z) (P : path facet_set),
  2 <= N ^ d -> facet_links d N links -> facet_parent d N P ->
  exists g, mk_generator facet_ops false d N links max_cdist = Some g /\
  forall hash start_max finish_max, hash_ok hash ->
  exists fuel0 res, (forall fuel, fuel0 <= fuel -> pg_generic facet_ops false g hash fuel start_max finish_max true None (Some P) = Some res) /\
    NoDup res /\ (forall p, In p res -> facet_along d N links max_cdist P p) /\
    forall p, facet_along d N links max_cdist P p ->
      exists q, (In q res /\ exists b, (wf_bm d b /\ pa_mul facet_ops b P = Some P) /\ pa_mul facet_ops b p = Some q) /\
                forall q', In q' res -> (exists b, (wf_bm d b /\ pa_mul facet_ops b P = Some P) /\ pa_mul facet_ops b p = Some q') -> q' = q.
Proof.
  intros d N links mc P H2 HL HP. pose proof (facet_laws d N (N1 d N H2)) as LW. apply facet_parent_ok in HP.
  destruct (generator_exists facet_ops false d N _ _ LW links HL mc) as (g & HG & _). exists g. split; auto. intros hash sm fm HH.
  apply (generic_parent_std facet_ops false d N _ _ LW (facet_int d N) (facet_mapc d N) links HL mc H2 P HP g hash sm fm HH HG).
Qed.
Print Assumptions C45_facet_parent_std.
(** The generated facet paths, with a link or with a parent, are themselves parents. *)
Theorem C45_parents : forall (d N : nat) (links : list (link facet_set)) (max_cdist : option Z) (lk : link facet_set) (P p : path facet_set),
  2 <= N ^ d -> facet_links d N links ->
  facet_path d N links max_cdist lk p \/ facet_along d N links max_cdist P p -> facet_parent d N p.
Proof.
  intros d N links mc lk P p H2 HL HH. pose proof (facet_laws d N (N1 d N H2)) as LW.
  assert (exists z, mk_path facet_ops (pa_proto p) (pa_links p) = Some p /\ path_of d N z p /\ good_chain in_facet (so_mul facet_ops) d N links mc z) as (z & A & B & C).
  { destruct HH as [(A & z & B & C & _)|(A & z & B & C & _)]; exists z; auto. }
  pose proof (chain_nodes facet_ops false d N _ _ LW links HL mc z C) as NZ. split; auto. exists z. destruct C as [C1 C2 C3 C4]. split; auto. split; auto. split; auto.
  unfold facet_links. rewrite Forall_map. eapply Forall_impl; [|exact NZ]. cbn. unfold facet_of. tauto.
Qed.
Print Assumptions C45_parents.

(** The same for points: the links of the parent must be met in a point, so the parent is the only candidate. *)
Definition point_parent (d N : nat) (P : path (list Qc)) : Prop :=
  mk_path point_ops (pa_proto P) (pa_links P) = Some P /\
  exists zp, path_of d N zp P /\ NoDup (map fst zp) /\ (forall c, grid_cube d N c <-> In c (map fst zp)) /\ unit_links d (map snd zp).
Lemma point_parent_ok d N P : point_parent d N P -> parent_ok point_ops d N (unit_point d) P.
Proof.
  intros (A & zp & B1 & B2 & B3 & B4). split; auto. exists zp. split; auto. split; auto. split; auto. unfold unit_links in B4. rewrite Forall_map in B4. exact B4.
Qed.
Lemma point_int d s t : unit_point d s -> unit_point d t -> (so_intersects point_ops s t = true <-> exists x, is_point s x /\ is_point t x).
Proof.
  intros _ _. cbn [so_intersects point_ops]. rewrite (P_Subsets.pt_eqb_ok s t). unfold is_point. split; [intros ->; eauto|intros (x & -> & ->); auto].
Qed.
Theorem C45_point_parent : forall (d N : nat) (links : list plink) (max_cdist : option Z) (P : path (list Qc)),
  2 <= N ^ d -> unit_links d links -> point_parent d N P ->
  exists g, mk_generator point_ops true d N links max_cdist = Some g /\
  forall hash start_max finish_max, hash_ok hash ->
  exists fuel0 res, (forall fuel, fuel0 <= fuel -> pg_generic point_ops true g hash fuel start_max finish_max false None (Some P) = Some res) /\
    NoDup res /\ forall p, In p res <-> p = P /\ exists z, path_of d N z P /\ good_chain is_point pt_mul d N links max_cdist z.
Proof.
  intros d N links mc P H2 HL HP. pose proof (point_laws d N (N1 d N H2)) as LW. pose proof (point_parent_ok d N P HP) as HPO.
  destruct (generator_exists point_ops true d N _ _ LW links HL mc) as (g & HG & _). exists g. split; auto. intros hash sm fm HH.
  destruct (generic_parent point_ops true d N _ _ LW (point_int d) ltac:(intros; eexists; reflexivity) links HL mc H2 P HPO g hash sm fm HH HG) as (F & res & A & B & C).
  exists F, res. split; auto. split; auto. intros p. rewrite C. unfold wanted_along. split.
  - intros (HM & z & PZ & HZ & (F1 & F2)). assert (EL : pa_links p = pa_links P).
    { clear - F2. induction F2 as [|[a b] [a' b'] l l' ((x & X1 & X2) & (y & Y1 & Y2)) F2 IH]; auto. unfold is_point in *. cbn in *. subst. congruence. }
    assert (EQ : p = P).
    { destruct HP as (MP & zp & (P1 & P2) & _). destruct PZ as (Q1 & Q2). assert (pa_proto p = pa_proto P) by (rewrite Q1, P1 in *; cbn [pr_cubes] in F1; congruence).
      rewrite H, EL in HM. congruence. }
    subst p. split; auto. exists z. auto.
  - intros (-> & z & PZ & HZ). destruct HP as (MP & _). split; auto. exists z. split; auto. split; auto. split; auto. clear. induction (pa_links P); constructor; auto.
    split; eexists; split; reflexivity.
Qed.
Print Assumptions C45_point_parent.

(** get_paths_example(links=ls): a tuple of paths if every link has a path, None otherwise. *)
Theorem C45_example_links : forall (d N : nat) (links : list plink) (max_cdist : option Z) (ls : list plink) (std : bool),
  2 <= N ^ d -> unit_links d links -> unit_links d ls ->
  exists g, mk_generator point_ops true d N links max_cdist = Some g /\
  forall hash start_max finish_max, hash_ok hash ->
  exists fuel0 res, (forall fuel, fuel0 <= fuel -> get_paths_example point_ops true g hash fuel start_max finish_max (Some ls) None std = Some res) /\
    match res with
    | Some ps => Forall2 (point_path d N links max_cdist) ls ps
    | None => exists lk, In lk ls /\ forall p, ~ point_path d N links max_cdist lk p
    end.
Proof.
  intros d N links mc ls std H2 HL HK. destruct (generator_exists point_ops true d N _ _ (point_laws d N (N1 d N H2)) links HL mc) as (g & HG & _). exists g. split; auto. intros hash sm fm HH.
  unfold get_paths_example. cbn [restrictions obind].
  destruct (examples_spec point_ops true g hash sm fm std (fun r p => exists lk, fst r = Some lk /\ point_path d N links mc lk p) (map (fun l => (Some l, None)) ls)) as (F & res & A & B).
  - rewrite Forall_map. eapply Forall_impl; [|exact HK]. intros lk KL. cbn [fst snd]. assert (HK1 : unit_links d [lk]) by (repeat constructor; apply KL). destruct std.
    + destruct (C33_point_paths_std d N links mc lk H2 HL HK1) as (g' & HG' & HR). rewrite HG in HG'. injection HG' as <-. destruct (HR hash sm fm HH) as (F & res & R1 & R2 & R3 & R4).
      exists F, res. split; auto. split; [eauto|]. intros p (lk' & [= <-] & Hp) ->. destruct (R4 p Hp) as (q & ([] & _) & _).
    + destruct (C33_point_paths d N links mc lk H2 HL HK1) as (g' & HG' & HR). rewrite HG in HG'. injection HG' as <-. destruct (HR hash sm fm HH) as (F & res & R1 & R2 & R3).
      exists F, res. split; auto. split; [intros p Hp; apply R3 in Hp; eauto|]. intros p (lk' & [= <-] & Hp) ->. apply R3 in Hp. destruct Hp.
  - exists F, res. split; auto. destruct res as [ps|].
    + clear - B. revert ps B. induction ls as [|l ls IH]; intros ps B; inversion B as [|? p ? ps' W B']; subst; constructor; auto. destruct W as (lk & E & W). cbn in E. injection E as <-. auto.
    + destruct B as (r & Hr & HW). apply in_map_iff in Hr. destruct Hr as (lk & <- & Hl). exists lk. split; auto. intros p Hp. apply (HW p). exists lk. auto.
Qed.
Print Assumptions C45_example_links.
(** get_paths_example(parents=Ps). *)
Theorem C45_example_parents : forall (d N : nat) (links : list (link facet_set)) (max_cdist : option Z) (Ps : list (path facet_set)) (std : bool),
  2 <= N ^ d -> facet_links d N links -> Forall (facet_parent d N) Ps ->
  exists g, mk_generator facet_ops false d N links max_cdist = Some g /\
  forall hash start_max finish_max, hash_ok hash ->
  exists fuel0 res, (forall fuel, fuel0 <= fuel -> get_paths_example facet_ops false g hash fuel start_max finish_max None (Some Ps) std = Some res) /\
    match res with
    | Some ps => Forall2 (facet_along d N links max_cdist) Ps ps
    | None => exists P, In P Ps /\ forall p, ~ facet_along d N links max_cdist P p
    end.
Proof.
  intros d N links mc Ps std H2 HL HK. destruct (generator_exists facet_ops false d N _ _ (facet_laws d N (N1 d N H2)) links HL mc) as (g & HG & _). exists g. split; auto. intros hash sm fm HH.
  unfold get_paths_example. cbn [restrictions obind].
  destruct (examples_spec facet_ops false g hash sm fm std (fun r p => exists P, snd r = Some P /\ facet_along d N links mc P p) (map (fun P => (None, Some P)) Ps)) as (F & res & A & B).
  - rewrite Forall_map. eapply Forall_impl; [|exact HK]. intros P HP. cbn [fst snd]. destruct std.
    + destruct (C45_facet_parent_std d N links mc P H2 HL HP) as (g' & HG' & HR). rewrite HG in HG'. injection HG' as <-. destruct (HR hash sm fm HH) as (F & res & R1 & R2 & R3 & R4).
      exists F, res. split; auto. split; [eauto|]. intros p (P' & [= <-] & Hp) ->. destruct (R4 p Hp) as (q & ([] & _) & _).
    + destruct (C45_facet_parent d N links mc P H2 HL HP) as (g' & HG' & HR). rewrite HG in HG'. injection HG' as <-. destruct (HR hash sm fm HH) as (F & res & R1 & R2 & R3).
      exists F, res. split; auto. split; [intros p Hp; apply R3 in Hp; eauto|]. intros p (P' & [= <-] & Hp) ->. apply R3 in Hp. destruct Hp.
  - exists F, res. split; auto. destruct res as [ps|].
    + clear - B. revert ps B. induction Ps as [|P Ps IH]; intros ps B; inversion B as [|? p ? ps' W B']; subst; constructor; auto. destruct W as (P' & E & W). cbn in E. injection E as <-. auto.
    + destruct B as (r & Hr & HW). apply in_map_iff in Hr. destruct Hr as (P & <- & HP). exists P. split; auto. intros p Hp. apply (HW p). exists P. auto.
Qed.
Print Assumptions C45_example_parents.

(** A facet path of the 2-grid and a narrower path along it. *)
Definition wide : link facet_set := Lk (FS 2 2 (0, 0%Z) []) (FS 2 2 (0, 1%Z) []).
Definition wide_paths : option (list (path facet_set)) :=
  obind (mk_generator facet_ops false 2 2 [Lk (FS 2 2 (0, 0%Z) []) (FS 2 2 (1, 0%Z) []); wide] None)
        (fun g => pg_generic facet_ops false g (fun _ => 0%Z) 60 10 (Some 10) false (Some wide) None).
Definition narrow : list (link facet_set) := map (fun f => Lk (FS 2 2 (0, 0%Z) [[0%Z]]) f) [FS 2 2 (1, 0%Z) [[0%Z]]; FS 2 2 (0, 1%Z) [[0%Z]]; FS 2 2 (0, 1%Z) [[1%Z]]; FS 2 2 (1, 1%Z) [[0%Z]]; FS 2 2 (1, 1%Z) [[1%Z]]].
Definition narrow_count (P : path facet_set) : option nat :=
  obind (mk_generator facet_ops false 2 2 narrow None)
        (fun g => option_map (@length _) (pg_generic facet_ops false g (fun _ => 0%Z) 60 10 (Some 10) false None (Some P))).
Example C45_example : facet_links 2 2 [wide] /\ facet_links 2 2 narrow /\
  obind wide_paths (fun ps => omap narrow_count ps) = Some [32; 32].
Proof.
  split; [|split].
  - repeat constructor; cbn; lia.
  - unfold narrow. cbn [map]. unfold facet_links. apply Forall_forall. intros l H. cbn in H.
    repeat (destruct H as [<-|H]; [repeat constructor; cbn; lia|]). destruct H.
  - vm_compute. reflexivity.
Qed.
