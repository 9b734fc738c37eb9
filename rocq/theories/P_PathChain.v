(** Proofs about the generator of paths: the paths of the tree are the continuous paths. *)
From Verif Require Import Py L_Py L_Qc L_BaseMaps M_BaseMaps M_Subsets M_Paths M_PathTree M_PathGen S_BaseMaps S_Subsets S_PathGen S_PathTree
  P_GenMaps P_Actions P_Subsets P_Facets P_Paths P_PathTree P_PathGlue P_PathGrow P_PathGen P_PathNext.
From Coq Require Import Permutation.
Local Open Scope nat_scope.

Lemma l1_dist_sym c c' : l1_dist c c' = l1_dist c' c.
Proof.
  unfold l1_dist. revert c'; induction c as [|x c IH]; intros [|y c']; cbn; auto. rewrite IH. lia.
Qed.
Lemma near_sym mc c c' : near mc c c' <-> near mc c' c.
Proof. unfold near. destruct mc; [|tauto]. rewrite l1_dist_sym. tauto. Qed.
Lemma touch_sym {T} (mem : T -> list Qc -> Prop) N c s c' t : touch mem N c s c' t <-> touch mem N c' t c s.
Proof. split; intros (x & x' & y & H); exists x', x, y; tauto. Qed.
Definition zsub (c c' : list Z) : list Z := map (fun cc => (snd cc - fst cc)%Z) (combine c c').
Lemma zsub_length c c' : length c = length c' -> length (zsub c c') = length c.
Proof. intros. unfold zsub. rewrite map_length, combine_length. lia. Qed.
Lemma zadd_zsub c c' : length c = length c' -> zadd c (zsub c c') = c'.
Proof. unfold zadd, zsub. revert c'; induction c as [|x c IH]; intros [|y c']; cbn; try discriminate; auto. intros [= HL]. f_equal; [lia|auto]. Qed.
Lemma zsub_zadd c dl : length c = length dl -> zsub c (zadd c dl) = dl.
Proof. unfold zadd, zsub. revert dl; induction c as [|x c IH]; intros [|y c']; cbn; try discriminate; auto. intros [= HL]. f_equal; [lia|auto]. Qed.
Lemma zsub_zero c c' : length c = length c' -> (Forall (fun z => z = 0%Z) (zsub c c') <-> c = c').
Proof.
  unfold zsub. revert c'; induction c as [|x c IH]; intros [|y c']; cbn; try discriminate; [split; auto|]. intros [= HL].
  rewrite Forall_cons_iff. cbn [fst snd]. split.
  - intros (H1 & H2). f_equal; [lia|]. apply IH; auto.
  - intros [= <- <-]. split; [lia|]. apply IH; auto.
Qed.
Lemma cdist_near mc c c' : cdist_ok mc (zsub c c') = true <-> near mc c c'.
Proof.
  unfold cdist_ok, near. destruct mc as [m|]; [|tauto]. rewrite Z.leb_le. unfold cdist, l1_dist, zsub. rewrite map_map. tauto.
Qed.
Lemma steps_nth {A} (R : A -> A -> Prop) l : steps R l <-> forall i x y, nth_error l i = Some x -> nth_error l (S i) = Some y -> R x y.
Proof.
  induction l as [|a [|b l] IH].
  - split; [|cbn; auto]. intros _ [|i] x y; cbn; discriminate.
  - split; [|cbn; auto]. intros _ i x y; cbn. destruct i; discriminate.
  - cbn [steps]. rewrite IH. split.
    + intros (H1 & H2) [|i] x y E1 E2; [cbn in E1, E2; congruence|]. apply (H2 i); auto.
    + intros H. split; [apply (H 0); auto|]. intros i x y E1 E2. apply (H (S i)); auto.
Qed.

Section Chain.
Context {T : Type} (O : subset_ops T) (pt : bool) (d N : nat) (V : T -> Prop) (mem : T -> list Qc -> Prop) (L : laws O pt d N V mem).
Context (links : list (link T)) (HV : Forall (fun l => V (entrance l) /\ V (exit l)) links).
Context (mc : option Z) (e2n : list (T * list (list Z * link T))).
Context (HN : forall x, key O d links x -> exists l, dget (so_eqb O) e2n x = Some l /\ next_ok O d links mc x l).
Notation avail := (image_of (so_mul O) d links).
Notation eqb := (so_eqb O).
Notation mul := (so_mul O).
Notation tbl := (e2l O d links).
Notation next := (gen_next O e2n None).
Notation prev := (gen_prev O e2n None).

Lemma exit_key l : avail l -> key O d links (exit l).
Proof. intros H. exists (lk_inv l). split; auto. apply (avail_inv O pt d N V mem L); auto. Qed.
Lemma entr_key l : avail l -> key O d links (entrance l). Proof. intros H. exists l; auto. Qed.

Lemma next_eq c l : next c l = dget eqb e2n (exit l).
Proof. unfold gen_next. destruct (dget eqb e2n (exit l)) as [r|]; auto. cbn [obind]. apply ofilter_true. Qed.
Lemma prev_eq c l : prev c l = option_map (map (fun nl => (fst nl, lk_inv (snd nl)))) (dget eqb e2n (entrance l)).
Proof. unfold gen_prev. destruct (dget eqb e2n (entrance l)) as [r|]; auto. cbn [obind option_map]. apply ofilter_true. Qed.
Lemma lk_inv_inv (l : link T) : lk_inv (lk_inv l) = l. Proof. destruct l; auto. Qed.

Lemma next_len x dl : V x -> next_from O d links mc x dl -> length (fst dl) = d /\ ~ Forall (fun z => z = 0%Z) (fst dl).
Proof. intros HVx (_ & _ & t & Ht & _). apply (lw_nb _ _ _ _ _ _ L) in Ht; tauto. Qed.
Lemma next_step_ok : step_ok d N avail next.
Proof.
  intros c l HG HA. rewrite next_eq. destruct (HN _ (exit_key l HA)) as (r & E & RN & RI). exists r. split; auto. split; auto.
  rewrite Forall_forall. intros dl Hdl. apply RI in Hdl. split; [|apply Hdl]. eapply next_len; [|eauto]. apply (avail_V O pt d N V mem L links HV); auto.
Qed.
Lemma prev_step_ok : step_ok d N avail prev.
Proof.
  intros c l HG HA. rewrite prev_eq. destruct (HN _ (entr_key l HA)) as (r & E & RN & RI). rewrite E. cbn [option_map].
  eexists; split; [reflexivity|]. split.
  - apply NoDup_map_inj; auto. intros [a x] [b y] _ _. cbn. destruct x, y. unfold lk_inv; cbn. congruence.
  - rewrite Forall_forall. intros dl Hdl. apply in_map_iff in Hdl. destruct Hdl as ([dl0 l0] & <- & Hdl). apply RI in Hdl. cbn [fst snd]. split.
    + eapply (next_len _ (dl0, l0)); [|eauto]. apply (avail_V O pt d N V mem L links HV); auto.
    + apply (avail_inv O pt d N V mem L). apply Hdl.
Qed.

(** [y] may follow [x] *)
Definition linked (x y : list Z * link T) : Prop :=
  avail (snd y) /\ fst x <> fst y /\ near mc (fst x) (fst y) /\ touch mem N (fst x) (exit (snd x)) (fst y) (entrance (snd y)).
Lemma next_linked s t c c' l' : V s -> avail l' -> length c = d -> length c' = d -> t = entrance l' ->
  (next_from O d links mc s (zsub c c', l') <-> c <> c' /\ near mc c c' /\ touch mem N c s c' t).
Proof.
  intros HVs HA HL HL' ->. unfold next_from. cbn [fst snd]. rewrite cdist_near.
  destruct (avail_V O pt d N V mem L links HV l' HA) as (VE & _). split.
  - intros (_ & H1 & t & H2 & H3). assert (c <> c').
    { intros E. apply (lw_nb _ _ _ _ _ _ L) in H2; auto. apply H2. apply zsub_zero; auto. congruence. }
    split; auto. split; auto. apply (lw_touch _ _ _ _ _ _ L); auto. exists t. auto.
  - intros (H0 & H1 & H2). split; auto. split; auto. apply (lw_touch _ _ _ _ _ _ L) in H2; auto.
Qed.
Lemma offers_next x y : grid_cube d N (fst x) -> grid_cube d N (fst y) -> avail (snd x) -> (offers next x y <-> linked x y).
Proof.
  intros (GX & _) (GY & _) HA. destruct (avail_V O pt d N V mem L links HV _ HA) as (_ & VX). unfold offers. split.
  - intros (r & dl & E & Hin & HL & EY). rewrite next_eq in E. destruct (HN _ (exit_key _ HA)) as (r' & E' & _ & RI).
    rewrite E in E'. injection E' as <-. apply RI in Hin. change (map _ (combine (fst x) dl)) with (zadd (fst x) dl) in EY.
    assert (dl = zsub (fst x) (fst y)) as -> by (rewrite EY, zsub_zadd; auto). pose proof Hin as (HA' & _). split; auto.
    apply (next_linked _ (entrance (snd y))) in Hin; auto.
  - intros (HA' & HL). destruct (HN _ (exit_key _ HA)) as (r & E & _ & RI). exists r, (zsub (fst x) (fst y)). rewrite next_eq.
    split; auto. split; [|split].
    + apply RI. apply (next_linked _ (entrance (snd y))); auto.
    + apply zsub_length. congruence.
    + symmetry. apply zadd_zsub. congruence.
Qed.
Lemma offers_prev x y : grid_cube d N (fst x) -> grid_cube d N (fst y) -> avail (snd x) -> avail (snd y) -> (offers prev y x <-> linked x y).
Proof.
  intros (GX & _) (GY & _) HA HB. destruct (avail_V O pt d N V mem L links HV _ HB) as (VY & _). unfold offers.
  assert (EQ : next_from O d links mc (entrance (snd y)) (zsub (fst y) (fst x), lk_inv (snd x)) <-> linked x y).
  { rewrite (next_linked _ (exit (snd x))); auto; [|apply (avail_inv O pt d N V mem L); auto]. unfold linked.
    rewrite near_sym, touch_sym. split.
    - intros (H1 & H2); split; auto.
    - intros (_ & H1 & H2). split; auto. }
  split.
  - intros (r & dl & E & Hin & HL & EY). rewrite prev_eq in E. destruct (HN _ (entr_key _ HB)) as (r' & E' & _ & RI).
    rewrite E' in E. cbn in E. injection E as <-. apply in_map_iff in Hin. destruct Hin as ([dl0 l0] & [= -> EL] & Hin). apply RI in Hin.
    change (map _ (combine (fst y) dl)) with (zadd (fst y) dl) in EY.
    assert (dl = zsub (fst y) (fst x)) as -> by (rewrite EY, zsub_zadd; auto). apply EQ. rewrite <- EL, lk_inv_inv. auto.
  - intros HL. apply EQ in HL. destruct (HN _ (entr_key _ HB)) as (r & E & _ & RI).
    exists (map (fun nl => (fst nl, lk_inv (snd nl))) r), (zsub (fst y) (fst x)). rewrite prev_eq, E. split; auto. split; [|split].
    + apply in_map_iff. exists (zsub (fst y) (fst x), lk_inv (snd x)). cbn [fst snd]. rewrite lk_inv_inv. split; auto. apply RI; auto.
    + apply zsub_length. congruence.
    + symmetry. apply zadd_zsub. congruence.
Qed.
Lemma next_prev_converse : converse d N avail next prev.
Proof. intros x y G1 G2 A1 A2. rewrite offers_next, offers_prev; auto. tauto. Qed.

(** starting and final nodes *)
Lemma nodes_spec cs s flip cnum : V s -> so_divide O N s = Some cs ->
  exists r, nodes O pt tbl None cnum flip cs = Some r /\ NoDup r /\
    forall c l, In (c, l) r <-> grid_cube d N c /\ avail l /\ meets mem N c (if flip then exit l else entrance l) s.
Proof.
  intros HVs ED. destruct (lw_div _ _ _ _ _ _ L s HVs) as (cs' & ED' & CN & CG & CM). rewrite ED in ED'. injection ED' as <-.
  unfold nodes.
  destruct (omap_concat (fun cs0 : list Z * T => obind (intersected_links O pt tbl (snd cs0)) (fun ls => ofilter (fun _ => Some true) (map (fun l => (fst cs0, if flip then lk_inv l else l)) ls)))
     (fun (ct : list Z * T) (y : list Z * link T) => fst y = fst ct /\ avail (snd y) /\ so_intersects O (if flip then exit (snd y) else entrance (snd y)) (snd ct) = true)
     cs) as (r & E & RN & RI).
  - eapply NoDup_map_inv; eauto.
  - intros [c t] Hc. cbn [fst snd]. destruct (intersected_links_spec O pt d N V mem L links t) as (ls & E & LN & LI). rewrite E. cbn [obind].
    rewrite ofilter_true. eexists; split; [reflexivity|]. split.
    + apply NoDup_map_inj; auto. intros [a1 b1] [a2 b2] _ _. destruct flip; unfold lk_inv; cbn; congruence.
    + intros [c' l]. rewrite in_map_iff. cbn [fst snd]. split.
      * intros (l0 & [= <- <-] & Hl). apply LI in Hl. destruct flip; [|tauto]. cbn [exit lk_inv]. split; auto. split; [|tauto].
        apply (avail_inv O pt d N V mem L); tauto.
      * intros (-> & HA & HI). exists (if flip then lk_inv l else l). split.
        -- destruct flip; auto. rewrite lk_inv_inv. auto.
        -- apply LI. destruct flip; auto. split; [|exact HI]. apply (avail_inv O pt d N V mem L); auto.
  - intros [c t] [c' t'] [c0 l] H1 H2. cbn [fst snd]. intros (-> & _) (-> & _). f_equal.
    clear - CN H1 H2. induction cs as [|[k v] cs IH]; [destruct H1|]. cbn in *. inversion CN as [|? ? CN1 CN2]; subst.
    destruct H1 as [E1|H1], H2 as [E2|H2]; try congruence; auto.
    + injection E1 as -> ->. exfalso. apply CN1. apply (in_map fst) in H2. auto.
    + injection E2 as -> ->. exfalso. apply CN1. apply (in_map fst) in H1. auto.
  - exists r. split; auto. split; auto. intros c l. rewrite RI. split.
    + intros ([c' t] & Hc & E1 & HA & HI). cbn [fst snd] in *. subst c'. destruct (CG _ _ Hc) as (G & VT). split; auto. split; auto.
      destruct (avail_V O pt d N V mem L links HV l HA). apply CM; auto; [destruct flip; auto|]. exists t; auto.
    + intros (G & HA & HM). destruct (avail_V O pt d N V mem L links HV l HA). apply CM in HM; auto; [|destruct flip; auto].
      destruct HM as (t & Ht & HI). exists (c, t). cbn [fst snd]. auto.
Qed.

(** the Hamiltonian paths are the good chains *)
Lemma ham_chain start finish z lk :
  (forall c l, In (c, l) start <-> grid_cube d N c /\ avail l /\ meets mem N c (entrance l) (entrance lk)) ->
  (forall c l, In (c, l) finish <-> grid_cube d N c /\ avail l /\ meets mem N c (exit l) (exit lk)) ->
  (hamiltonian d N next start finish z <-> good_chain mem mul d N links mc z /\ good_ends mem N lk z).
Proof.
  intros HS HF. unfold hamiltonian. split.
  - intros (([c0 l0] & E0 & H0) & ([c1 l1] & E1 & H1) & H2 & H3 & H4). apply HS in H0. apply HF in H1.
    assert (HA : Forall (fun x => avail (snd x)) z).
    { apply (good_forward d N avail next next_step_ok).
      - rewrite Forall_forall. intros x Hx. apply H4. apply in_map; auto.
      - exists (c0, l0). cbn. tauto.
      - exact H2. }
    split; [constructor; auto|].
    + intros i c l c' l' EI EJ. pose proof (proj1 (steps_nth _ _) H2 i _ _ EI EJ) as HO. rewrite Forall_forall in HA.
      apply offers_next in HO; [unfold linked in HO; cbn [fst snd] in HO; tauto| | |].
      * apply H4. apply nth_error_In in EI. apply (in_map fst) in EI. auto.
      * apply H4. apply nth_error_In in EJ. apply (in_map fst) in EJ. auto.
      * apply nth_error_In in EI. apply (HA _ EI).
    + split; [exists c0, l0|exists c1, l1]; tauto.
  - intros ([G1 G2 G3 G4] & (c0 & l0 & E0 & H0) & (c1 & l1 & E1 & H1)). rewrite Forall_forall in G3.
    assert (HG : forall x, In x z -> grid_cube d N (fst x)) by (intros x Hx; apply G2; apply in_map; auto).
    assert (HI0 : In (c0, l0) z) by (destruct z; [discriminate|cbn in *; left; congruence]).
    assert (HI1 : In (c1, l1) z). { apply in_rev. destruct (rev z); [discriminate|cbn in *; left; congruence]. }
    split; [|split; [|split; [|split; auto]]].
    + exists (c0, l0). split; auto. apply HS. split; [apply (HG _ HI0)|]. split; auto. apply (G3 _ HI0).
    + exists (c1, l1). split; auto. apply HF. split; [apply (HG _ HI1)|]. split; auto. apply (G3 _ HI1).
    + apply steps_nth. intros i [c l] [c' l'] EI EJ. pose proof (nth_error_In _ _ EI) as II. pose proof (nth_error_In _ _ EJ) as IJ.
      apply offers_next; [apply (HG _ II)|apply (HG _ IJ)|apply (G3 _ II)|]. destruct (G4 _ _ _ _ _ EI EJ) as (B1 & B2).
      split; [apply (G3 _ IJ)|]. split; [|split; auto]. cbn [fst]. intros ->.
      assert (EI' : nth_error (map fst z) i = Some c') by (rewrite nth_error_map, EI; auto).
      assert (EJ' : nth_error (map fst z) (S i) = Some c') by (rewrite nth_error_map, EJ; auto).
      assert (i = S i); [|lia]. rewrite NoDup_nth_error in G1. apply G1; [|congruence]. apply nth_error_Some. congruence.
Qed.
End Chain.
