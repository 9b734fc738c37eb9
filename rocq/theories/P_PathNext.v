(** Proofs about the generator of paths: the table of next steps, and the step functions of the tree. *)
From Verif Require Import Py L_Py L_Qc L_BaseMaps M_BaseMaps M_Subsets M_Paths M_PathTree M_PathGen S_BaseMaps S_Subsets S_PathGen S_PathTree
  P_GenMaps P_Actions P_Subsets P_Facets P_Paths P_PathTree P_PathGlue P_PathGen.
From Coq Require Import Permutation.
Local Open Scope nat_scope.

Lemma cdist_mul d b c : wf_bm d b -> length c = d -> cdist (apply_cube_start b c 1) = cdist c.
Proof.
  intros W HL. unfold cdist, apply_cube_start. destruct (act_Permutation (fun c => 1 - c - 1)%Z 0%Z d b c W HL) as (y & HP & HF).
  assert (HS : forall l l', Permutation l l' -> fold_right Z.add 0%Z l = fold_right Z.add 0%Z l').
  { induction 1; cbn; lia. }
  rewrite (HS (map Z.abs c) (map Z.abs y)) by (apply Permutation_map; auto).
  clear HP HL. induction HF as [|u v l l' H HF IH]; cbn [map fold_right]; auto. rewrite IH. f_equal. destruct H; subst; lia.
Qed.

Section Next.
Context {T : Type} (O : subset_ops T) (pt : bool) (d N : nat) (V : T -> Prop) (mem : T -> list Qc -> Prop) (L : laws O pt d N V mem).
Context (links : list (link T)) (HV : Forall (fun l => V (entrance l) /\ V (exit l)) links).
Context (mc : option Z).
Notation avail := (image_of (so_mul O) d links).
Notation eqb := (so_eqb O).
Notation mul := (so_mul O).
Notation tbl := (e2l O d links).
Let HE : eqb_ok eqb := lw_eqb _ _ _ _ _ _ L.

(** the steps from an exit [x] *)
Definition next_from (x : T) (dl : list Z * link T) : Prop :=
  avail (snd dl) /\ cdist_ok mc (fst dl) = true /\ exists t, In (fst dl, t) (so_neighbours O x) /\ so_intersects O (entrance (snd dl)) t = true.
Definition next_ok (x : T) (l : list (list Z * link T)) : Prop := NoDup l /\ forall dl, In dl l <-> next_from x dl.

Lemma std_next_spec s : V s -> NoDup (std_next O pt tbl mc s) /\
  forall c e, In (c, e) (std_next O pt tbl mc s) <->
    key O d links e /\ cdist_ok mc c = true /\ exists t, In (c, t) (so_neighbours O s) /\ so_intersects O e t = true.
Proof.
  intros HVs. destruct (lw_nb _ _ _ _ _ _ L s HVs) as (HN & _). unfold std_next. split.
  - apply NoDup_flat_map.
    + eapply NoDup_map_inv; eauto.
    + intros [c t] _. cbn [fst snd]. destruct (cdist_ok mc c); [|constructor]. apply NoDup_map_inj; [intros; congruence|].
      apply (intersected_spec O pt d N V mem L).
    + intros [c t] [c' t'] [c0 e] H1 H2. cbn [fst snd]. destruct (cdist_ok mc c); [|intros []]. destruct (cdist_ok mc c'); [|intros _ []].
      rewrite !in_map_iff. intros (e1 & [= -> _] & _) (e2 & [= -> _] & _). f_equal.
      assert (G : forall (l : list (list Z * T)) k v v', NoDup (map fst l) -> In (k, v) l -> In (k, v') l -> v = v').
      { clear. induction l as [|[k0 v0] l IH]; cbn; [tauto|]. intros k v v' HN. inversion HN as [|? ? HN1 HN2]; subst.
        intros [E|H1] [E'|H2]; try congruence; eauto.
        - injection E as -> ->. exfalso. apply HN1. apply (in_map fst) in H2. auto.
        - injection E' as -> ->. exfalso. apply HN1. apply (in_map fst) in H1. auto. }
      eapply G; eauto.
  - intros c e. rewrite in_flat_map. split.
    + intros ([c' t] & Hn & H). cbn [fst snd] in H. destruct (cdist_ok mc c') eqn:EC; [|destruct H]. apply in_map_iff in H.
      destruct H as (e' & [= -> ->] & H). apply (intersected_spec O pt d N V mem L) in H. destruct H as (HK & HI). eauto.
    + intros (HK & EC & t & Hn & HI). exists (c, t). split; auto. cbn [fst snd]. rewrite EC. apply in_map_iff. exists e. split; auto.
      apply (intersected_spec O pt d N V mem L). auto.
Qed.

Lemma mul_inv_V b s : wf_bm d b -> V s -> mul (bm_inv b) (mul b s) = s /\ mul b (mul (bm_inv b) s) = s.
Proof.
  intros W HVs. pose proof (wf_inv d b W). rewrite <- !(lw_mul _ _ _ _ _ _ L) by auto. rewrite (mul_inv_l d), (mul_inv_r d) by auto.
  split; apply (lw_id _ _ _ _ _ _ L); auto.
Qed.
Lemma acs_inv b c : wf_bm d b -> length c = d ->
  apply_cube_start (bm_inv b) (apply_cube_start b c 1) 1 = c /\ apply_cube_start b (apply_cube_start (bm_inv b) c 1) 1 = c /\
  length (apply_cube_start b c 1) = d.
Proof. intros W HL. destruct (action_cube_start d b b 1 c W W HL) as (H1 & _ & _ & H2 & H3). auto. Qed.

Lemma next_pos_spec b s : wf_bm d b -> V s -> exists l, next_pos O tbl b (std_next O pt tbl mc s) = Some l /\ next_ok (mul b s) l.
Proof.
  intros W HVs. destruct (std_next_spec s HVs) as (SN & SI). destruct (lw_nb _ _ _ _ _ _ L s HVs) as (_ & NB).
  unfold next_pos.
  destruct (omap_concat (fun ce => option_map (map (fun l => (apply_cube_start b (fst ce) 1, l))) (dget eqb tbl (mul b (snd ce))))
     (fun (ce : list Z * T) (dl : list Z * link T) => fst dl = apply_cube_start b (fst ce) 1 /\ avail (snd dl) /\ entrance (snd dl) = mul b (snd ce))
     (std_next O pt tbl mc s)) as (r & E & RN & RI); auto.
  - intros [c e] Hc. cbn [fst snd]. apply SI in Hc. destruct Hc as (HK & _).
    destruct (dget_key O pt d N V mem L links (mul b e)) as (ls & El & LN & LI). { apply (key_mul O pt d N V mem L links HV); auto. }
    rewrite El. cbn [option_map]. eexists; split; [reflexivity|]. split; [apply NoDup_map_inj; auto; intros; congruence|].
    intros [dl l]. rewrite in_map_iff. cbn [fst snd]. split.
    + intros (l' & [= <- <-] & Hl). apply LI in Hl. tauto.
    + intros (-> & HA & HB). exists l. split; auto. apply LI; auto.
  - intros [c e] [c' e'] [dl l] H1 H2. cbn [fst snd]. intros (-> & _ & E1) (E2 & _ & E3). apply SI in H1, H2.
    destruct H1 as (K1 & _ & t1 & N1 & _), H2 as (K2 & _ & t2 & N2 & _). apply NB in N1, N2.
    assert (c = c').
    { rewrite <- (proj1 (acs_inv b c W ltac:(tauto))), E2. apply acs_inv; tauto. }
    assert (e = e').
    { apply (key_V O pt d N V mem L links HV) in K1, K2. rewrite <- (proj1 (mul_inv_V b e W K1)), <- E1, E3. apply mul_inv_V; auto. }
    congruence.
  - exists r. split; auto. split; auto. intros [dl l]. rewrite RI. unfold next_from. cbn [fst snd]. split.
    + intros ([c e] & Hc & E1 & HA & E2). cbn [fst snd] in *. apply SI in Hc. destruct Hc as (HK & EC & t & Hn & HI).
      apply (key_V O pt d N V mem L links HV) in HK. destruct (NB _ _ Hn) as (HLc & HVt & _). split; auto. subst dl. split.
      * unfold cdist_ok in *. rewrite (cdist_mul d b c) by auto. auto.
      * exists (mul b t). split; [apply (lw_nb_mul _ _ _ _ _ _ L); auto|]. rewrite E2, (lw_inter _ _ _ _ _ _ L); auto.
    + intros (HA & EC & t & Hn & HI). pose proof (lw_V _ _ _ _ _ _ L b s W HVs) as HVb.
      destruct (lw_nb _ _ _ _ _ _ L _ HVb) as (_ & NB'). destruct (NB' _ _ Hn) as (HLd & HVt & _).
      pose proof (wf_inv d b W) as WI. apply (lw_nb_mul _ _ _ _ _ _ L (bm_inv b)) in Hn; auto.
      rewrite (proj1 (mul_inv_V b s W HVs)) in Hn. destruct (acs_inv b dl W HLd) as (_ & A2 & _).
      assert (KE : key O d links (entrance l)) by (exists l; auto).
      pose proof (key_V O pt d N V mem L links HV _ KE) as HVe.
      exists (apply_cube_start (bm_inv b) dl 1, mul (bm_inv b) (entrance l)). cbn [fst snd]. split.
      * apply SI. split; [apply (key_mul O pt d N V mem L links HV); auto|]. split.
        -- unfold cdist_ok in *. rewrite (cdist_mul d (bm_inv b) dl) by auto. auto.
        -- exists (mul (bm_inv b) t). split; auto. rewrite (lw_inter _ _ _ _ _ _ L); auto.
      * split; auto. split; auto. symmetry. apply mul_inv_V; auto.
Qed.

(** every value of the table is right *)
Definition table_ok (m : list (T * list (list Z * link T))) : Prop :=
  forall x l, dget eqb m x = Some l -> next_ok x l.
Lemma add_exit_ok b s m : wf_bm d b -> V s -> table_ok m ->
  exists m', add_exit O tbl s (std_next O pt tbl mc s) (Some m) b = Some m' /\ table_ok m' /\
    dget eqb m' (mul b s) <> None /\ (forall x, dget eqb m x <> None -> dget eqb m' x <> None).
Proof.
  intros W HVs HM. cbn [add_exit]. destruct (dget eqb m (mul b s)) eqn:E.
  - exists m. split; auto. split; auto. split; [congruence|auto].
  - destruct (next_pos_spec b s W HVs) as (l & -> & HL). cbn [option_map]. eexists; split; [reflexivity|].
    assert (HR : eqb (mul b s) (mul b s) = true) by (apply HE; auto).
    split; [|split].
    + intros x l'. rewrite dget_dset by auto. destruct (eqb x (mul b s)) eqn:EX; [|apply HM]. apply HE in EX. intros [= <-]. subst x. auto.
    + rewrite dget_dset by auto. rewrite HR. discriminate.
    + intros x Hx. rewrite dget_dset by auto. destruct (eqb x _); [discriminate|auto].
Qed.
Lemma add_exits_ok s bs : V s -> Forall (wf_bm d) bs -> forall m, table_ok m ->
  exists m', fold_left (add_exit O tbl s (std_next O pt tbl mc s)) bs (Some m) = Some m' /\ table_ok m' /\
    (forall b, In b bs -> dget eqb m' (mul b s) <> None) /\ (forall x, dget eqb m x <> None -> dget eqb m' x <> None).
Proof.
  intros HVs HW. induction HW as [|b bs W HW IH]; intros m HM.
  - exists m. split; auto.
  - cbn [fold_left]. destruct (add_exit_ok b s m W HVs HM) as (m1 & E1 & M1 & K1 & P1). rewrite E1.
    destruct (IH m1 M1) as (m2 & E2 & M2 & K2 & P2). exists m2. split; auto. split; auto. split; auto.
    intros b' [<-|Hb]; auto.
Qed.
Lemma add_all_ok ss : Forall V ss -> forall m, table_ok m ->
  exists m', fold_left (fun acc se => fold_left (add_exit O tbl se (std_next O pt tbl mc se)) (gen_base_maps d (Some false)) acc) ss (Some m) = Some m' /\
    table_ok m' /\ (forall s b, In s ss -> wf_bm d b -> dget eqb m' (mul b s) <> None) /\ (forall x, dget eqb m x <> None -> dget eqb m' x <> None).
Proof.
  intros HS. induction HS as [|s ss Hs HS IH]; intros m HM.
  - exists m. split; auto.
  - cbn [fold_left]. destruct (add_exits_ok s (gen_base_maps d (Some false)) Hs) with (m := m) as (m1 & E1 & M1 & K1 & P1); auto.
    { rewrite Forall_forall. intros b Hb. apply In_gen_base_maps in Hb. tauto. }
    rewrite E1. destruct (IH m1 M1) as (m2 & E2 & M2 & K2 & P2). exists m2. split; auto. split; auto. split; auto.
    intros s' b [<-|Hs'] W; auto. apply P2. destruct (time_rev_split O pt d N V mem L b W) as (b0 & W0 & T0 & HM0).
    rewrite <- HM0. apply K1. apply In_gen_base_maps. rewrite T0. auto.
Qed.
Lemma exit2next_spec : exists m, init_exit2next O pt d tbl links mc = Some m /\
  forall x, key O d links x -> exists l, dget eqb m x = Some l /\ next_ok x l.
Proof.
  unfold init_exit2next. set (ss := dedup eqb _).
  assert (HSS : forall s, In s ss <-> exists l, In l links /\ (s = so_std O (exit l) \/ s = so_std O (entrance l))).
  { intros s. unfold ss. rewrite (In_dedup eqb HE), in_flat_map. split.
    - intros (l & Hl & [<-|[<-|[]]]); eauto.
    - intros (l & Hl & [->| ->]); exists l; cbn; auto. }
  assert (HVS : Forall V ss).
  { rewrite Forall_forall in *. intros s Hs. apply HSS in Hs. destruct Hs as (l & Hl & Hs). apply HV in Hl.
    destruct Hs; subst s; apply (lw_std _ _ _ _ _ _ L); tauto. }
  destruct (add_all_ok ss HVS []) as (m & E & HM & HK & _). { intros x l. discriminate. }
  exists m. split; auto. intros x (l & (l0 & b & Hl & W & ->) & <-).
  assert (exists e, mul b e = entrance (if time_rev b then Lk (mul b (exit l0)) (mul b (entrance l0)) else Lk (mul b (entrance l0)) (mul b (exit l0))) /\
            (e = exit l0 \/ e = entrance l0)) as (e & <- & He).
  { destruct (time_rev b); cbn; eauto. }
  assert (HVe : V e) by (rewrite Forall_forall in HV; apply HV in Hl; destruct He; subst e; tauto).
  destruct (lw_std _ _ _ _ _ _ L e HVe) as (HVs & b0 & W0 & _ & EB).
  assert (HD : dget eqb m (mul b e) <> None).
  { rewrite <- EB, <- (lw_mul _ _ _ _ _ _ L) by auto. apply HK; [|apply wf_mul; auto].
    apply HSS. exists l0. split; auto. destruct He; subst e; auto. }
  destruct (dget eqb m (mul b e)) as [r|] eqn:ED; [|congruence]. exists r. split; auto.
Qed.
End Next.
