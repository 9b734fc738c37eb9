(** Proofs about the generator of paths: the tables of links and of next steps. *)
From Verif Require Import Py L_Py L_Qc L_BaseMaps M_BaseMaps M_Subsets M_Paths M_PathTree M_PathGen S_BaseMaps S_Subsets S_PathGen S_PathTree
  P_GenMaps P_Subsets P_Facets P_Paths P_PathTree P_PathGlue.
From Coq Require Import Permutation.
Local Open Scope nat_scope.

Lemma dset_keys {K V} (keqb : K -> K -> bool) (H : eqb_ok keqb) (m : list (K * V)) k v :
  NoDup (map fst m) -> NoDup (map fst (dset keqb m k v)).
Proof.
  intros HN. assert (HI : forall m, forall k', In k' (map fst (dset keqb m k v)) <-> k' = k \/ In k' (map fst m)).
  { clear HN m. induction m as [|[k0 v0] m IH]; intros k'; cbn; [intuition|]. destruct (keqb k k0) eqn:E; cbn.
    - apply H in E; subst. intuition.
    - rewrite IH. intuition. }
  induction m as [|[k0 v0] m IH]; cbn; [repeat constructor; auto|]. inversion HN as [|? ? HN1 HN2]; subst.
  destruct (keqb k k0) eqn:E; cbn.
  - constructor; auto.
  - constructor; auto. rewrite HI. intros [->|]; auto. assert (keqb k k = true) by (apply H; auto). congruence.
Qed.
Lemma dget_None {K V} (keqb : K -> K -> bool) (H : eqb_ok keqb) (m : list (K * V)) k :
  dget keqb m k = None <-> ~ In k (map fst m).
Proof.
  induction m as [|[k0 v0] m IH]; cbn; [tauto|]. destruct (keqb k k0) eqn:E.
  - apply H in E; subst. split; [discriminate|]. intros HH; exfalso; auto.
  - rewrite IH. split; [intros HH [->|]; auto|intros HH ?; apply HH; auto].
    assert (keqb k k = true) by (apply H; auto). congruence.
Qed.
Lemma ofilter_true {A} (l : list A) : ofilter (fun _ => Some true) l = Some l.
Proof. induction l as [|x l IH]; cbn; auto. rewrite IH. auto. Qed.

(** What is needed of a class of subsets. *)
Record laws {T} (O : subset_ops T) (pt : bool) (d N : nat) (V : T -> Prop) (mem : T -> list Qc -> Prop) : Prop := {
  lw_eqb : eqb_ok (so_eqb O);
  lw_cmp : cmp_ok (so_cmp O);
  lw_V : forall b s, wf_bm d b -> V s -> V (so_mul O b s);
  lw_mul : forall a b s, wf_bm d a -> wf_bm d b -> V s -> so_mul O (bm_mul a b) s = so_mul O a (so_mul O b s);
  lw_id : forall s, V s -> so_mul O (id_map d) s = s;
  lw_rev : forall b s, so_mul O (bm_rev b) s = so_mul O b s;
  lw_std : forall s, V s -> V (so_std O s) /\ exists b, wf_bm d b /\ time_rev b = false /\ so_mul O b (so_std O s) = s;
  lw_pt : pt = true -> forall s t, so_intersects O s t = so_eqb O s t;
  lw_inter : forall b s t, wf_bm d b -> V s -> V t -> so_intersects O (so_mul O b s) (so_mul O b t) = so_intersects O s t;
  lw_nb : forall s, V s -> NoDup (map fst (so_neighbours O s)) /\ forall c t, In (c, t) (so_neighbours O s) -> length c = d /\ V t /\ ~ Forall (fun z => z = 0%Z) c;
  lw_nb_mul : forall b s c t, wf_bm d b -> V s -> In (c, t) (so_neighbours O s) ->
                In (apply_cube_start b c 1, so_mul O b t) (so_neighbours O (so_mul O b s));
  lw_touch : forall c c' s t, V s -> V t -> length c = d -> length c' = d -> c <> c' ->
               ((exists t', In (map (fun cc => (snd cc - fst cc)%Z) (combine c c'), t') (so_neighbours O s) /\ so_intersects O t t' = true) <->
                touch mem N c s c' t);
  lw_div : forall s, V s -> exists l, so_divide O N s = Some l /\ NoDup (map fst l) /\
             (forall c t, In (c, t) l -> grid_cube d N c /\ V t) /\
             (forall c t, grid_cube d N c -> V t -> ((exists t', In (c, t') l /\ so_intersects O t t' = true) <-> meets mem N c t s));
  lw_map : forall c t s, V s -> V t -> grid_cube d N c -> meets mem N c t s -> exists r, so_map_to_cube O N c t = Some r;
  lw_map_V : forall c t r, V t -> grid_cube d N c -> so_map_to_cube O N c t = Some r -> V r;
  lw_map_mul : forall b c t r, wf_bm d b -> V t -> grid_cube d N c -> so_map_to_cube O N c t = Some r ->
                 so_map_to_cube O N (apply_cube b (Z.of_nat N) c) (so_mul O b t) = Some (so_mul O b r);
  lw_mem : forall b s x, wf_bm d b -> V s -> mem s x -> mem (so_mul O b s) (pt_mul b x) }.

Section Tables.
Context {T : Type} (O : subset_ops T) (pt : bool) (d N : nat) (V : T -> Prop) (mem : T -> list Qc -> Prop) (L : laws O pt d N V mem).
Context (links : list (link T)) (HV : Forall (fun l => V (entrance l) /\ V (exit l)) links).
Notation avail := (image_of (so_mul O) d links).
Notation eqb := (so_eqb O).
Let HE : eqb_ok eqb := lw_eqb _ _ _ _ _ _ L.

(** the dictionary of dictionaries *)
Lemma set_exits pairs : let m := fold_left (set_exit O) pairs [] in
  NoDup (map fst m) /\ Forall (fun kl => NoDup (snd kl) /\ snd kl <> []) m /\
  forall a b, (exists l, dget eqb m a = Some l /\ In b l) <-> In (a, b) pairs.
Proof.
  induction pairs as [|[a0 b0] pairs IH] using rev_ind; cbn zeta.
  - cbn. split; [constructor|]. split; [constructor|]. intros a b. split; [intros (l & E & _); discriminate|intros []].
  - rewrite fold_left_app. cbn [fold_left]. set (m := fold_left (set_exit O) pairs []) in *. cbn zeta in IH.
    destruct IH as (I1 & I2 & I3). unfold set_exit. cbn [fst snd].
    set (l0 := match dget eqb m a0 with Some l => l | None => [] end).
    assert (HL0 : NoDup l0).
    { unfold l0. destruct (dget eqb m a0) eqn:E; [|constructor]. apply dget_In in E; auto. rewrite Forall_forall in I2. apply I2 in E. apply E. }
    set (l1 := if memb eqb b0 l0 then l0 else l0 ++ [b0]).
    assert (HL1 : NoDup l1 /\ l1 <> [] /\ forall b, In b l1 <-> b = b0 \/ In b l0).
    { unfold l1. destruct (memb eqb b0 l0) eqn:E.
      - apply memb_In in E; auto. split; auto. split; [intros ->; destruct E|]. intros b; split; [auto|intros [->|]; auto].
      - apply memb_false in E; auto. split; [|split].
        + apply NoDup_app_intro; auto. repeat constructor; auto. intros x Hx [<-|[]]; auto.
        + destruct l0; discriminate.
        + intros b. rewrite in_app_iff. cbn. intuition. }
    destruct HL1 as (HL1 & HL2 & HL3). split; [apply dset_keys; auto|]. split.
    + rewrite Forall_forall. intros [k l] Hin.
      pose proof (dset_keys eqb HE m a0 l1 I1) as HK. apply In_dget with (keqb := eqb) in Hin; auto. rewrite dget_dset in Hin by auto.
      destruct (eqb k a0); [injection Hin as <-; auto|]. apply dget_In in Hin; auto. rewrite Forall_forall in I2. apply I2 in Hin. auto.
    + intros a b. rewrite dget_dset by auto. rewrite in_app_iff. cbn [In]. destruct (eqb a a0) eqn:E.
      * apply HE in E; subst a. split.
        -- intros (l & [= <-] & Hb). apply HL3 in Hb. destruct Hb as [->|Hb]; auto. left. apply I3.
           unfold l0 in Hb. destruct (dget eqb m a0) as [l|]; [eauto|destruct Hb].
        -- intros H. exists l1. split; auto. apply HL3. destruct H as [H|[[= ->]|[]]]; auto. right.
           apply I3 in H. destruct H as (l & E & Hb). unfold l0. rewrite E. auto.
      * rewrite I3. split; auto. intros [H|[[= -> ->]|[]]]; auto. assert (eqb a a = true) by (apply HE; auto). congruence.
Qed.

Lemma time_rev_split b : wf_bm d b -> exists b0, wf_bm d b0 /\ time_rev b0 = false /\ forall s, so_mul O b0 s = so_mul O b s.
Proof.
  intros W. destruct (time_rev b) eqn:E.
  - exists (bm_rev b). split; [exact W|]. split; [cbn; rewrite E; auto|]. intros s. apply (lw_rev _ _ _ _ _ _ L).
  - exists b. auto.
Qed.
Definition pairs : list (T * T) := flat_map (fun b => flat_map (fun l =>
          let e := so_mul O b (entrance l) in let x := so_mul O b (exit l) in [(e, x); (x, e)]) links) (gen_base_maps d (Some false)).
Lemma In_pairs e x : In (e, x) pairs <-> avail (Lk e x).
Proof.
  unfold pairs. rewrite in_flat_map. split.
  - intros (b & Hb & H). apply in_flat_map in H. destruct H as (l & Hl & H). apply In_gen_base_maps in Hb. destruct Hb as (W & HT).
    assert (HT' : time_rev b = false) by (destruct HT as [HT|HT]; congruence). clear HT; rename HT' into HT.
    cbn in H. destruct H as [[= <- <-]|[[= <- <-]|[]]].
    + exists l, b. rewrite HT. auto.
    + exists l, (bm_rev b). cbn [time_rev bm_rev]. rewrite HT. cbn. rewrite !(lw_rev _ _ _ _ _ _ L). auto.
  - intros (l & b & Hl & W & E). destruct (time_rev_split b W) as (b0 & W0 & T0 & HM). exists b0.
    split; [apply In_gen_base_maps; rewrite T0; auto|]. apply in_flat_map. exists l. split; auto. cbn. rewrite !HM.
    destruct (time_rev b); injection E as -> ->; auto.
Qed.

Definition e2l : list (T * list (link T)) := init_entr2links O d links.
Lemma e2l_keys : NoDup (map fst e2l).
Proof.
  unfold e2l, init_entr2links. rewrite map_map. cbn [fst]. destruct (set_exits pairs) as (H & _). exact H.
Qed.
Lemma dget_map_val {A B} (f : T -> A -> B) (m : list (T * A)) k :
  dget eqb (map (fun kl => (fst kl, f (fst kl) (snd kl))) m) k = option_map (f k) (dget eqb m k).
Proof.
  induction m as [|[k0 v] m IH]; cbn; auto. destruct (eqb k k0) eqn:E; auto. apply HE in E; subst. auto.
Qed.
Lemma e2l_get e ls : dget eqb e2l e = Some ls -> NoDup ls /\ ls <> [] /\ forall l, In l ls <-> avail l /\ entrance l = e.
Proof.
  unfold e2l, init_entr2links. fold pairs. rewrite (dget_map_val (fun e => map (Lk e))).
  destruct (set_exits pairs) as (H1 & H2 & H3). cbn zeta in *. set (m := fold_left (set_exit O) pairs []) in *.
  destruct (dget eqb m e) as [xs|] eqn:E; [|discriminate]. cbn. intros [= <-].
  assert (HX : NoDup xs /\ xs <> []). { apply dget_In in E; auto. rewrite Forall_forall in H2. apply H2 in E. auto. }
  split; [|split].
  - apply NoDup_map_inj; [|apply HX]. intros x y _ _ [= ->]. auto.
  - destruct xs; [destruct HX; congruence|discriminate].
  - intros l. rewrite in_map_iff. split.
    + intros (x & <- & Hx). split; auto. apply In_pairs. apply H3. eauto.
    + intros (HA & <-). exists (exit l). split; [destruct l; auto|]. destruct l as [e x]. apply In_pairs in HA. apply H3 in HA.
      destruct HA as (l & E' & Hx). cbn [entrance exit] in *. congruence.
Qed.
Lemma e2l_avail l : avail l -> exists ls, dget eqb e2l (entrance l) = Some ls /\ In l ls.
Proof.
  intros HA. destruct (dget eqb e2l (entrance l)) as [ls|] eqn:E.
  - exists ls. split; auto. apply (e2l_get _ _ E). auto.
  - exfalso. unfold e2l, init_entr2links in E. fold pairs in E. rewrite (dget_map_val (fun e => map (Lk e))) in E.
    destruct l as [e x]. apply In_pairs in HA. destruct (set_exits pairs) as (_ & _ & H3). apply H3 in HA. destruct HA as (xs & EX & _).
    cbn [entrance] in E. rewrite EX in E. discriminate.
Qed.
Lemma avail_V l : avail l -> V (entrance l) /\ V (exit l).
Proof.
  intros (l0 & b & Hl & W & ->). rewrite Forall_forall in HV. apply HV in Hl. destruct Hl as (V1 & V2).
  destruct (time_rev b); cbn; split; apply (lw_V _ _ _ _ _ _ L); auto.
Qed.
Lemma avail_inv l : avail l -> avail (lk_inv l).
Proof.
  intros (l0 & b & Hl & W & ->). exists l0, (bm_rev b). split; auto. split; [exact W|]. cbn [time_rev bm_rev].
  rewrite !(lw_rev _ _ _ _ _ _ L). destruct (time_rev b); reflexivity.
Qed.
Lemma avail_mul b l : wf_bm d b -> avail l -> avail (lk_mul (so_mul O) b l).
Proof.
  intros W (l0 & b0 & Hl & W0 & ->). exists l0, (bm_mul b b0). split; auto. split; [apply wf_mul; auto|].
  rewrite Forall_forall in HV. apply HV in Hl. destruct Hl as (V1 & V2). rewrite !(lw_mul _ _ _ _ _ _ L) by auto.
  unfold lk_mul. cbn [time_rev bm_mul]. destruct (time_rev b), (time_rev b0); reflexivity.
Qed.
(** entrances of available links = keys *)
Definition key (e : T) : Prop := exists l, avail l /\ entrance l = e.
Lemma key_In e : key e <-> In e (map fst e2l).
Proof.
  split.
  - intros (l & HA & <-). destruct (e2l_avail l HA) as (ls & E & _). apply dget_In in E; auto. apply (in_map fst) in E. auto.
  - intros H. destruct (dget eqb e2l e) as [ls|] eqn:E.
    + destruct (e2l_get _ _ E) as (_ & HN & HL). destruct ls as [|l ls]; [congruence|]. exists l. apply HL. cbn; auto.
    + apply dget_None in E; auto. tauto.
Qed.
Lemma key_V e : key e -> V e. Proof. intros (l & HA & <-). apply avail_V; auto. Qed.
Lemma key_mul b e : wf_bm d b -> key e -> key (so_mul O b e).
Proof.
  intros W (l & HA & <-). destruct (time_rev_split b W) as (b0 & W0 & T0 & HM).
  exists (lk_mul (so_mul O) b0 l). split; [apply avail_mul; auto|]. unfold lk_mul. rewrite T0. cbn. apply HM.
Qed.

Lemma intersected_spec s : NoDup (intersected_entr O pt e2l s) /\
  forall e, In e (intersected_entr O pt e2l s) <-> key e /\ so_intersects O e s = true.
Proof.
  unfold intersected_entr. assert (HK := e2l_keys). case_eq pt; intros EP.
  - assert (HI := lw_pt _ _ _ _ _ _ L EP). destruct (dget eqb e2l s) eqn:E.
    + split; [repeat constructor; intros []|]. intros e. rewrite HI. cbn. split.
      * intros [<-|[]]. split; [|apply HE; auto]. apply key_In. apply dget_In in E; auto. apply (in_map fst) in E. auto.
      * intros (_ & Q). apply HE in Q. auto.
    + split; [constructor|]. intros e. split; [intros []|]. rewrite HI. intros (HKe & Q). apply HE in Q; subst e. apply key_In in HKe.
      apply dget_None in E; auto. destruct (E HKe).
  - split; [apply NoDup_filter; auto|]. intros e. rewrite filter_In, key_In. tauto.
Qed.
Lemma dget_key e : key e -> exists ls, dget eqb e2l e = Some ls /\ NoDup ls /\ forall l, In l ls <-> avail l /\ entrance l = e.
Proof.
  intros (l & HA & <-). destruct (e2l_avail l HA) as (ls & E & _). exists ls. split; auto. destruct (e2l_get _ _ E) as (H1 & _ & H2). auto.
Qed.
(** concatenation of the lists of some keys *)
Lemma omap_concat {A B} (F : A -> option (list B)) (Q : A -> B -> Prop) l :
  NoDup l -> (forall a, In a l -> exists r, F a = Some r /\ NoDup r /\ forall y, In y r <-> Q a y) ->
  (forall a a' y, In a l -> In a' l -> Q a y -> Q a' y -> a = a') ->
  exists r, option_map (@concat _) (omap F l) = Some r /\ NoDup r /\ forall y, In y r <-> exists a, In a l /\ Q a y.
Proof.
  intros HN HF HQ. induction HN as [|a l Ha HN IH].
  - exists []. split; auto. split; [constructor|]. intros y. split; [intros []|intros (a & [] & _)].
  - destruct IH as (r & E & H1 & H2); [intros; apply HF; cbn; auto|intros; eapply HQ; cbn; eauto|].
    destruct (HF a) as (r0 & E0 & N0 & Q0); [cbn; auto|]. cbn [omap]. rewrite E0. destruct (omap F l) as [rs|]; [|discriminate].
    cbn [option_map] in *. injection E as E. exists (r0 ++ r). split; [cbn; rewrite E; auto|]. split.
    + apply NoDup_app_intro; auto. intros y Hy Hy2. apply Q0 in Hy. apply H2 in Hy2. destruct Hy2 as (a' & Ha' & Hy2).
      apply Ha. rewrite (HQ a a' y); cbn; auto.
    + intros y. rewrite in_app_iff, Q0, H2. split.
      * intros [H|(a' & H & H')]; [exists a; cbn; auto|exists a'; cbn; auto].
      * intros (a' & [<-|H] & H'); [auto|right; eauto].
Qed.
Lemma intersected_links_spec s : exists ls, intersected_links O pt e2l s = Some ls /\ NoDup ls /\
  forall l, In l ls <-> avail l /\ so_intersects O (entrance l) s = true.
Proof.
  destruct (intersected_spec s) as (HN & HI). unfold intersected_links.
  destruct (omap_concat (dget eqb e2l) (fun e l => avail l /\ entrance l = e) (intersected_entr O pt e2l s)) as (r & E & H1 & H2); auto.
  { intros e He. apply HI in He. apply dget_key. tauto. }
  { intros a a' y _ _ (_ & <-) (_ & <-). auto. }
  exists r. split; auto. split; auto. intros l. rewrite H2. split.
  - intros (e & He & HA & <-). apply HI in He. tauto.
  - intros (HA & HX). exists (entrance l). split; auto. apply HI. split; auto. exists l; auto.
Qed.
End Tables.
