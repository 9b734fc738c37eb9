(** The caches are invisible. *)
From Verif Require Import Py L_Py M_BaseMaps L_BaseMaps M_Caches S_Caches.
Local Open Scope nat_scope.

Lemma spkey_eqb_ok : eqb_ok spkey_eqb.
Proof.
  intros [a b] [c d]. unfold spkey_eqb; cbn. rewrite andb_true_iff, (bm_eqb_ok a c), Nat.eqb_eq.
  split; [intros []; congruence|intros E; inversion E; auto].
Qed.
Lemma nateqb_ok : eqb_ok Nat.eqb. Proof. intros x y; apply Nat.eqb_eq. Qed.

Record cinv (st : store) : Prop := {
  ci1 : forall k o, dget bm_eqb (st_cache st) k = Some o -> bm_val st o = Some k;
  ci2 : forall o k, bm_val st o = Some k -> dget bm_eqb (st_cache st) k = Some o;
  ci3 : forall o ob k o', nth_error (st_objs st) o = Some ob -> dget bm_eqb (o_mul ob) k = Some o' ->
        bm_dim (o_key ob) = bm_dim k /\ bm_val st o' = Some (bm_mul (o_key ob) k);
  ci4 : forall o ob o', nth_error (st_objs st) o = Some ob -> o_inv ob = Some o' ->
        bm_val st o' = Some (bm_inv (o_key ob));
  ci5 : forall d o, dget Nat.eqb (st_ids st) d = Some o -> bm_val st o = Some (id_map d);
  ci6 : forall k p s, dget spkey_eqb (st_scache st) (k, p) = Some s -> sp_val st s = Some (Sp k p);
  ci7 : forall s k p, sp_val st s = Some (Sp k p) -> dget spkey_eqb (st_scache st) (k, p) = Some s;
  ci8 : forall s os, nth_error (st_specs st) s = Some os -> exists k, bm_val st (so_bm os) = Some k }.

Definition ext (st st' : store) : Prop :=
  (forall o k, bm_val st o = Some k -> bm_val st' o = Some k) /\
  (forall s v, sp_val st s = Some v -> sp_val st' s = Some v).
Lemma ext_refl st : ext st st. Proof. split; auto. Qed.
Lemma ext_trans a b c : ext a b -> ext b c -> ext a c. Proof. intros [] []; split; auto. Qed.

Lemma cinv_empty : cinv empty_store.
Proof.
  constructor; cbn; try discriminate.
  - intros [|]; discriminate.
  - intros [|]; discriminate.
  - intros [|]; discriminate.
  - intros [|] k p; discriminate.
  - intros [|]; discriminate.
Qed.

Lemma bm_val_app st o k ob c i s sc : bm_val st o = Some k -> bm_val (Store (st_objs st ++ [ob]) c i s sc) o = Some k.
Proof.
  unfold bm_val; cbn. intros H. destruct (nth_error (st_objs st) o) eqn:E; [|discriminate].
  rewrite nth_error_app1, E; auto. apply nth_error_Some; congruence.
Qed.
Lemma bm_val_app_inv st o k ob c i s sc : bm_val (Store (st_objs st ++ [ob]) c i s sc) o = Some k ->
  bm_val st o = Some k \/ (o = length (st_objs st) /\ k = o_key ob).
Proof.
  unfold bm_val; cbn. destruct (lt_dec o (length (st_objs st))) as [H|H].
  - rewrite nth_error_app1 by auto. auto.
  - rewrite nth_error_app2 by lia. destruct (o - length (st_objs st)) as [|n] eqn:E; cbn.
    + intros E'; inversion E'; subst. right. split; [lia|auto].
    + destruct n; discriminate.
Qed.

(** stores that agree on specs and extend the objects *)
Lemma sp_val_ext st st' : (forall o k, bm_val st o = Some k -> bm_val st' o = Some k) ->
  st_specs st' = st_specs st -> ext st st'.
Proof.
  intros H E. split; auto. intros s v. unfold sp_val. rewrite E. destruct (nth_error (st_specs st) s) as [os|]; auto.
  destruct (bm_val st (so_bm os)) eqn:Ev; [|discriminate]. rewrite (H _ _ Ev). auto.
Qed.
Lemma sp_val_inv st st' : cinv st -> (forall o k, bm_val st o = Some k -> bm_val st' o = Some k) ->
  st_specs st' = st_specs st -> forall s v, sp_val st' s = Some v -> sp_val st s = Some v.
Proof.
  intros HI H E s v. unfold sp_val. rewrite E. destruct (nth_error (st_specs st) s) as [os|] eqn:Es; auto.
  destruct (ci8 st HI _ _ Es) as (k & Hk). rewrite Hk, (H _ _ Hk). auto.
Qed.

Lemma c_new_ok st key st' o : cinv st -> c_new st key = (st', o) ->
  cinv st' /\ ext st st' /\ bm_val st' o = Some key.
Proof.
  intros HI. unfold c_new. destruct (dget bm_eqb (st_cache st) key) eqn:E; intros E'; inversion E'; subst; clear E'.
  - split; auto. split; [apply ext_refl|]. apply ci1; auto.
  - set (st1 := Store _ _ _ _ _).
    assert (HB : forall o k, bm_val st o = Some k -> bm_val st1 o = Some k) by (intros; apply bm_val_app; auto).
    assert (HN : bm_val st1 (length (st_objs st)) = Some key).
    { unfold bm_val; cbn. rewrite nth_error_app2, Nat.sub_diag by lia. auto. }
    split; [|split; auto; apply sp_val_ext; auto].
    constructor.
    + intros k o. cbn. rewrite dget_dset by apply bm_eqb_ok. destruct (bm_eqb k key) eqn:Ek.
      * apply bm_eqb_ok in Ek; subst. intros E'; inversion E'; subst; auto.
      * intros H. apply HB, ci1; auto.
    + intros o k H. cbn. rewrite dget_dset by apply bm_eqb_ok. apply bm_val_app_inv in H as [H|[-> ->]].
      * destruct (bm_eqb k key) eqn:Ek; [|apply ci2; auto]. apply bm_eqb_ok in Ek; subst.
        apply ci2 in H; auto. congruence.
      * cbn. assert (bm_eqb key key = true) as -> by (apply bm_eqb_ok; auto). auto.
    + intros o ob k o' H1 H2. cbn in H1. destruct (lt_dec o (length (st_objs st))) as [Hl|Hl].
      * rewrite nth_error_app1 in H1 by auto. destruct (ci3 st HI _ _ _ _ H1 H2); auto.
      * rewrite nth_error_app2 in H1 by lia. destruct (o - length (st_objs st)) as [|[|n]]; cbn in H1; inversion H1; subst.
        cbn in H2; discriminate.
    + intros o ob o' H1 H2. cbn in H1. destruct (lt_dec o (length (st_objs st))) as [Hl|Hl].
      * rewrite nth_error_app1 in H1 by auto. apply HB. eapply ci4; eauto.
      * rewrite nth_error_app2 in H1 by lia. destruct (o - length (st_objs st)) as [|[|n]]; cbn in H1; inversion H1; subst.
        cbn in H2; discriminate.
    + intros d o H. apply HB, ci5; auto.
    + intros k p s H. apply (sp_val_ext st st1); auto. apply ci6; auto.
    + intros s k p H. apply (sp_val_inv st st1) in H; auto. apply ci7 in H; auto.
    + intros s os H. destruct (ci8 st HI _ _ H) as (k & Hk). eauto.
Qed.

(** replacing an object by one with the same key and correct caches *)
Lemma set_obj_ok st o ob ob' : cinv st -> nth_error (st_objs st) o = Some ob -> o_key ob' = o_key ob ->
  (forall k o', dget bm_eqb (o_mul ob') k = Some o' -> bm_dim (o_key ob) = bm_dim k /\ bm_val st o' = Some (bm_mul (o_key ob) k)) ->
  (forall o', o_inv ob' = Some o' -> bm_val st o' = Some (bm_inv (o_key ob))) ->
  cinv (set_obj st o ob') /\ ext st (set_obj st o ob') /\ (forall x, bm_val (set_obj st o ob') x = bm_val st x).
Proof.
  intros HI Ho Hk Hm Hv.
  assert (Hlt : o < length (st_objs st)) by (apply nth_error_Some; congruence).
  assert (HB : forall x, bm_val (set_obj st o ob') x = bm_val st x).
  { intros x. unfold bm_val; cbn. rewrite nth_error_upd. destruct (Nat.eqb_spec o x); subst; auto.
    apply Nat.ltb_lt in Hlt; rewrite Hlt, Ho; cbn. congruence. }
  assert (HB1 : forall x k, bm_val st x = Some k -> bm_val (set_obj st o ob') x = Some k) by (intros; rewrite HB; auto).
  split; [|split; auto; apply sp_val_ext; auto].
  constructor.
  - intros k x H. rewrite HB. apply ci1; auto.
  - intros x k. rewrite HB. apply (ci2 st HI).
  - intros x xb k o' H1 H2. rewrite HB. cbn in H1. rewrite nth_error_upd in H1. destruct (Nat.eqb_spec o x).
    + subst. apply Nat.ltb_lt in Hlt; rewrite Hlt in H1. inversion H1; subst. rewrite Hk. auto.
    + eapply ci3; eauto.
  - intros x xb o' H1 H2. rewrite HB. cbn in H1. rewrite nth_error_upd in H1. destruct (Nat.eqb_spec o x).
    + subst. apply Nat.ltb_lt in Hlt; rewrite Hlt in H1. inversion H1; subst. rewrite Hk. auto.
    + eapply ci4; eauto.
  - intros d x H. rewrite HB. apply ci5; auto.
  - intros k p s H. apply (sp_val_ext st (set_obj st o ob')); auto. apply ci6; auto.
  - intros s k p H. apply (sp_val_inv st (set_obj st o ob')) in H; auto. apply (ci7 st HI) in H; auto.
  - intros s os H. rewrite HB. eapply ci8; eauto.
Qed.

Definition good (st st' : store) (o : nat) (v : base_map) : Prop :=
  cinv st' /\ ext st st' /\ bm_val st' o = Some v.

Lemma bm_val_nth st a v : bm_val st a = Some v -> exists oa, nth_error (st_objs st) a = Some oa /\ o_key oa = v.
Proof. unfold bm_val. destruct (nth_error (st_objs st) a); cbn; [|discriminate]. intros E; inversion E; eauto. Qed.

Lemma c_mul_ok st a b : cinv st ->
  match lift2 mul_val (bm_val st a) (bm_val st b) with
  | Some v => exists st' o, c_mul st a b = Some (st', o) /\ good st st' o v
  | None => c_mul st a b = None
  end.
Proof.
  intros HI. unfold c_mul. unfold bm_val at 1 2.
  destruct (nth_error (st_objs st) a) as [oa|] eqn:Ea; cbn; auto.
  destruct (nth_error (st_objs st) b) as [ob|] eqn:Eb; cbn; auto.
  unfold mul_val. destruct (dget bm_eqb (o_mul oa) (o_key ob)) as [o|] eqn:Em.
  - destruct (ci3 st HI _ _ _ _ Ea Em) as [Hd Hv]. rewrite Hd, Nat.eqb_refl.
    exists st, o. split; auto. split; auto. split; auto using ext_refl.
  - destruct (Nat.eqb_spec (bm_dim (o_key oa)) (bm_dim (o_key ob))) as [Hd|Hd]; auto.
    destruct (c_new st (bm_mul (o_key oa) (o_key ob))) as [st1 o] eqn:En.
    destruct (c_new_ok _ _ _ _ HI En) as (HI1 & Hext & Hv).
    assert (Ha1 : bm_val st1 a = Some (o_key oa)) by (apply Hext; unfold bm_val; rewrite Ea; auto).
    apply bm_val_nth in Ha1 as (oa1 & Ha1 & Hk1). rewrite Ha1.
    eexists _, o. split; [reflexivity|].
    destruct (set_obj_ok st1 a oa1 (BObj (o_key oa1) (dset bm_eqb (o_mul oa1) (o_key ob) o) (o_inv oa1))) as (H1 & H2 & H3); auto.
    + intros k o' H. cbn in H. rewrite dget_dset in H by apply bm_eqb_ok. destruct (bm_eqb k (o_key ob)) eqn:Ek.
      * apply bm_eqb_ok in Ek; subst. inversion H; subst. rewrite Hk1. auto.
      * eapply ci3; eauto.
    + intros o' H. cbn in H. eapply ci4; eauto.
    + split; auto. split; [eapply ext_trans; eauto|]. rewrite H3; auto.
Qed.

Lemma c_inv_ok st a : cinv st ->
  match bm_val st a with
  | Some v => exists st' o, c_inv st a = Some (st', o) /\ good st st' o (bm_inv v)
  | None => c_inv st a = None
  end.
Proof.
  intros HI. unfold c_inv. unfold bm_val at 1.
  destruct (nth_error (st_objs st) a) as [oa|] eqn:Ea; cbn; auto.
  destruct (o_inv oa) as [o|] eqn:Em.
  - pose proof (ci4 st HI _ _ _ Ea Em) as Hv. exists st, o. split; auto. split; auto. split; auto using ext_refl.
  - destruct (c_new st (bm_inv (o_key oa))) as [st1 o] eqn:En.
    destruct (c_new_ok _ _ _ _ HI En) as (HI1 & Hext & Hv).
    assert (Ha1 : bm_val st1 a = Some (o_key oa)) by (apply Hext; unfold bm_val; rewrite Ea; auto).
    apply bm_val_nth in Ha1 as (oa1 & Ha1 & Hk1). rewrite Ha1.
    eexists _, o. split; [reflexivity|].
    destruct (set_obj_ok st1 a oa1 (BObj (o_key oa1) (o_mul oa1) (Some o))) as (H1 & H2 & H3); auto.
    + intros k o' H. cbn in H. eapply ci3; eauto.
    + intros o' H. cbn in H. inversion H; subst. rewrite Hk1; auto.
    + split; auto. split; [eapply ext_trans; eauto|]. rewrite H3; auto.
Qed.

Lemma c_id_ok st d : cinv st -> exists st' o, c_id st d = (st', o) /\ good st st' o (id_map d).
Proof.
  intros HI. unfold c_id. destruct (dget Nat.eqb (st_ids st) d) as [o|] eqn:E.
  - exists st, o. split; auto. split; auto. split; auto using ext_refl. apply ci5; auto.
  - destruct (c_new st _) as [st1 o] eqn:En. destruct (c_new_ok _ _ _ _ HI En) as (HI1 & Hext & Hv).
    eexists _, o. split; [reflexivity|]. set (st2 := Store _ _ _ _ _).
    assert (HB : forall x, bm_val st2 x = bm_val st1 x) by reflexivity.
    assert (HS : forall x, sp_val st2 x = sp_val st1 x) by reflexivity.
    split; [|split].
    + destruct HI1 as [c1 c2 c3 c4 c5 c6 c7 c8]. constructor; intros.
      * apply c1; auto.
      * apply c2; auto.
      * eapply c3; eauto.
      * eapply c4; eauto.
      * rewrite HB. cbn in H. rewrite dget_dset in H by apply nateqb_ok. destruct (Nat.eqb_spec d0 d).
        -- subst. inversion H; subst. auto.
        -- apply c5; auto.
      * apply c6; auto.
      * apply c7; auto.
      * eapply c8; eauto.
    + destruct Hext; split; auto.
    + auto.
Qed.

Lemma good_trans st st1 st2 o v : ext st st1 -> good st1 st2 o v -> good st st2 o v.
Proof. intros H (H1 & H2 & H3). split; auto. split; auto. eapply ext_trans; eauto. Qed.

Definition good_sp (st st' : store) (s : nat) (v : spec) : Prop :=
  cinv st' /\ ext st st' /\ sp_val st' s = Some v.

Lemma c_spec_ok st b p : cinv st ->
  match bm_val st b with
  | Some v => exists st' s, c_spec st b p = Some (st', s) /\ good_sp st st' s (Sp v p)
  | None => c_spec st b p = None
  end.
Proof.
  intros HI. unfold c_spec. unfold bm_val at 1.
  destruct (nth_error (st_objs st) b) as [ob|] eqn:Eb; cbn; auto.
  destruct (dget spkey_eqb (st_scache st) (o_key ob, p)) as [s|] eqn:Em.
  - exists st, s. split; auto. split; auto. split; auto using ext_refl. apply ci6; auto.
  - eexists _, _. split; [reflexivity|]. set (st1 := Store _ _ _ _ _).
    assert (HB : forall x, bm_val st1 x = bm_val st x) by reflexivity.
    assert (Hbv : bm_val st b = Some (o_key ob)) by (unfold bm_val; rewrite Eb; auto).
    assert (HS : forall s v, sp_val st s = Some v -> sp_val st1 s = Some v).
    { intros s v. unfold sp_val; cbn. destruct (nth_error (st_specs st) s) as [os|] eqn:Es; [|discriminate].
      rewrite nth_error_app1, Es by (apply nth_error_Some; congruence). auto. }
    assert (HN : sp_val st1 (length (st_specs st)) = Some (Sp (o_key ob) p)).
    { unfold sp_val; cbn [st1 st_specs]. rewrite nth_error_app2, Nat.sub_diag by lia. cbn. rewrite HB, Hbv. auto. }
    assert (HSi : forall s v, sp_val st1 s = Some v -> sp_val st s = Some v \/ (s = length (st_specs st) /\ v = Sp (o_key ob) p)).
    { intros s v. destruct (lt_dec s (length (st_specs st))) as [Hl|Hl].
      - unfold sp_val; cbn. rewrite nth_error_app1 by auto. auto.
      - destruct (Nat.eq_dec s (length (st_specs st))) as [->|Hne].
        + rewrite HN. intros E; inversion E; auto.
        + unfold sp_val; cbn. rewrite (proj2 (nth_error_None _ _)); [discriminate|]. rewrite app_length; cbn; lia. }
    split; [|split; [split|]; auto].
    destruct HI as [c1 c2 c3 c4 c5 c6 c7 c8]. constructor; intros.
    + apply c1; auto.
    + apply c2; auto.
    + eapply c3; eauto.
    + eapply c4; eauto.
    + apply c5; auto.
    + cbn in H. rewrite dget_dset in H by apply spkey_eqb_ok. destruct (spkey_eqb (k, p0) (o_key ob, p)) eqn:Ek.
      * apply spkey_eqb_ok in Ek. inversion Ek; subst. inversion H; subst. auto.
      * apply HS, c6; auto.
    + cbn. rewrite dget_dset by apply spkey_eqb_ok. apply HSi in H as [H|[-> E]].
      * destruct (spkey_eqb (k, p0) (o_key ob, p)) eqn:Ek; [|apply c7; auto]. apply spkey_eqb_ok in Ek. inversion Ek; subst.
        apply c7 in H. congruence.
      * inversion E; subst. assert (spkey_eqb (o_key ob, p) (o_key ob, p) = true) as -> by (apply spkey_eqb_ok; auto). auto.
    + cbn in H. destruct (lt_dec s (length (st_specs st))) as [Hl|Hl].
      * rewrite nth_error_app1 in H by auto. eapply c8; eauto.
      * rewrite nth_error_app2 in H by lia. destruct (s - length (st_specs st)) as [|[|n]]; cbn in H; inversion H; subst.
        exists (o_key ob). auto.
Qed.

Lemma sp_val_nth st s v : sp_val st s = Some v ->
  exists os, nth_error (st_specs st) s = Some os /\ bm_val st (so_bm os) = Some (sp_bm v) /\ so_pnum os = sp_pnum v.
Proof.
  unfold sp_val. destruct (nth_error (st_specs st) s) as [os|]; [|discriminate].
  destruct (bm_val st (so_bm os)) eqn:E; [|discriminate]. cbn. intros E'; inversion E'; subst. eauto.
Qed.
Lemma sp_val_none st s : cinv st -> sp_val st s = None -> nth_error (st_specs st) s = None.
Proof.
  intros HI. unfold sp_val. destruct (nth_error (st_specs st) s) as [os|] eqn:E; auto.
  destruct (ci8 st HI _ _ E) as (k & ->). discriminate.
Qed.

Lemma bm_dim_mul a b : bm_dim (bm_mul a b) = bm_dim a. Proof. apply length_mul. Qed.
Lemma bm_dim_inv a : bm_dim (bm_inv a) = bm_dim a. Proof. apply length_inv. Qed.

(** One step: invariant kept, no object changes its value, and the result has the value of the definitions. *)
Lemma cstep_ok st op st' r : cinv st -> cstep st op = (st', r) ->
  cinv st' /\ ext st st' /\ res_val st' r = pure_step st op.
Proof.
  intros HI. destruct op; cbn [cstep pure_step].
  - destruct (c_new st key) as [st1 o] eqn:E. cbn. intros E'; inversion E'; subst.
    destruct (c_new_ok _ _ _ _ HI E) as (H1 & H2 & H3). split; auto. split; auto. cbn. rewrite H3; auto.
  - destruct (c_id_ok st d HI) as (st1 & o & E & H1 & H2 & H3). rewrite E. cbn. intros E'; inversion E'; subst.
    split; auto. split; auto. cbn. rewrite H3; auto.
  - pose proof (c_mul_ok st a b HI) as H. destruct (lift2 _ _ _) as [v|].
    + destruct H as (st1 & o & -> & H1 & H2 & H3). cbn. intros E'; inversion E'; subst. split; auto. split; auto. cbn. rewrite H3; auto.
    + rewrite H. cbn. intros E'; inversion E'; subst. split; auto. split; auto using ext_refl.
  - pose proof (c_inv_ok st a HI) as H. destruct (bm_val st a) as [v|].
    + destruct H as (st1 & o & -> & H1 & H2 & H3). cbn. intros E'; inversion E'; subst. split; auto. split; auto. cbn. rewrite H3; auto.
    + rewrite H. cbn. intros E'; inversion E'; subst. split; auto. split; auto using ext_refl.
  - unfold c_rev. unfold bm_val at 1. destruct (nth_error (st_objs st) a) as [oa|]; cbn [wrap option_map ovb].
    + destruct (c_new st _) as [st1 o] eqn:E. intros E'; inversion E'; subst.
      destruct (c_new_ok _ _ _ _ HI E) as (H1 & H2 & H3). split; auto. split; auto. cbn. rewrite H3; auto.
    + intros E'; inversion E'; subst. split; auto. split; auto using ext_refl.
  - unfold c_cube_map. unfold bm_val at 1. destruct (nth_error (st_objs st) a) as [oa|]; cbn [wrap option_map ovb].
    + destruct (c_new st _) as [st1 o] eqn:E. intros E'; inversion E'; subst.
      destruct (c_new_ok _ _ _ _ HI E) as (H1 & H2 & H3). split; auto. split; auto. cbn. rewrite H3; auto.
    + intros E'; inversion E'; subst. split; auto. split; auto using ext_refl.
  - unfold c_conj. pose proof (c_mul_ok st g x HI) as H. unfold lift2, mul_val in *.
    destruct (bm_val st g) as [vg|] eqn:Eg; destruct (bm_val st x) as [vx|] eqn:Ex;
      try (rewrite H; cbn; intros E'; inversion E'; subst; split; auto; split; auto using ext_refl).
    destruct (Nat.eqb_spec (bm_dim vg) (bm_dim vx)) as [Hd|Hd].
    + destruct H as (st1 & gx & -> & H1 & H2 & H3).
      pose proof (c_inv_ok st1 g H1) as H'. rewrite (proj1 H2 _ _ Eg) in H'. destruct H' as (st2 & gi & -> & H4 & H5 & H6).
      pose proof (c_mul_ok st2 gx gi H4) as H''. unfold lift2, mul_val in H''. rewrite H6, (proj1 H5 _ _ H3) in H''.
      rewrite bm_dim_mul, bm_dim_inv, Nat.eqb_refl in H''. destruct H'' as (st3 & o & -> & H7 & H8 & H9).
      cbn. intros E'; inversion E'; subst. split; auto. split; [eapply ext_trans; [|eapply ext_trans]; eauto|].
      cbn. rewrite H9. auto.
    + rewrite H; cbn; intros E'; inversion E'; subst; split; auto; split; auto using ext_refl.
  - pose proof (c_spec_ok st b pnum HI) as H. destruct (bm_val st b) as [v|].
    + destruct H as (st1 & o & -> & H1 & H2 & H3). cbn. intros E'; inversion E'; subst. split; auto. split; auto. cbn. rewrite H3; auto.
    + rewrite H. cbn. intros E'; inversion E'; subst. split; auto. split; auto using ext_refl.
  - unfold c_sp_mul. destruct (sp_val st s) as [vs|] eqn:Es; cbn [lift2].
    2:{ rewrite (sp_val_none _ _ HI Es). cbn. intros E'; inversion E'; subst. split; auto. split; auto using ext_refl. }
    destruct (sp_val_nth _ _ _ Es) as (os & -> & Hbs & Hps).
    destruct (sp_val st t) as [vt|] eqn:Et; cbn [lift2].
    2:{ rewrite (sp_val_none _ _ HI Et). cbn. intros E'; inversion E'; subst. split; auto. split; auto using ext_refl. }
    destruct (sp_val_nth _ _ _ Et) as (ot & -> & Hbt & Hpt).
    pose proof (c_mul_ok st (so_bm os) (so_bm ot) HI) as H. rewrite Hbs, Hbt in H. cbn [lift2] in H.
    destruct (mul_val (sp_bm vs) (sp_bm vt)) as [v|].
    + destruct H as (st1 & o & -> & H1 & H2 & H3).
      pose proof (c_spec_ok st1 o (so_pnum os) H1) as H'. rewrite H3 in H'. destruct H' as (st2 & s2 & -> & H4 & H5 & H6).
      cbn. intros E'; inversion E'; subst. split; auto. split; [eapply ext_trans; eauto|]. cbn. rewrite H6, Hps. auto.
    + rewrite H. cbn. intros E'; inversion E'; subst. split; auto. split; auto using ext_refl.
  - unfold c_sp_mul_bm. destruct (sp_val st s) as [vs|] eqn:Es; cbn [lift2].
    2:{ rewrite (sp_val_none _ _ HI Es). cbn. intros E'; inversion E'; subst. split; auto. split; auto using ext_refl. }
    destruct (sp_val_nth _ _ _ Es) as (os & -> & Hbs & Hps).
    pose proof (c_mul_ok st (so_bm os) b HI) as H. rewrite Hbs in H. destruct (bm_val st b) as [vb|]; cbn [lift2] in *.
    + destruct (mul_val (sp_bm vs) vb) as [v|].
      * destruct H as (st1 & o & -> & H1 & H2 & H3).
        pose proof (c_spec_ok st1 o (so_pnum os) H1) as H'. rewrite H3 in H'. destruct H' as (st2 & s2 & -> & H4 & H5 & H6).
        cbn. intros E'; inversion E'; subst. split; auto. split; [eapply ext_trans; eauto|]. cbn. rewrite H6, Hps. auto.
      * rewrite H. cbn. intros E'; inversion E'; subst. split; auto. split; auto using ext_refl.
    + rewrite H. cbn. intros E'; inversion E'; subst. split; auto. split; auto using ext_refl.
  - unfold c_bm_mul_sp. destruct (sp_val st s) as [vs|] eqn:Es.
    2:{ rewrite (sp_val_none _ _ HI Es). destruct (bm_val st b); cbn; intros E'; inversion E'; subst; split; auto; split; auto using ext_refl. }
    destruct (sp_val_nth _ _ _ Es) as (os & -> & Hbs & Hps).
    pose proof (c_mul_ok st b (so_bm os) HI) as H. rewrite Hbs in H. destruct (bm_val st b) as [vb|]; cbn [lift2] in *.
    + destruct (mul_val vb (sp_bm vs)) as [v|].
      * destruct H as (st1 & o & -> & H1 & H2 & H3).
        pose proof (c_spec_ok st1 o (so_pnum os) H1) as H'. rewrite H3 in H'. destruct H' as (st2 & s2 & -> & H4 & H5 & H6).
        cbn. intros E'; inversion E'; subst. split; auto. split; [eapply ext_trans; eauto|]. cbn. rewrite H6, Hps. auto.
      * rewrite H. cbn. intros E'; inversion E'; subst. split; auto. split; auto using ext_refl.
    + rewrite H. cbn. intros E'; inversion E'; subst. split; auto. split; auto using ext_refl.
Qed.

Lemma cinv_run_from ops : forall st, cinv st -> cinv (fold_left (fun st op => fst (cstep st op)) ops st).
Proof.
  induction ops as [|op ops IH]; intros st HI; cbn; auto. apply IH.
  destruct (cstep st op) as [st' r] eqn:E. apply (cstep_ok _ _ _ _ HI E).
Qed.
Lemma cinv_run ops : cinv (crun ops).
Proof. apply cinv_run_from, cinv_empty. Qed.

Lemma cinv_unique st o o' k : cinv st -> bm_val st o = Some k -> bm_val st o' = Some k -> o = o'.
Proof. intros HI H H'. apply (ci2 st HI) in H. apply (ci2 st HI) in H'. congruence. Qed.
Lemma cinv_unique_sp st s s' v : cinv st -> sp_val st s = Some v -> sp_val st s' = Some v -> s = s'.
Proof. intros HI H H'. destruct v as [k p]. apply (ci7 st HI) in H. apply (ci7 st HI) in H'. congruence. Qed.
