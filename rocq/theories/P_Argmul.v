(** Proofs about argmul_intersect (subsets.py). *)
From Verif Require Import Py L_Py L_Qc M_BaseMaps L_BaseMaps P_GenMaps M_Subsets S_BaseMaps S_Utils S_Subsets P_Actions P_Utils P_Subsets P_Facets.
Local Open Scope nat_scope.

Section Argmul.
  Context {S : Type} (good : base_map -> S -> S -> bool) (Hrev : forall b s t, good (bm_rev b) s t = good b s t).
  Definition argmul' (bms : list base_map) (s t : S) := filter (fun b => good b s t) bms.
  Lemma lk_argmul_exact d (l m : link S) :
    NoDup (lk_argmul argmul' (gen_base_maps d (Some false)) l m) /\
    forall b, In b (lk_argmul argmul' (gen_base_maps d (Some false)) l m) <->
      wf_bm d b /\
      (if time_rev b then good b (exit l) (entrance m) && good b (entrance l) (exit m)
       else good b (entrance l) (entrance m) && good b (exit l) (exit m)) = true.
  Proof.
    assert (HR : forall bms s t s' t' b, In b (argmul' (argmul' bms s t) s' t') <-> In b bms /\ good b s t = true /\ good b s' t' = true).
    { intros. unfold argmul'. rewrite !filter_In. tauto. }
    assert (HF : forall b, In b (gen_base_maps d (Some false)) -> time_rev b = false).
    { intros b Hb. apply In_gen_base_maps in Hb as [_ [E|E]]; congruence. }
    unfold lk_argmul. split.
    - apply NoDup_app_intro.
      + apply NoDup_filter, NoDup_filter, NoDup_gen_base_maps.
      + apply NoDup_map_inj.
        * intros x y _ _ E. apply (f_equal bm_rev) in E. rewrite !rev_rev in E. auto.
        * apply NoDup_filter, NoDup_filter, NoDup_gen_base_maps.
      + intros b H1 H2. apply HR in H1 as [H1 _]. apply in_map_iff in H2 as (c & <- & H2). apply HR in H2 as [H2 _].
        apply HF in H1, H2. cbn in H1. rewrite H2 in H1. discriminate.
    - intros b. rewrite in_app_iff, in_map_iff. split.
      + intros [H | (c & <- & H)]; apply HR in H as (H & G1 & G2).
        * pose proof (HF _ H) as Ht. rewrite Ht, G1, G2. apply In_gen_base_maps in H. split; [apply H|auto].
        * pose proof (HF _ H) as Ht. cbn [time_rev bm_rev]. rewrite Ht. cbn. rewrite !Hrev, G1, G2. apply In_gen_base_maps in H.
          split; [apply wf_rev; apply H|auto].
      + intros [Hb H]. destruct (time_rev b) eqn:Ht; apply andb_true_iff in H as [G1 G2].
        * right. exists (bm_rev b). split; [apply rev_rev|]. apply HR. rewrite !Hrev. split; auto. apply In_gen_base_maps.
          split; [apply wf_rev; auto|]. right. cbn. rewrite Ht. auto.
        * left. apply HR. split; auto. apply In_gen_base_maps. split; auto. right; congruence.
  Qed.
End Argmul.

Lemma pl_argmul_exact d (l m : plink) : length (entrance l) = d ->
  NoDup (pl_argmul l m) /\
  forall b, In b (pl_argmul l m) <-> wf_bm d b /\ lk_intersects pt_eqb (pl_mul b l) m = true.
Proof.
  intros Hd. unfold pl_argmul. rewrite Hd.
  destruct (lk_argmul_exact (fun b p q => pt_eqb (pt_mul b p) q) (fun b s t => eq_refl) d l m) as [H1 H2].
  split; auto. intros b. etransitivity; [apply H2|]. unfold lk_intersects, pl_mul, lk_mul. destruct (time_rev b); cbn; tauto.
Qed.
Lemma fl_argmul_exact d (l m : link facet_set) : fl_dim d l ->
  NoDup (fl_argmul l m) /\
  forall b, In b (fl_argmul l m) <-> wf_bm d b /\ exists l', fl_mul b l = Some l' /\ lk_intersects fs_intersects l' m = true.
Proof.
  intros Hl. pose proof Hl as (V1 & V2 & D1 & D2). unfold fl_argmul. rewrite D1.
  set (good := fun b s t => ofacet_eqb (fs_map_facet s b) (fs_facet t) &&
                   match fs_mul b s with Some s' => fs_intersects s' t | None => false end).
  destruct (lk_argmul_exact good (fun b s t => eq_refl) d l m) as [H1 H2].
  split; auto. intros b. etransitivity; [apply H2|].
  assert (HG : forall s s' t, fs_mul b s = Some s' -> good b s t = fs_intersects s' t).
  { intros s s' t E. unfold good. rewrite E. unfold fs_mul in E. destruct (_ =? _); [|discriminate].
    destruct (fs_map_facet s b) as [nf|]; [|discriminate]. inversion E; subst. cbn. unfold fs_intersects. cbn [fs_facet].
    destruct (facet_eqb nf (fs_facet t)); auto. }
  split; intros [Hb H]; split; auto.
  - destruct (fl_mul_spec d b l Hb Hl) as (l' & E & _). exists l'. split; auto. unfold fl_mul in E.
    destruct (fs_mul b (entrance l)) as [s1|] eqn:E1; [|discriminate]. destruct (fs_mul b (exit l)) as [s2|] eqn:E2; [|discriminate].
    rewrite (HG _ _ _ E1), !(HG _ _ _ E2), (HG _ _ _ E1) in H. inversion E; subst. unfold lk_intersects. destruct (time_rev b); cbn; auto.
  - destruct H as (l' & E & H). unfold fl_mul in E.
    destruct (fs_mul b (entrance l)) as [s1|] eqn:E1; [|discriminate]. destruct (fs_mul b (exit l)) as [s2|] eqn:E2; [|discriminate].
    rewrite (HG _ _ _ E1), !(HG _ _ _ E2), (HG _ _ _ E1). inversion E; subst. unfold lk_intersects in H. destruct (time_rev b); cbn in H; auto.
Qed.
