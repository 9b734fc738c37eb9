(** CubePathTree.grow calls the step functions only at the heads of the paths it has grown, before the last cube. *)
From Verif Require Import Py L_Py L_BaseMaps M_BaseMaps M_Subsets M_PathTree S_Subsets S_PathTree P_Facets P_PathTree P_PathGlue P_PathGrow.
From Coq Require Import Permutation.
Local Open Scope nat_scope.

Section Step.
Context {S : Type} (N M : nat) (f f' : @step_func S) (Inv : nat -> list Z * S -> Prop).
Context (HA : forall n h, Inv n h -> n < M -> f (fst h) (snd h) = f' (fst h) (snd h)).
Context (HI : forall n h l dl s, Inv n h -> f' (fst h) (snd h) = Some l -> In (dl, s) l -> Inv (Datatypes.S n) (zadd (fst h) dl, s)).
Definition inv_path (p : cpath S) : Prop := exists h, hd_error p = Some h /\ Inv (length p) h.
Lemma continue_agree p cs : inv_path p -> length p < M -> continue_path N f p cs = continue_path N f' p cs.
Proof. intros (h & E & H) HL. destruct p as [|h' p]; [discriminate|]. injection E as ->. cbn [continue_path]. rewrite (HA _ _ H HL). auto. Qed.
Lemma continue_inv p cs l q : inv_path p -> continue_path N f' p cs = Some l -> In q l -> inv_path q /\ length q = Datatypes.S (length p).
Proof.
  intros (h & E & H) HC Hq. destruct p as [|h' p]; [discriminate|]. injection E as ->. cbn [continue_path] in HC.
  destruct (f' (fst h) (snd h)) as [l'|] eqn:EF; [|discriminate]. cbn [option_map] in HC. injection HC as <-. apply in_flat_map in Hq.
  destruct Hq as ([dl s] & H1 & H2). cbn [fst snd] in H2. destruct (outside N (zadd (fst h) dl) || inset (zadd (fst h) dl) cs); [destruct H2|].
  destruct H2 as [<-|[]]. split; auto. eexists. split; [reflexivity|]. apply (HI _ h l'); auto.
Qed.
Lemma width_step_agree mc n : n < M -> forall curr new, Forall (fun p => inv_path p /\ length p = n) curr -> Forall (fun p => inv_path p /\ length p = Datatypes.S n) new ->
  width_step N f mc curr new = width_step N f' mc curr new /\
  forall r, width_step N f' mc curr new = Some (inr r) -> Forall (fun p => inv_path p /\ length p = Datatypes.S n) r.
Proof.
  intros Hn. induction curr as [|p curr IH]; intros new HC HN; cbn [width_step].
  - split; auto. intros r E. injection E as <-. auto.
  - inversion HC as [|? ? (H1 & H2) H3]; subst. rewrite (continue_agree p (support p) H1 Hn).
    destruct (continue_path N f' p (support p)) as [l|] eqn:E; [|split; auto; discriminate]. cbv zeta.
    destruct (over mc (length (new ++ l))); [split; auto; discriminate|]. apply IH; auto. apply Forall_app. split; auto.
    rewrite Forall_forall. intros q Hq. apply (continue_inv p (support p) l q H1 E Hq).
Qed.
Lemma width_agree mc k : forall n curr, n + k <= M -> Forall (fun p => inv_path p /\ length p = n) curr ->
  width_search N f k mc curr = width_search N f' k mc curr /\
  forall r, width_search N f' k mc curr = Some r -> Forall (fun p => inv_path p /\ length p <= n + k) r.
Proof.
  induction k as [|k IH]; intros n curr HM HC; cbn [width_search].
  - split; auto. intros r E. injection E as <-. eapply Forall_impl; [|exact HC]. cbn. intros p (A & B). split; auto. lia.
  - destruct (width_step_agree mc n ltac:(lia) curr [] HC ltac:(constructor)) as (E & HR). rewrite E.
    destruct (width_step N f' mc curr []) as [[u|new]|]; [| |].
    + split; auto. intros r E'. injection E' as <-. eapply Forall_impl; [|exact HC]. cbn. intros p (A & B). split; auto. lia.
    + destruct (IH (Datatypes.S n) new ltac:(lia) (HR new eq_refl)) as (E1 & E2). split; auto. intros r Hr. apply E2 in Hr. eapply Forall_impl; [|exact Hr]. cbn. intros p (A & B). split; auto. lia.
    + split; auto. discriminate.
Qed.
Lemma depth_agree len : len <= M -> forall fuel todo, Forall (fun pc => inv_path (fst pc)) todo -> depth_loop N f fuel len todo = depth_loop N f' fuel len todo.
Proof.
  intros HL. induction fuel as [|fuel IH]; intros [|[p cs] todo] HT; auto. inversion HT as [|? ? H1 H2]; subst. cbn [depth_loop fst] in *.
  destruct (Nat.eqb_spec (length p + 1) len).
  - rewrite (continue_agree p cs) by (auto; lia). rewrite (IH todo) by auto. auto.
  - destruct (Nat.ltb_spec (length p + 1) len); [|apply IH; auto]. rewrite (continue_agree p cs) by (auto; lia).
    destruct (continue_path N f' p cs) as [l|] eqn:E; auto. apply IH. apply Forall_app. split; auto. apply Forall_rev. rewrite Forall_map, Forall_forall.
    intros q Hq. cbn [fst]. apply (continue_inv p cs l q H1 E Hq).
Qed.
End Step.

Section Agree.
Context {S : Type} (seqb : S -> S -> bool) (hash : future_t S -> Z) (d N : nat) (H2 : 2 <= N ^ d).
Context (f f' g g' : @step_func S) (Inv Inv' : nat -> list Z * S -> Prop).
Context (HA : forall n h, Inv n h -> n < N ^ d -> f (fst h) (snd h) = f' (fst h) (snd h)).
Context (HI : forall n h l dl s, Inv n h -> f' (fst h) (snd h) = Some l -> In (dl, s) l -> Inv (Datatypes.S n) (zadd (fst h) dl, s)).
Context (HA' : forall n h, Inv' n h -> n < N ^ d -> g (fst h) (snd h) = g' (fst h) (snd h)).
Context (HI' : forall n h l dl s, Inv' n h -> g' (fst h) (snd h) = Some l -> In (dl, s) l -> Inv' (Datatypes.S n) (zadd (fst h) dl, s)).
Lemma group_paths_In starts gs : group_paths seqb hash starts = Some gs -> forall grp p, In grp gs -> In p grp -> In p starts.
Proof.
  unfold group_paths. destruct (with_future starts) as [fps|] eqn:E; [|discriminate]. cbn [option_map]. intros H. injection H as <-. intros grp p Hg Hp.
  apply in_flat_map in Hg. destruct Hg as ((h & fs) & H1 & H3). apply in_map_iff in H3. destruct H3 as ((fu & ps) & E2 & H3). cbn in E2. subst ps.
  assert (A1 : In p (map snd fs)).
  { apply (Permutation_in _ (group_by_perm (future_eqb seqb) fs)). apply in_concat. exists grp. split; auto. apply in_map_iff. exists (fu, grp); auto. }
  apply in_map_iff in A1. destruct A1 as ((fu' & p') & E3 & A1). cbn in E3. subst p'.
  assert (A2 : In (fu', p) (map snd (map (fun fp => (hash (fst fp), fp)) fps))).
  { apply (Permutation_in _ (group_by_perm Z.eqb _)). apply in_concat. exists fs. split; auto. apply in_map_iff. exists (h, fs); auto. }
  rewrite map_map in A2. cbn in A2. rewrite map_id in A2. unfold with_future in E. apply omap_Some in E. clear - E A2.
  induction E as [|q fp starts fps H E IH]; [destruct A2|]. destruct A2 as [->|A2]; [|right; auto]. left. destruct (future q); [|discriminate]. cbn in H. congruence.
Qed.
Lemma grow_agree fuel start finish smax fmax : Forall (Inv 1) start -> Forall (Inv' 1) finish ->
  grow seqb hash d N f (Some g) fuel start finish smax fmax = grow seqb hash d N f' (Some g') fuel start finish smax fmax.
Proof.
  intros HS HFi. unfold grow. cbv zeta.
  assert (HM : 1 + (N ^ d / 2 - 1) <= N ^ d). { pose proof (Nat.div_mod (N ^ d) 2 ltac:(lia)). lia. }
  assert (I1 : Forall (fun p => inv_path Inv p /\ length p = 1) (map (fun x => [x]) start)).
  { rewrite Forall_map. eapply Forall_impl; [|exact HS]. intros x Hx. split; auto. exists x. auto. }
  assert (I2 : Forall (fun p => inv_path Inv' p /\ length p = 1) (map (fun x => [x]) finish)).
  { rewrite Forall_map. eapply Forall_impl; [|exact HFi]. intros x Hx. split; auto. exists x. auto. }
  destruct (width_agree N (N ^ d) f f' Inv HA HI (Some smax) (N ^ d / 2 - 1) 1 _ HM I1) as (-> & R1).
  destruct (width_search N f' (N ^ d / 2 - 1) (Some smax) (map (fun x => [x]) start)) as [starts|]; auto. specialize (R1 _ eq_refl).
  assert (EF : match fmax with None => Some (map (fun x => [x]) finish) | Some m => width_search N g (N ^ d / 2 - 1) (Some m) (map (fun x => [x]) finish) end =
               match fmax with None => Some (map (fun x => [x]) finish) | Some m => width_search N g' (N ^ d / 2 - 1) (Some m) (map (fun x => [x]) finish) end /\
               forall r, match fmax with None => Some (map (fun x => [x]) finish) | Some m => width_search N g' (N ^ d / 2 - 1) (Some m) (map (fun x => [x]) finish) end = Some r ->
                 Forall (fun p => p <> []) r).
  { destruct fmax as [m|].
    - destruct (width_agree N (N ^ d) g g' Inv' HA' HI' (Some m) (N ^ d / 2 - 1) 1 _ HM I2) as (E & R2). split; auto. intros r Hr. apply R2 in Hr.
      eapply Forall_impl; [|exact Hr]. intros p ((h & Hh & _) & _). destruct p; [discriminate|congruence].
    - split; auto. intros r E. injection E as <-. rewrite Forall_map. rewrite Forall_forall. intros; congruence. }
  destruct EF as (-> & RF). destruct starts as [|s0 starts']; auto. set (starts := s0 :: starts') in *.
  destruct (match fmax with None => _ | Some _ => _ end) as [fins|]; auto. specialize (RF _ eq_refl). destruct fins as [|f0 fins]; auto.
  assert (HF0 : 1 <= length f0) by (inversion RF as [|? ? X _]; subst; destruct f0; [congruence|cbn; lia]).
  destruct (omap _ (f0 :: fins)) as [hps|]; auto. destruct (group_paths seqb hash starts) as [gs|] eqn:EG; auto. f_equal.
  pose proof (group_paths_In starts gs EG) as HG. clear EG. assert (HL : N ^ d - length f0 + 1 <= N ^ d) by lia.
  induction gs as [|grp gs IH]; auto. cbn [omap]. rewrite IH by (intros; eapply HG; [right; eauto|auto]).
  assert (E : grow_group seqb hash N f fuel (N ^ d - length f0 + 1) (group_by Z.eqb hps) grp = grow_group seqb hash N f' fuel (N ^ d - length f0 + 1) (group_by Z.eqb hps) grp).
  { unfold grow_group. destruct grp as [|p0 grp]; auto. unfold depth_search. cbn [map rev app].
    rewrite (depth_agree N (N ^ d) f f' Inv HA HI _ HL fuel [(p0, support p0)]); auto. constructor; auto. cbn [fst].
    rewrite Forall_forall in R1. apply R1. apply (HG (p0 :: grp)); left; auto. }
  rewrite E. auto.
Qed.
End Agree.
