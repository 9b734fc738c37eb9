(** Enumeration of base maps: gen_base_maps and gen_constraint_fast. *)
From Verif Require Import Py L_Py L_Qc M_BaseMaps L_BaseMaps.
Local Open Scope nat_scope.

Lemma combine_fst_snd {A B} (l : list (A * B)) : combine (map fst l) (map snd l) = l.
Proof. induction l as [|[a b] l IH]; cbn; congruence. Qed.

Lemma In_gen_base_maps d tr b :
  In b (gen_base_maps d tr) <-> wf_bm d b /\ (tr = None \/ tr = Some (time_rev b)).
Proof.
  unfold gen_base_maps. rewrite in_flat_map. split.
  - intros (p & Hp & H). apply in_flat_map in H as (fl & Hfl & H). apply in_map_iff in H as (t & <- & Ht).
    apply In_perms in Hp. apply In_lprod_rep in Hfl as [Hl _].
    pose proof (Permutation_length Hp) as HL. unfold range in *. rewrite seq_length in HL.
    split.
    + unfold wf_bm; cbn. rewrite combine_map_l by lia. apply Permutation_sym; auto.
    + cbn. destruct tr as [t'|]; auto. destruct Ht as [->|[]]; auto.
  - intros [Hw Ht]. exists (map fst (coords b)). split.
    { apply In_perms. apply Permutation_sym; auto. }
    apply in_flat_map. exists (map snd (coords b)). split.
    { apply In_lprod_rep. rewrite map_length. split; [apply wf_length; auto|].
      apply Forall_forall. intros [] _; cbn; auto. }
    apply in_map_iff. exists (time_rev b). split.
    { rewrite combine_fst_snd. destruct b; auto. }
    destruct Ht as [->| ->]; cbn; auto. destruct (time_rev b); auto.
Qed.

Lemma NoDup_gen_base_maps d tr : NoDup (gen_base_maps d tr).
Proof.
  unfold gen_base_maps. apply NoDup_flat_map.
  - apply NoDup_perms, seq_NoDup.
  - intros p Hp. apply In_perms in Hp. pose proof (Permutation_length Hp) as HL. unfold range in HL. rewrite seq_length in HL.
    apply NoDup_flat_map.
    + apply NoDup_lprod_rep. repeat constructor; cbn; intuition congruence.
    + intros fl Hfl. apply NoDup_map_inj; [congruence|].
      destruct tr; repeat constructor; cbn; intuition congruence.
    + intros x y z Hx Hy Hzx Hzy. apply In_lprod_rep in Hx as [Hx _]. apply In_lprod_rep in Hy as [Hy _].
      apply in_map_iff in Hzx as (? & <- & _). apply in_map_iff in Hzy as (? & E & _).
      inversion E. rewrite <- (combine_map_r p x), <- (combine_map_r p y) by lia. congruence.
  - intros p q z Hp Hq Hzp Hzq.
    apply In_perms in Hp. pose proof (Permutation_length Hp) as HL. unfold range in HL. rewrite seq_length in HL.
    apply In_perms in Hq. pose proof (Permutation_length Hq) as HL2. unfold range in HL2. rewrite seq_length in HL2.
    apply in_flat_map in Hzp as (x & Hx & Hzp). apply in_flat_map in Hzq as (y & Hy & Hzq).
    apply In_lprod_rep in Hx as [Hx _]. apply In_lprod_rep in Hy as [Hy _].
    apply in_map_iff in Hzp as (? & <- & _). apply in_map_iff in Hzq as (? & E & _).
    inversion E. rewrite <- (combine_map_l p x), <- (combine_map_l q y) by lia. congruence.
Qed.

(** *** gen_constraint_fast *)
Lemma qc_eqb_ok : eqb_ok qc_eqb.
Proof. intros x y. unfold qc_eqb. destruct (Qc_eq_dec x y); split; congruence. Qed.

Lemma nth_map_snd (fl : list (bool * nat)) k : nth k (map snd fl) 0 = snd (nth k fl (false, 0)).
Proof. apply (map_nth snd fl (false, 0)). Qed.
Lemma nth_map_fst (fl : list (bool * nat)) k : nth k (map fst fl) false = fst (nth k fl (false, 0)).
Proof. apply (map_nth fst fl (false, 0)). Qed.

(** shuffling *)
Definition sel (g : nat) (gs l : list nat) : list nat :=
  map snd (filter (fun p => fst p =? g) (combine gs l)).

Fixpoint npos (gs : list nat) (ps : list (list nat)) : option (list nat) :=
  match gs with
  | [] => Some []
  | g :: gs' => match nth g ps [] with
                | n :: rest => option_map (cons n) (npos gs' (upd g rest ps))
                | [] => None
                end
  end.

Local Arguments sel : simpl never.
Local Arguments Nat.eq_dec : simpl never.
Lemma sel_cons g g' gs n l : sel g (g' :: gs) (n :: l) = if g' =? g then n :: sel g gs l else sel g gs l.
Proof. unfold sel; cbn. destruct (g' =? g); auto. Qed.

Lemma npos_complete gs : forall ps,
  (forall g, In g gs -> g < length ps) ->
  (forall g, g < length ps -> length (nth g ps []) = count_occ Nat.eq_dec gs g) ->
  exists l, npos gs ps = Some l /\ length l = length gs /\
    (forall g, g < length ps -> sel g gs l = nth g ps []).
Proof.
  induction gs as [|g gs IH]; intros ps Hlt Hc; cbn.
  - exists []. split; auto. split; auto. intros g Hg. specialize (Hc g Hg). cbn in Hc.
    destruct (nth g ps []); auto; discriminate.
  - assert (Hg : g < length ps) by (apply Hlt; cbn; auto).
    pose proof (Hc g Hg) as Hcg. cbn in Hcg. destruct (Nat.eq_dec g g) as [_|]; [|congruence].
    destruct (nth g ps []) as [|n rest] eqn:E; [discriminate|]. cbn in Hcg.
    destruct (IH (upd g rest ps)) as (l & Hl & HL & Hs).
    { intros g' Hg'. rewrite length_upd. apply Hlt; cbn; auto. }
    { intros g' Hg'. rewrite length_upd in Hg'. specialize (Hc g' Hg'). cbn in Hc.
      destruct (Nat.eq_dec g g') as [<-|Hne].
      - rewrite nth_upd_eq by auto. lia.
      - rewrite nth_upd_ne by auto. auto. }
    exists (n :: l). rewrite Hl. cbn. split; auto. split; [lia|].
    intros g' Hg'. rewrite sel_cons. specialize (Hs g'). rewrite length_upd in Hs. rewrite Hs by auto.
    destruct (Nat.eqb_spec g g') as [<-|Hne].
    + rewrite nth_upd_eq by auto. auto.
    + rewrite nth_upd_ne by auto. auto.
Qed.

Lemma npos_unique gs : forall ps l,
  (forall g, In g gs -> g < length ps) -> length l = length gs ->
  (forall g, g < length ps -> sel g gs l = nth g ps []) -> npos gs ps = Some l.
Proof.
  induction gs as [|g gs IH]; intros ps l Hlt HL Hs; cbn.
  - destruct l; [auto|discriminate].
  - destruct l as [|n l]; [discriminate|].
    assert (Hg : g < length ps) by (apply Hlt; cbn; auto).
    pose proof (Hs g Hg) as Hsg. rewrite sel_cons, Nat.eqb_refl in Hsg. rewrite <- Hsg.
    rewrite IH with (l := l); cbn; auto.
    + intros g' Hg'. rewrite length_upd. apply Hlt; cbn; auto.
    + intros g' Hg'. rewrite length_upd in Hg'. specialize (Hs g' Hg'). rewrite sel_cons in Hs.
      destruct (Nat.eqb_spec g g') as [E0|Hne]; [subst g'|].
      * rewrite nth_upd_eq by auto. auto.
      * rewrite nth_upd_ne by auto. auto.
Qed.

Lemma In_sel g gs l n : In n (sel g gs l) <-> In (g, n) (combine gs l).
Proof.
  unfold sel. rewrite in_map_iff. split.
  - intros ([g' n'] & E & H). cbn in E; subst. apply filter_In in H as [H E]. cbn in E. apply Nat.eqb_eq in E; subst; auto.
  - intros H. exists (g, n). split; auto. apply filter_In. split; auto. cbn. apply Nat.eqb_refl.
Qed.
Lemma length_sel g gs : forall l, length l = length gs -> length (sel g gs l) = count_occ Nat.eq_dec gs g.
Proof.
  induction gs as [|g' gs IH]; intros [|n l] HL; try discriminate; auto.
  rewrite sel_cons. cbn. destruct (Nat.eqb_spec g' g), (Nat.eq_dec g' g); try congruence; cbn; rewrite IH; auto.
Qed.
Lemma NoDup_sel g gs : forall l, NoDup l -> NoDup (sel g gs l).
Proof.
  induction gs as [|g' gs IH]; intros [|n l] HN; try constructor.
  inversion HN; subst. rewrite sel_cons. destruct (g' =? g); auto. constructor; auto.
  rewrite In_sel. intros H. apply in_combine_r in H. auto.
Qed.
Lemma NoDup_of_sel gs : forall l, length l = length gs ->
  (forall g, NoDup (sel g gs l)) -> (forall g g' n, In n (sel g gs l) -> In n (sel g' gs l) -> g = g') -> NoDup l.
Proof.
  induction gs as [|g gs IH]; intros [|n l] HL HN HD; try discriminate; constructor.
  - intros Hin. assert (exists g', In (g', n) (combine gs l)) as (g' & Hg').
    { cbn in HL. clear - Hin HL. apply In_nth with (d := 0) in Hin as (i & Hi & <-).
      exists (nth i gs 0). rewrite <- combine_nth by lia. apply nth_In. rewrite combine_length. lia. }
    assert (g = g').
    { apply HD with n; apply In_sel; cbn; auto. }
    subst. specialize (HN g'). rewrite sel_cons, Nat.eqb_refl in HN. inversion HN; subst.
    apply H1, In_sel; auto.
  - apply IH; auto.
    + intros g'. specialize (HN g'). rewrite sel_cons in HN. destruct (g =? g'); auto. inversion HN; auto.
    + intros g1 g2 m H1 H2. apply HD with m; rewrite sel_cons; destruct (_ =? _); cbn; auto.
Qed.

(** place *)
Lemma place_fold fl : forall ps l c, npos (map (fun e => snd (snd e)) fl) ps = Some l ->
  place fl ps c = fold_left (fun acc e => upd (fst (snd e)) (fst e, snd (snd e)) acc)
    (combine (map fst fl) (combine l (map (fun e => fst (snd e)) fl))) c.
Proof.
  induction fl as [|[k [b g]] fl IH]; intros ps l c H; cbn in *.
  - auto.
  - destruct (nth g ps []) as [|n rest]; [discriminate|].
    destruct (npos _ _) as [l'|] eqn:E; [|discriminate]. cbn in H. inversion H; subst. cbn.
    apply IH; auto.
Qed.

Lemma place_inv fl ps l : npos (map snd fl) ps = Some l -> length l = length fl ->
  BM (place (enumerate fl) ps (repeat (0, false) (length fl))) false =
  bm_inv (BM (combine l (map fst fl)) false).
Proof.
  intros H HL. unfold bm_inv. cbn [coords time_rev]. f_equal.
  rewrite (place_fold _ _ l).
  2:{ rewrite <- (map_map snd snd), enumerate_snd; auto. }
  rewrite enumerate_fst. rewrite <- (map_map snd fst), enumerate_snd.
  unfold bm_dim, enumerate; cbn [coords]. rewrite combine_length, map_length, HL, Nat.min_id. auto.
Qed.

(** groups *)
Definition gval (gs : list (Qc * list nat)) g : Qc := fst (nth g gs (0%Qc, [])).
Definition gks (gs : list (Qc * list nat)) g : list nat := snd (nth g gs (0%Qc, [])).
Definition positions (dst : list Qc) (y : Qc) : list nat :=
  filter (fun k => qc_eqb (nth k dst 0%Qc) y) (seq 0 (length dst)).

Definition groups_ok (gs : list (Qc * list nat)) (dst : list Qc) : Prop :=
  NoDup (map fst gs) /\
  (forall y ks, In (y, ks) gs -> ks = positions dst y) /\
  (forall x, In x dst <-> In x (map fst gs)).

Lemma positions_app dst x y :
  positions (dst ++ [x]) y = positions dst y ++ (if qc_eqb x y then [length dst] else []).
Proof.
  unfold positions. rewrite app_length; cbn [length]. rewrite Nat.add_1_r, seq_S, filter_app. f_equal.
  - apply filter_ext_in. intros k Hk. apply in_seq in Hk. rewrite app_nth1 by lia. auto.
  - cbn. rewrite app_nth2, Nat.sub_diag by lia. cbn. auto.
Qed.
Lemma positions_notin dst y : ~ In y dst -> positions dst y = [].
Proof.
  intros H. unfold positions.
  assert (HF : forall k, In k (seq 0 (length dst)) -> qc_eqb (nth k dst 0%Qc) y = false).
  { intros k Hk. apply in_seq in Hk. destruct (qc_eqb _ y) eqn:E; auto. apply qc_eqb_ok in E.
    exfalso; apply H. rewrite <- E. apply nth_In; lia. }
  induction (seq 0 (length dst)) as [|k l IH]; auto. cbn. rewrite HF by (cbn; auto). apply IH. intros; apply HF; cbn; auto.
Qed.

Lemma add_group_fst gs x k : map fst (add_group gs x k) = map fst gs ++ (if memb qc_eqb x (map fst gs) then [] else [x]).
Proof.
  induction gs as [|[y ks] gs IH]; cbn; auto.
  destruct (qc_eqb x y) eqn:E; cbn; [rewrite app_nil_r; auto|]. rewrite IH. auto.
Qed.
Lemma In_add_group gs x k y ks : NoDup (map fst gs) -> In (y, ks) (add_group gs x k) ->
  (y <> x /\ In (y, ks) gs) \/
  (y = x /\ ((exists ks', ks = ks' ++ [k] /\ In (y, ks') gs) \/ (ks = [k] /\ ~ In x (map fst gs)))).
Proof.
  induction gs as [|[z zs] gs IH]; cbn; intros HN.
  - intros [E|[]]; inversion E; subst. right; split; auto.
  - inversion HN; subst. destruct (qc_eqb x z) eqn:E.
    + apply qc_eqb_ok in E; subst. intros [E|Hin].
      * inversion E; subst. right; split; auto. left. eauto.
      * left. split; auto. intros ->. apply H1. apply (in_map fst) in Hin; auto.
    + assert (x <> z) by (intros ->; assert (qc_eqb z z = true) by (apply qc_eqb_ok; auto); congruence).
      intros [E1|Hin].
      * inversion E1; subst. left; split; auto.
      * apply IH in Hin; auto. destruct Hin as [[]|[-> [(ks' & -> & Hin)|[-> Hn]]]]; auto.
        -- right; split; auto. left; eauto.
        -- right; split; auto. right; split; auto. intros [->|]; auto.
Qed.

Lemma groups_ok_groups dst : groups_ok (groups dst) dst.
Proof.
  unfold groups. induction dst as [|x dst IH] using rev_ind.
  - cbn. repeat split; try constructor; cbn; tauto.
  - rewrite enumerate_app, fold_left_app. cbn [fold_left fst snd].
    set (gs := fold_left _ _ _) in *. destruct IH as (HN & HK & HI).
    split; [|split].
    + rewrite add_group_fst. destruct (memb qc_eqb x (map fst gs)) eqn:E; [rewrite app_nil_r; auto|].
      apply memb_false in E; [|apply qc_eqb_ok]. apply NoDup_app_intro; auto.
      * repeat constructor; auto.
      * intros z Hz [<-|[]]; auto.
    + intros y ks Hin. apply In_add_group in Hin; auto. rewrite positions_app.
      destruct Hin as [[Hne Hin]|[-> [(ks' & -> & Hin)|[-> Hn]]]].
      * destruct (qc_eqb x y) eqn:E; [apply qc_eqb_ok in E; congruence|]. rewrite app_nil_r; auto.
      * assert (qc_eqb x x = true) as -> by (apply qc_eqb_ok; auto). f_equal; auto.
      * assert (qc_eqb x x = true) as -> by (apply qc_eqb_ok; auto). rewrite positions_notin; auto.
        rewrite HI; auto.
    + intros z. rewrite add_group_fst, !in_app_iff, HI. cbn.
      destruct (memb qc_eqb x (map fst gs)) eqn:E; cbn; [|tauto].
      apply memb_In in E; [|apply qc_eqb_ok]. split; [intros [|[<-|[]]]; auto|tauto].
Qed.

Lemma group_id_spec gs x g : NoDup (map fst gs) -> group_id gs x = Some g <-> g < length gs /\ gval gs g = x.
Proof.
  unfold gval. revert g; induction gs as [|[y ks] gs IH]; intros g HN; cbn [group_id length].
  - split; [discriminate|lia].
  - cbn in HN; inversion HN; subst. destruct (qc_eqb x y) eqn:E.
    + apply qc_eqb_ok in E; subst. split.
      * intros E; inversion E; subst. split; [lia|auto].
      * intros [Hg Hv]. destruct g as [|g]; auto. cbn in Hv. exfalso. apply H1. rewrite <- Hv.
        apply in_map. apply nth_In. lia.
    + assert (x <> y) by (intros ->; assert (qc_eqb y y = true) by (apply qc_eqb_ok; auto); congruence).
      destruct (group_id gs x) as [g0|] eqn:E0.
      * cbn. split.
        -- intros Eg; inversion Eg; subst. specialize (proj1 (IH g0 H2) eq_refl) as [? ?]. split; [lia|auto].
        -- intros [Hg Hv]. destruct g as [|g]; [cbn in Hv; congruence|]. cbn in Hv.
           assert (Some g0 = Some g) as Eg by (apply IH; auto; split; [lia|auto]). inversion Eg; auto.
      * cbn. split; [discriminate|]. intros [Hg Hv]. destruct g as [|g]; [cbn in Hv; congruence|]. cbn in Hv.
        assert (None = Some g) as Eg by (apply IH; auto; split; [lia|auto]). discriminate.
Qed.

Lemma flip_variants_spec gs x b g : NoDup (map fst gs) ->
  In (b, g) (flip_variants gs x) <-> g < length gs /\ gval gs g = (if b : bool then 1 - x else x)%Qc.
Proof.
  intros HN. unfold flip_variants. rewrite in_app_iff. split.
  - intros [H|H].
    + destruct (group_id gs x) eqn:E; [|destruct H]. destruct H as [H|[]]. inversion H; subst.
      apply group_id_spec in E; auto.
    + destruct (group_id gs (1 - x)%Qc) eqn:E; [|destruct H]. destruct H as [H|[]]. inversion H; subst.
      apply group_id_spec in E; auto.
  - intros H. apply group_id_spec in H; auto. destruct b.
    + right. rewrite H. cbn; auto.
    + left. rewrite H. cbn; auto.
Qed.
Lemma NoDup_flip_variants gs x : NoDup (flip_variants gs x).
Proof.
  unfold flip_variants. destruct (group_id gs x), (group_id gs (1 - x)%Qc); cbn; repeat constructor; cbn; intuition congruence.
Qed.

(** counts *)
Lemma counts_ok_spec caps m : forall fl cnt, length cnt = m -> (forall e, In e fl -> snd e < m) ->
  counts_ok caps cnt fl = true <->
  (forall g, g < m -> count_occ Nat.eq_dec (map snd fl) g = 0 \/
      nth g cnt 0 + count_occ Nat.eq_dec (map snd fl) g <= nth g caps 0).
Proof.
  induction fl as [|[b g] fl IH]; intros cnt HL HB; cbn [counts_ok].
  - split; auto.
  - assert (Hg : g < m) by (apply (HB (b, g)); cbn; auto).
    destruct (Nat.ltb_spec (nth g caps 0) (S (nth g cnt 0))) as [Hlt|Hge].
    + split; [discriminate|]. intros H. destruct (H g Hg) as [H0|H0]; cbn in H0.
      * destruct (Nat.eq_dec g g); [discriminate|congruence].
      * destruct (Nat.eq_dec g g); [lia|congruence].
    + rewrite IH; [|rewrite length_upd; auto|intros; apply HB; cbn; auto].
      split; intros H g' Hg'; specialize (H g' Hg'); cbn [map snd count_occ] in *.
      * destruct (Nat.eq_dec g g') as [<-|Hne].
        -- right. rewrite nth_upd_eq in H by lia. lia.
        -- rewrite nth_upd_ne in H by auto. auto.
      * destruct (Nat.eq_dec g g') as [<-|Hne].
        -- right. rewrite nth_upd_eq by lia. lia.
        -- rewrite nth_upd_ne by auto. auto.
Qed.

Lemma count_le_perm : forall l1 l2 : list nat, length l1 = length l2 ->
  (forall g, count_occ Nat.eq_dec l1 g <= count_occ Nat.eq_dec l2 g) -> Permutation l1 l2.
Proof.
  induction l1 as [|x l1 IH]; intros l2 HL HC.
  - destruct l2; [constructor|discriminate].
  - assert (Hin : In x l2).
    { apply (count_occ_In Nat.eq_dec). specialize (HC x). cbn in HC. destruct (Nat.eq_dec x x); [lia|congruence]. }
    apply in_split in Hin as (a & b & ->). apply Permutation_cons_app. apply IH.
    + rewrite app_length in *; cbn in *; lia.
    + intros g. specialize (HC g). rewrite count_occ_app in *. cbn in HC. destruct (Nat.eq_dec x g); lia.
Qed.

(** group numbers of the coordinates of dst *)
Definition gid_or (gs : list (Qc * list nat)) (x : Qc) : nat := match group_id gs x with Some g => g | None => 0 end.

Section Gen.
  Variables (src dst : list Qc).
  Hypothesis Hlen : length src = length dst.
  Let d := length src.
  Let gs := groups dst.
  Let m := length gs.

  Lemma gs_N : NoDup (map fst gs). Proof. apply groups_ok_groups. Qed.
  Lemma gks_positions g : g < m -> gks gs g = positions dst (gval gs g).
  Proof.
    intros Hg. destruct (groups_ok_groups dst) as (_ & HK & _). apply HK. unfold gks, gval.
    rewrite <- surjective_pairing. apply nth_In; auto.
  Qed.
  Lemma In_gks g n : g < m -> In n (gks gs g) <-> n < d /\ nth n dst 0%Qc = gval gs g.
  Proof.
    intros Hg. rewrite gks_positions by auto. unfold positions. rewrite filter_In, in_seq, (qc_eqb_ok _ _).
    unfold d. rewrite Hlen. split; intros [? ?]; split; auto; lia.
  Qed.
  Lemma NoDup_gks g : g < m -> NoDup (gks gs g).
  Proof. intros. rewrite gks_positions by auto. apply NoDup_filter, seq_NoDup. Qed.
  Lemma gid_dst n : n < d -> group_id gs (nth n dst 0%Qc) = Some (gid_or gs (nth n dst 0%Qc)).
  Proof.
    intros Hn. unfold gid_or. destruct (group_id gs (nth n dst 0%Qc)) eqn:E; auto. exfalso.
    assert (Hin : In (nth n dst 0%Qc) (map fst gs)).
    { apply (groups_ok_groups dst). apply nth_In. unfold d in Hn; lia. }
    apply In_nth with (d := 0%Qc) in Hin as (g & Hg & Eg). rewrite map_length in Hg.
    assert (group_id gs (nth n dst 0%Qc) = Some g); [|congruence].
    apply group_id_spec; [apply gs_N|]. split; auto. unfold gval. rewrite <- Eg.
    change 0%Qc with (fst (0%Qc, @nil nat)) at 2. rewrite map_nth. auto.
  Qed.
  Lemma gid_val n : n < d -> gid_or gs (nth n dst 0%Qc) < m /\ gval gs (gid_or gs (nth n dst 0%Qc)) = nth n dst 0%Qc.
  Proof. intros Hn. apply group_id_spec; [apply gs_N|]. apply gid_dst; auto. Qed.
  Lemma gval_inj g g' : g < m -> g' < m -> gval gs g = gval gs g' -> g = g'.
  Proof.
    intros Hg Hg' E. assert (Some g = Some g') as E'; [|congruence].
    rewrite <- (proj2 (group_id_spec gs (gval gs g) g gs_N)) by auto.
    apply group_id_spec; auto. apply gs_N.
  Qed.

  Definition dgs := map (gid_or gs) dst.
  Lemma count_filter_nat (f : nat -> nat) L g : count_occ Nat.eq_dec (map f L) g = length (filter (fun k => f k =? g) L).
  Proof.
    induction L as [|k L IH]; cbn; auto. destruct (Nat.eq_dec (f k) g), (Nat.eqb_spec (f k) g); try congruence; cbn; auto.
  Qed.
  Lemma caps_count g : g < m -> length (gks gs g) = count_occ Nat.eq_dec dgs g.
  Proof.
    intros Hg. rewrite gks_positions by auto. unfold dgs, positions.
    replace (map (gid_or gs) dst) with (map (fun k => gid_or gs (nth k dst 0%Qc)) (seq 0 (length dst))).
    2:{ rewrite <- (map_map (fun k => nth k dst 0%Qc) (gid_or gs)), map_seq_nth. auto. }
    rewrite count_filter_nat. f_equal.
    apply filter_ext_in. intros k Hk. apply in_seq in Hk.
    destruct (gid_val k ltac:(unfold d; lia)) as [Hlt Hv].
    destruct (Nat.eqb_spec (gid_or gs (nth k dst 0%Qc)) g) as [<-|Hne].
    - apply qc_eqb_ok; auto.
    - destruct (qc_eqb _ _) eqn:E; auto. apply qc_eqb_ok in E. exfalso; apply Hne.
      apply gval_inj; auto; congruence.
  Qed.

  Let caps := map (fun g : Qc * list nat => length (snd g)) gs.
  Lemma nth_caps g : g < m -> nth g caps 0 = length (gks gs g).
  Proof. intros Hg. unfold caps. rewrite map_nth_lt with (d := (0%Qc, [])); auto. Qed.

  (** characterization of the enumerated choices *)
  Definition choice (fl : list (bool * nat)) (l : list nat) : Prop :=
    length fl = d /\ length l = d /\ Permutation l (seq 0 d) /\
    (forall k, k < d -> let e := nth k fl (false, 0) in
       snd e = gid_or gs (nth (nth k l 0) dst 0%Qc) /\
       nth (nth k l 0) dst 0%Qc = (if fst e then 1 - nth k src 0%Qc else nth k src 0%Qc)%Qc).

  Lemma fl_spec fl : In fl (lprod (map (flip_variants gs) src)) <->
    length fl = d /\ (forall k, k < d -> let e := nth k fl (false, 0) in
       snd e < m /\ gval gs (snd e) = (if fst e then 1 - nth k src 0%Qc else nth k src 0%Qc)%Qc).
  Proof.
    rewrite In_lprod, (Forall2_nth _ _ _ (false, 0) []), map_length. fold d. split.
    - intros [HL H]. split; auto. intros k Hk e. specialize (H k ltac:(lia)).
      rewrite map_nth_lt with (d := 0%Qc) in H by auto. fold e in H. destruct e as [b g].
      apply flip_variants_spec in H; auto. apply gs_N.
    - intros [HL H]. split; auto. intros k Hk. specialize (H k ltac:(lia)).
      rewrite map_nth_lt with (d := 0%Qc) by (fold d; lia). cbn zeta in H.
      destruct (nth k fl (false, 0)) as [b g]. apply flip_variants_spec; auto. apply gs_N.
  Qed.

  Lemma fl_bound fl e : In fl (lprod (map (flip_variants gs) src)) -> In e fl -> snd e < m.
  Proof.
    intros H He. apply fl_spec in H as [HL H]. apply In_nth with (d := (false, 0)) in He as (k & Hk & <-).
    apply H; lia.
  Qed.

  Lemma ps_spec ps : In ps (lprod (map (fun g => perms (snd g)) gs)) <->
    length ps = m /\ (forall g, g < m -> Permutation (gks gs g) (nth g ps [])).
  Proof.
    rewrite In_lprod, (Forall2_nth _ _ _ [] []), map_length. fold m. split.
    - intros [HL H]. split; auto. intros g Hg. specialize (H g ltac:(lia)).
      rewrite map_nth_lt with (d := (0%Qc, [])) in H by auto. apply In_perms in H; auto.
    - intros [HL H]. split; auto. intros g Hg. rewrite map_nth_lt with (d := (0%Qc, [])) by (fold m; lia).
      apply In_perms. apply H. lia.
  Qed.

  Lemma counts_exact fl : In fl (lprod (map (flip_variants gs) src)) ->
    counts_ok caps (repeat 0 m) fl = true ->
    forall g, g < m -> count_occ Nat.eq_dec (map snd fl) g = length (gks gs g).
  Proof.
    intros Hfl HC g Hg.
    assert (HP : Permutation (map snd fl) dgs).
    { apply count_le_perm.
      - unfold dgs. rewrite !map_length. apply fl_spec in Hfl as [? _]. unfold d in *; lia.
      - intros g'. destruct (lt_dec g' m) as [Hg'|Hg'].
        + rewrite (counts_ok_spec caps m) in HC; [|apply repeat_length|intros; eapply fl_bound; eauto].
          specialize (HC g' Hg'). rewrite nth_repeat in HC. rewrite nth_caps, caps_count in HC by auto. lia.
        + replace (count_occ Nat.eq_dec (map snd fl) g') with 0; [lia|]. symmetry. apply count_occ_not_In.
          intros Hin. apply in_map_iff in Hin as (e & <- & He). apply Hg'. eapply fl_bound; eauto. }
    rewrite caps_count by auto. apply Permutation_count_occ; auto.
  Qed.

  Lemma choice_of fl ps : In fl (lprod (map (flip_variants gs) src)) ->
    counts_ok caps (repeat 0 m) fl = true -> In ps (lprod (map (fun g => perms (snd g)) gs)) ->
    exists l, npos (map snd fl) ps = Some l /\ choice fl l /\ (forall g, g < m -> sel g (map snd fl) l = nth g ps []).
  Proof.
    intros Hfl HC Hps. pose proof (counts_exact fl Hfl HC) as Hcnt.
    apply ps_spec in Hps as [HPL HPs].
    destruct (npos_complete (map snd fl) ps) as (l & Hl & HL & Hs).
    { intros g Hg. apply in_map_iff in Hg as (e & <- & He). rewrite HPL. eapply fl_bound; eauto. }
    { intros g Hg. rewrite HPL in Hg. rewrite Hcnt by auto. symmetry. apply Permutation_length; auto. }
    exists l. rewrite HPL in Hs. split; auto. split; [|auto].
    pose proof Hfl as Hfl'. apply fl_spec in Hfl' as [HFL HF]. rewrite map_length in HL.
    assert (Hmem : forall k, k < d -> In (nth k l 0) (gks gs (snd (nth k fl (false, 0))))).
    { intros k Hk. destruct (HF k Hk) as [Hm _]. eapply Permutation_in; [apply Permutation_sym, HPs; auto|].
      rewrite <- Hs by auto. apply In_sel.
      replace (snd (nth k fl (false, 0))) with (nth k (map snd fl) 0) by apply nth_map_snd.
      rewrite <- combine_nth by (rewrite map_length; auto). apply nth_In. rewrite combine_length, map_length; lia. }
    assert (Hlt : forall g n, In n (sel g (map snd fl) l) -> g < m).
    { intros g n Hin. apply In_sel, in_combine_l in Hin. apply in_map_iff in Hin as (e & <- & He). eapply fl_bound; eauto. }
    split; [auto|]. split; [lia|]. split.
    - apply NoDup_lt_Permutation; [|lia|].
      + apply NoDup_of_sel with (map snd fl); [rewrite map_length; auto| |].
        * intros g. destruct (lt_dec g m) as [Hg|Hg].
          -- rewrite Hs by auto. eapply Permutation_NoDup; [apply HPs; auto|apply NoDup_gks; auto].
          -- destruct (sel g (map snd fl) l) eqn:E; [constructor|]. exfalso. apply Hg. eapply Hlt. rewrite E; cbn; eauto.
        * intros g g' n Hn Hn'. pose proof (Hlt _ _ Hn) as Hg. pose proof (Hlt _ _ Hn') as Hg'.
          rewrite Hs in Hn, Hn' by auto.
          apply Permutation_in with (l' := gks gs g) in Hn; [|apply Permutation_sym; auto].
          apply Permutation_in with (l' := gks gs g') in Hn'; [|apply Permutation_sym; auto].
          apply In_gks in Hn; auto. apply In_gks in Hn'; auto. apply gval_inj; auto. destruct Hn, Hn'; congruence.
      + intros n Hn. apply In_nth with (d := 0) in Hn as (k & Hk & <-).
        specialize (Hmem k ltac:(lia)). apply In_gks in Hmem; [tauto|]. apply (HF k); lia.
    - intros k Hk e. destruct (HF k Hk) as [Hm Hv]. fold e in Hm, Hv. specialize (Hmem k Hk). fold e in Hmem.
      apply In_gks in Hmem as [Hn Hd]; auto. destruct (gid_val _ Hn) as [G1 G2]. split.
      + apply gval_inj; auto. congruence.
      + congruence.
  Qed.

  Lemma choice_conv fl l : choice fl l ->
    In fl (lprod (map (flip_variants gs) src)) /\ counts_ok caps (repeat 0 m) fl = true /\
    (let ps := map (fun g => sel g (map snd fl) l) (seq 0 m) in
     In ps (lprod (map (fun g => perms (snd g)) gs)) /\ npos (map snd fl) ps = Some l).
  Proof.
    intros (HFL & HL & HP & HF).
    assert (Hn : forall k, k < d -> nth k l 0 < d).
    { intros k Hk. eapply Permutation_seq_lt; eauto. apply nth_In; lia. }
    assert (Hfl : In fl (lprod (map (flip_variants gs) src))).
    { apply fl_spec. split; auto. intros k Hk e. destruct (HF k Hk) as [H1 H2]. fold e in H1, H2.
      destruct (gid_val _ (Hn k Hk)) as [G1 G2]. rewrite H1. split; auto. congruence. }
    assert (Hperm : forall g, g < m -> Permutation (gks gs g) (sel g (map snd fl) l)).
    { intros g Hg. apply NoDup_Permutation; [apply NoDup_gks; auto|apply NoDup_sel; eapply Permutation_seq_NoDup; eauto|].
      intros n. rewrite In_gks by auto. rewrite In_sel. split.
      - intros [Hnd Hv]. assert (Hin : In n l) by (eapply Permutation_in; [apply Permutation_sym; eauto|apply in_seq; lia]).
        apply In_nth with (d := 0) in Hin as (k & Hk & <-). destruct (HF k ltac:(lia)) as [H1 _].
        assert (E : g = nth k (map snd fl) 0).
        { rewrite nth_map_snd, H1. destruct (gid_val _ Hnd). apply gval_inj; auto. congruence. }
        rewrite E. rewrite <- combine_nth by (rewrite map_length; lia). apply nth_In. rewrite combine_length, map_length; lia.
      - intros Hin. apply In_nth with (d := (0, 0)) in Hin as (k & Hk & E).
        rewrite combine_length, map_length in Hk. rewrite combine_nth in E by (rewrite map_length; lia).
        injection E as E1 E2. rewrite nth_map_snd in E1. subst g n.
        destruct (HF k ltac:(lia)) as [H1 _]. cbn zeta in H1. rewrite H1.
        destruct (gid_val _ (Hn k ltac:(lia))). split; [apply Hn; lia|congruence]. }
    split; auto. split; [|split].
    - apply (counts_ok_spec caps m); [apply repeat_length|intros; eapply fl_bound; eauto|].
      intros g Hg. right. rewrite nth_repeat, nth_caps by auto. rewrite (Permutation_length (Hperm g Hg)).
      rewrite length_sel by (rewrite map_length; lia). lia.
    - apply ps_spec. rewrite map_length, seq_length. split; auto. intros g Hg.
      rewrite map_nth_lt with (d := 0) by (rewrite seq_length; auto). rewrite seq_nth by auto. apply Hperm; auto.
    - apply npos_unique.
      + intros g Hg. rewrite map_length, seq_length. apply in_map_iff in Hg as (e & <- & He). eapply fl_bound; eauto.
      + rewrite map_length; lia.
      + intros g Hg. rewrite map_length, seq_length in Hg.
        rewrite map_nth_lt with (d := 0) by (rewrite seq_length; auto). rewrite seq_nth by auto. auto.
  Qed.

  Definition cmap_of (fl : list (bool * nat)) (l : list nat) : base_map := BM (combine l (map fst fl)) false.

  Lemma In_gen_choice b : In b (gen_constraint_fast src dst) <->
    exists fl l, choice fl l /\ b = bm_inv (cmap_of fl l).
  Proof.
    unfold gen_constraint_fast. rewrite in_flat_map. fold gs m caps d. split.
    - intros (fl & Hfl & H). destruct (counts_ok caps (repeat 0 m) fl) eqn:HC; [|destruct H].
      apply in_map_iff in H as (ps & <- & Hps). destruct (choice_of fl ps Hfl HC Hps) as (l & Hl & Hch & _).
      exists fl, l. split; auto. destruct Hch as (H1 & H2 & _). rewrite <- H1. apply place_inv; auto. lia.
    - intros (fl & l & Hch & ->). destruct (choice_conv fl l Hch) as (Hfl & HC & Hps & Hn).
      exists fl. split; auto. rewrite HC. apply in_map_iff. eexists; split; [|eauto].
      destruct Hch as (H1 & H2 & _). rewrite <- H1. apply place_inv; auto. lia.
  Qed.

  Lemma choice_wf fl l : choice fl l -> wf_bm d (cmap_of fl l) /\ apply_x (cmap_of fl l) 1 dst = src.
  Proof.
    intros (HFL & HL & HP & HF). split.
    - unfold wf_bm, cmap_of; cbn. rewrite combine_map_l by (rewrite map_length; lia). auto.
    - unfold apply_x. assert (HLc : length (coords (cmap_of fl l)) = d).
      { cbn. rewrite combine_length, map_length. lia. }
      apply nth_ext_lt with 0%Qc; rewrite length_act, HLc; auto.
      intros k Hk. rewrite nth_act by lia. cbn [cmap_of coords].
      rewrite combine_nth by (rewrite map_length; lia). cbn [fst snd].
      destruct (HF k Hk) as [_ H]. rewrite nth_map_fst. rewrite H.
      destruct (fst (nth k fl (false, 0))); auto. ring.
  Qed.

  Lemma wf_choice c : wf_bm d c -> time_rev c = false -> apply_x c 1 dst = src ->
    exists fl l, choice fl l /\ c = cmap_of fl l.
  Proof.
    intros Hw Ht Hx. pose proof (wf_length _ _ Hw) as HL.
    exists (map (fun kb => (snd kb, gid_or gs (nth (fst kb) dst 0%Qc))) (coords c)), (map fst (coords c)).
    split.
    - split; [rewrite map_length; auto|]. split; [rewrite map_length; auto|]. split; [auto|].
      intros k Hk. rewrite map_nth_lt with (d := (0, false)) by lia. cbn [fst snd].
      rewrite map_nth_lt with (d := (0, false)) by lia. split; auto.
      rewrite <- Hx. unfold apply_x. rewrite nth_act by lia.
      destruct (snd (nth k (coords c) (0, false))); auto. ring.
    - unfold cmap_of. destruct c as [cs t]; cbn in *. subst t. f_equal. rewrite map_map. cbn.
      symmetry. apply combine_fst_snd.
  Qed.

  Lemma invol_1 : invol (fun v : Qc => (1 - v)%Qc). Proof. intros x. ring. Qed.

  Lemma In_gen_constraint b : In b (gen_constraint_fast src dst) <->
    wf_bm d b /\ time_rev b = false /\ apply_x b 1 src = dst.
  Proof.
    rewrite In_gen_choice. split.
    - intros (fl & l & Hch & ->). destruct (choice_wf fl l Hch) as [Hw Hx].
      split; [apply wf_inv; auto|]. split; auto. rewrite <- Hx.
      apply (act_inv_l _ _ d); auto using invol_1.
    - intros (Hw & Ht & Hx). destruct (wf_choice (bm_inv b)) as (fl & l & Hch & E).
      + apply wf_inv; auto.
      + auto.
      + rewrite <- Hx. apply (act_inv_l _ _ d); auto using invol_1.
      + exists fl, l. split; auto. rewrite <- E. symmetry. apply (inv_inv d); auto.
  Qed.

  Lemma choice_inj fl l fl' l' : choice fl l -> choice fl' l' -> bm_inv (cmap_of fl l) = bm_inv (cmap_of fl' l') ->
    fl = fl' /\ l = l'.
  Proof.
    intros H H' E. pose proof (choice_wf _ _ H) as [W _]. pose proof (choice_wf _ _ H') as [W' _].
    apply (f_equal bm_inv) in E. rewrite !(inv_inv d) in E by auto.
    destruct H as (HFL & HL & HP & HF), H' as (HFL' & HL' & HP' & HF').
    inversion E as [E1].
    assert (El : l = l').
    { rewrite <- (combine_map_l l (map fst fl)), <- (combine_map_l l' (map fst fl')) by (rewrite map_length; lia). congruence. }
    assert (Ef : map fst fl = map fst fl').
    { rewrite <- (combine_map_r l (map fst fl)), <- (combine_map_r l' (map fst fl')) by (rewrite map_length; lia). congruence. }
    subst l'. split; auto.
    apply nth_ext_lt with (false, 0); [lia|]. intros k Hk.
    destruct (HF k ltac:(lia)) as [H1 _]. destruct (HF' k ltac:(lia)) as [H1' _].
    rewrite (surjective_pairing (nth k fl _)), (surjective_pairing (nth k fl' _)). f_equal; [|congruence].
    rewrite <- !nth_map_fst. congruence.
  Qed.

  Lemma NoDup_gen_constraint : NoDup (gen_constraint_fast src dst).
  Proof.
    unfold gen_constraint_fast. fold gs m caps d. apply NoDup_flat_map.
    - apply NoDup_lprod. apply Forall_map, Forall_forall. intros; apply NoDup_flip_variants.
    - intros fl Hfl. destruct (counts_ok caps (repeat 0 m) fl) eqn:HC; [|constructor].
      apply NoDup_map_inj.
      + intros ps ps' Hps Hps' E.
        destruct (choice_of fl ps Hfl HC Hps) as (l & Hl & Hch & Hs).
        destruct (choice_of fl ps' Hfl HC Hps') as (l' & Hl' & Hch' & Hs').
        assert (HFL : length fl = d) by apply Hch.
        rewrite <- HFL in E. rewrite (place_inv fl ps l), (place_inv fl ps' l') in E; auto;
          try (destruct Hch as (? & ? & _), Hch' as (? & ? & _); lia).
        apply choice_inj in E; auto. destruct E as [_ E]. subst l'.
        apply ps_spec in Hps as [HPL _]. apply ps_spec in Hps' as [HPL' _].
        apply nth_ext_lt with []; [lia|]. intros g Hg. rewrite <- Hs, <- Hs' by lia. auto.
      + apply NoDup_lprod. apply Forall_map, Forall_forall. intros [y ks] Hin. apply NoDup_perms. cbn.
        apply In_nth with (d := (0%Qc, [])) in Hin as (g & Hg & E).
        replace ks with (gks gs g) by (unfold gks; rewrite E; auto). apply NoDup_gks; auto.
    - intros fl fl' z Hfl Hfl' Hz Hz'.
      destruct (counts_ok caps (repeat 0 m) fl) eqn:HC; [|destruct Hz].
      destruct (counts_ok caps (repeat 0 m) fl') eqn:HC'; [|destruct Hz'].
      apply in_map_iff in Hz as (ps & E & Hps). apply in_map_iff in Hz' as (ps' & E' & Hps').
      destruct (choice_of fl ps Hfl HC Hps) as (l & Hl & Hch & Hs).
      destruct (choice_of fl' ps' Hfl' HC' Hps') as (l' & Hl' & Hch' & Hs').
      assert (HFL : length fl = d) by apply Hch. assert (HFL' : length fl' = d) by apply Hch'.
      rewrite <- HFL in E. rewrite <- HFL' in E'. rewrite (place_inv fl ps l) in E; auto;
          try (destruct Hch as (? & ? & _), Hch' as (? & ? & _); lia).
      rewrite (place_inv fl' ps' l') in E'; auto; try (destruct Hch as (? & ? & _), Hch' as (? & ? & _); lia).
      subst z. apply choice_inj in E'; auto. destruct E'; auto.
  Qed.
End Gen.
