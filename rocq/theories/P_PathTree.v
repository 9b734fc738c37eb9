(** Proofs about the search tree of paths: growing a path, breadth-first and depth-first search. *)
From Verif Require Import Py L_Py L_BaseMaps M_BaseMaps M_Subsets M_PathTree S_Subsets S_PathTree P_Facets.
From Coq Require Import Permutation.
Local Open Scope nat_scope.

Lemma inset_In c s : inset c s = true <-> In c s.
Proof. apply memb_In, z_list_eqb_ok. Qed.
Lemma inset_false c s : inset c s = false <-> ~ In c s.
Proof. apply memb_false, z_list_eqb_ok. Qed.
Lemma zadd_inj c a b : length a = length c -> length b = length c -> zadd c a = zadd c b -> a = b.
Proof.
  revert a b; induction c as [|x c IH]; intros [|y a] [|z b]; cbn; try discriminate; auto.
  intros [= LA] [= LB] [= E1 E2]. f_equal; [lia|]. apply IH; auto.
Qed.
Lemma grid_outside d N c : grid_cube d N c <-> length c = d /\ outside N c = false.
Proof.
  unfold grid_cube, outside. split; intros (HL & H); split; auto.
  - rewrite Forall_forall in H. apply not_true_iff_false. rewrite existsb_exists. intros (z & Hz & E).
    specialize (H z Hz). apply orb_true_iff in E. destruct E as [E|E]; [apply Z.ltb_lt in E|apply Z.leb_le in E]; lia.
  - rewrite Forall_forall. intros z Hz. apply not_true_iff_false in H. rewrite existsb_exists in H.
    split.
    + destruct (Z.ltb_spec z 0); [|lia]. exfalso. apply H. exists z. split; auto. apply orb_true_iff; left. apply Z.ltb_lt; auto.
    + destruct (Z.leb_spec (Z.of_nat N) z); [|lia]. exfalso. apply H. exists z. split; auto. apply orb_true_iff; right. apply Z.leb_le; auto.
Qed.
Lemma zadd_length c a : length a = length c -> length (zadd c a) = length c.
Proof. intros. unfold zadd. rewrite map_length, combine_length. lia. Qed.

Section Grow.
Context {S : Type} (d N : nat) (good : S -> Prop).
Context (f : list Z -> S -> option (list (list Z * S))) (HF : step_ok d N good f).
Context (start : list (list Z * S)).

(** A path grown from [start] by [f], head first. *)
Definition grown (p : cpath S) : Prop :=
  (exists x, hd_error (rev p) = Some x /\ In x start) /\ steps (fun a b => offers f b a) p /\
  NoDup (map fst p) /\ Forall (fun x => grid_cube d N (fst x) /\ good (snd x)) p.

Lemma hd_rev_cons (x y : list Z * S) p : hd_error (rev (x :: y :: p)) = hd_error (rev (y :: p)).
Proof.
  cbn. destruct (rev p) eqn:E; cbn; auto.
Qed.
Lemma grown_cons x p : p <> [] ->
  (grown (x :: p) <-> grown p /\ (exists h, hd_error p = Some h /\ offers f h x) /\ grid_cube d N (fst x) /\ good (snd x) /\ ~ In (fst x) (map fst p)).
Proof.
  destruct p as [|h p]; [congruence|]. intros _. unfold grown. rewrite hd_rev_cons. split.
  - intros (H1 & (H2 & H3) & H4 & H5). inversion H4; subst. inversion H5 as [|? ? HG1 HG2]; subst. destruct HG1.
    split; [split; [|split; [|split]]; auto|]. split; [exists h; auto|]. auto.
  - intros ((H1 & H2 & H3 & H4) & (h' & E & HO) & G1 & G2 & G3). injection E as <-. split; [|split; [|split]]; auto.
    + split; auto.
    + constructor; auto.
Qed.

Lemma continue_spec p cs : grown p -> (forall c, In c cs <-> In c (support p)) ->
  exists l, continue_path N f p cs = Some l /\ NoDup l /\ (forall q, In q l <-> exists x, q = x :: p /\ grown q).
Proof.
  intros HG HC. destruct p as [|h p]; [destruct HG as ((x & E & _) & _); discriminate|].
  assert (HH : grid_cube d N (fst h) /\ good (snd h)) by (destruct HG as (_ & _ & _ & G); inversion G; auto).
  destruct HH as (HH1 & HH2). destruct (HF _ _ HH1 HH2) as (l & E & HN & HL). rewrite Forall_forall in HL.
  unfold continue_path. rewrite E. cbn [option_map]. eexists; split; [reflexivity|]. split.
  - apply NoDup_flat_map; auto.
    + intros [dl s] _. cbn. destruct (outside N (zadd (fst h) dl) || inset (zadd (fst h) dl) cs); constructor; [intros []|constructor].
    + intros [dl s] [dl' s'] z H1 H2. cbn. apply HL in H1, H2. cbn in H1, H2.
      destruct (outside N (zadd (fst h) dl) || _); [intros []|]. destruct (outside N (zadd (fst h) dl') || _); [intros _ []|].
      intros [<-|[]] [E2|[]]. injection E2 as E3 E4. f_equal; auto. symmetry. destruct HH1. eapply zadd_inj; [| |exact E3]; lia.
  - intros q. rewrite in_flat_map. split.
    + intros ([dl s] & H1 & H2). cbn in H2. pose proof (HL _ H1) as (HL1 & HL2). cbn in HL1, HL2.
      destruct (outside N (zadd (fst h) dl)) eqn:EO; [destruct H2|]. destruct (inset (zadd (fst h) dl) cs) eqn:EI; cbn in H2; [destruct H2|].
      destruct H2 as [<-|[]]. eexists; split; [reflexivity|]. apply grown_cons; [congruence|].
      split; auto. split; [|split; [|split]].
      * exists h. split; auto. exists l, dl. cbn. split; [|split; [|split]]; auto. destruct HH1; lia.
      * apply grid_outside. split; auto. cbn [fst]. rewrite zadd_length; destruct HH1; lia.
      * auto.
      * cbn [fst]. intros H. apply inset_false in EI. apply EI, HC. exact H.
    + intros (x & -> & HX). apply grown_cons in HX; [|congruence]. destruct HX as (_ & (h' & E' & HO) & G1 & G2 & G3).
      injection E' as <-. destruct HO as (l' & dl & EE & HI & HLd & EQ). rewrite E in EE; injection EE as <-.
      exists (dl, snd x). split; auto. cbn. change (map _ (combine (fst h) dl)) with (zadd (fst h) dl) in EQ. rewrite <- EQ.
      apply grid_outside in G1. destruct G1 as (_ & ->). cbn.
      assert (inset (fst x) cs = false) as ->. { apply inset_false. intros H. apply G3, HC, H. }
      left. destruct x; auto.
Qed.
Definition cont (p : cpath S) : list (cpath S) := match continue_path N f p (support p) with Some l => l | None => [] end.
Lemma cont_spec p : grown p -> continue_path N f p (support p) = Some (cont p) /\ NoDup (cont p) /\
  (forall q, In q (cont p) <-> exists x, q = x :: p /\ grown q).
Proof.
  intros H. destruct (continue_spec p (support p) H) as (l & E & H1 & H2); [tauto|]. unfold cont. rewrite E. auto.
Qed.
Lemma continue_cs p cs : (forall c, In c cs <-> In c (support p)) -> continue_path N f p cs = continue_path N f p (support p).
Proof.
  intros H. unfold continue_path. destruct p as [|h p]; auto. destruct (f (fst h) (snd h)) as [l|]; auto. cbn [option_map]. f_equal.
  assert (HI : forall c, inset c cs = inset c (support (h :: p))).
  { intros c. destruct (inset c (support (h :: p))) eqn:E. apply inset_In, H, inset_In, E. apply inset_false. intros HH. apply inset_false in E. apply E, H, HH. }
  apply flat_map_ext. intros x. rewrite HI. auto.
Qed.

Lemma width_step_spec mc curr new : Forall grown curr ->
  width_step N f mc curr new = Some (inl tt) \/ width_step N f mc curr new = Some (inr (new ++ flat_map cont curr)).
Proof.
  intros H. revert new; induction H as [|p curr HP HC IH]; intros new; cbn [width_step].
  - right. cbn. rewrite app_nil_r. auto.
  - destruct (cont_spec p HP) as (E & _). rewrite E. cbv zeta. destruct (over mc _); auto.
    cbn [flat_map]. rewrite app_assoc. apply IH.
Qed.
(** [l] lists all grown paths of length [n], each once. *)
Definition lists_all (n : nat) (l : list (cpath S)) : Prop := NoDup l /\ forall p, In p l <-> grown p /\ length p = n.
Lemma grown_tail x y p : grown (x :: y :: p) -> grown (y :: p).
Proof. intros H. apply grown_cons in H; [tauto|congruence]. Qed.
Lemma lists_next n l : 1 <= n -> lists_all n l -> lists_all (Datatypes.S n) (flat_map cont l).
Proof.
  intros Hn (HN & HL). split.
  - apply NoDup_flat_map; auto.
    + intros p Hp. apply HL in Hp. apply cont_spec. tauto.
    + intros p q z Hp Hq H1 H2. apply HL in Hp, Hq.
      apply (cont_spec p) in H1; [|tauto]. apply (cont_spec q) in H2; [|tauto].
      destruct H1 as (x & -> & _), H2 as (y & E & _). congruence.
  - intros q. rewrite in_flat_map. split.
    + intros (p & Hp & Hq). apply HL in Hp. destruct Hp as (Hp & HLp). apply (cont_spec p Hp) in Hq. destruct Hq as (x & -> & HG).
      split; auto. cbn. lia.
    + intros (HG & HLq). destruct q as [|x [|y p]]; cbn in HLq; try lia.
      exists (y :: p). split. { apply HL. split; [eapply grown_tail; eauto|cbn; lia]. }
      apply cont_spec; [eapply grown_tail; eauto|eauto].
Qed.
Lemma width_spec mc k : forall n l, 1 <= n -> lists_all n l ->
  exists m r, width_search N f k mc l = Some r /\ n <= m <= n + k /\ lists_all m r.
Proof.
  induction k as [|k IH]; intros n l Hn HL; cbn [width_search].
  - exists n, l. split; auto. split; auto; lia.
  - assert (HG : Forall grown l) by (rewrite Forall_forall; intros p Hp; apply HL in Hp; tauto).
    destruct (width_step_spec mc l [] HG) as [-> | ->].
    + exists n, l. split; auto. split; auto; lia.
    + cbn [app]. destruct (IH (Datatypes.S n) (flat_map cont l)) as (m & r & E & H1 & H2); [lia|apply lists_next; auto|].
      exists m, r. split; auto. split; auto. lia.
Qed.
Lemma lists_init : NoDup start -> Forall (fun x => grid_cube d N (fst x) /\ good (snd x)) start -> lists_all 1 (map (fun x => [x]) start).
Proof.
  intros HN HG. split.
  - apply NoDup_map_inj; auto. intros x y _ _ E. congruence.
  - intros p. rewrite in_map_iff. split.
    + intros (x & <- & Hx). split; auto. split; [exists x; auto|]. split; [exact I|]. split.
      * constructor; [intros []|constructor].
      * rewrite Forall_forall in HG. constructor; auto.
    + intros ((( x & E & Hx) & _) & HL). destruct p as [|y [|]]; try discriminate. cbn in E. injection E as <-. eauto.
Qed.

(** depth-first search *)
Fixpoint exts (k : nat) (p : cpath S) : list (cpath S) :=
  match k with 0 => [p] | Datatypes.S k' => flat_map (exts k') (cont p) end.
Lemma grown_app r p : p <> [] -> grown (r ++ p) -> grown p.
Proof.
  intros HP. induction r as [|x r IH]; auto. intros H. cbn in H. apply grown_cons in H; [|destruct r; cbn; auto; congruence].
  apply IH. tauto.
Qed.
Lemma grown_ne p : grown p -> p <> [].
Proof. intros ((x & E & _) & _) ->. discriminate. Qed.
Lemma exts_spec k : forall p, grown p -> NoDup (exts k p) /\ (forall q, In q (exts k p) <-> exists r, q = r ++ p /\ length r = k /\ grown q).
Proof.
  induction k as [|k IH]; intros p HP; cbn [exts].
  - split; [constructor; [intros []|constructor]|]. intros q. split.
    + intros [<-|[]]. exists []. auto.
    + intros ([|x r] & -> & E & _); [left; auto|discriminate].
  - destruct (cont_spec p HP) as (_ & HN & HC). split.
    + apply NoDup_flat_map; auto.
      * intros x Hx. apply HC in Hx. destruct Hx as (y & -> & HG). apply IH; auto.
      * intros x y z Hx Hy H1 H2. apply HC in Hx, Hy. destruct Hx as (x0 & -> & HG1), Hy as (y0 & -> & HG2).
        apply IH in H1; auto. apply IH in H2; auto. destruct H1 as (r1 & -> & L1 & _), H2 as (r2 & E & L2 & _).
        change (x0 :: p) with ([x0] ++ p) in E. change (y0 :: p) with ([y0] ++ p) in E. rewrite !app_assoc in E.
        apply app_inv_tail in E. apply app_inj_tail in E. destruct E; subst; auto.
    + intros q. rewrite in_flat_map. split.
      * intros (x & Hx & Hq). apply HC in Hx. destruct Hx as (y & -> & HG). apply IH in Hq; auto. destruct Hq as (r & -> & HL & HG').
        exists (r ++ [y]). rewrite <- app_assoc. split; auto. split; auto. rewrite app_length. cbn. lia.
      * intros (r & -> & HL & HG). destruct r as [|y r _] using rev_ind; [discriminate|]. rewrite app_length in HL. cbn in HL.
        rewrite <- app_assoc in *. cbn in *. exists (y :: p).
        assert (HY : grown (y :: p)). { eapply grown_app; [|exact HG]. congruence. }
        split; [apply HC; eauto|]. apply IH; auto. exists r. split; auto. split; auto. lia.
Qed.
Lemma depth_one k : forall p cs todo F r', grown p -> (forall c, In c cs <-> In c (support p)) ->
  (forall fuel, F <= fuel -> depth_loop N f fuel (length p + Datatypes.S k) todo = Some r') ->
  exists F2 r, (forall fuel, F2 <= fuel -> depth_loop N f fuel (length p + Datatypes.S k) ((p, cs) :: todo) = Some r) /\
               Permutation r (exts (Datatypes.S k) p ++ r').
Proof.
  induction k as [|k IH]; intros p cs todo F r' HP HC HT.
  - destruct (cont_spec p HP) as (E & _). exists (Datatypes.S F), (cont p ++ r'). split.
    + intros [|fuel] HFu; [lia|]. cbn [depth_loop]. rewrite Nat.eqb_refl. rewrite (continue_cs p cs HC), E, HT by lia. auto.
    + cbn [exts]. apply Permutation_app_tail. replace (flat_map (fun p0 => [p0]) (cont p)) with (cont p); auto.
      clear. induction (cont p); cbn; congruence.
  - destruct (cont_spec p HP) as (E & _ & HCo).
    set (L := length p + Datatypes.S (Datatypes.S k)) in *.
    assert (HI : forall l, (forall q, In q l -> In q (cont p)) ->
      exists F2 r, (forall fuel, F2 <= fuel -> depth_loop N f fuel L (map (fun q => (q, match q with h :: _ => fst h :: cs | [] => cs end)) l ++ todo) = Some r) /\
                   Permutation r (flat_map (exts (Datatypes.S k)) l ++ r')).
    { induction l as [|q l IHl]; intros Hl.
      - exists F, r'. split; auto.
      - destruct IHl as (F1 & r1 & H1 & P1); [intros; apply Hl; cbn; auto|].
        assert (Hq : In q (cont p)) by (apply Hl; cbn; auto). apply HCo in Hq. destruct Hq as (x & -> & HG).
        assert (EL : L = length (x :: p) + Datatypes.S k) by (unfold L; cbn; lia). rewrite EL in *.
        destruct (IH (x :: p) (fst x :: cs) (map (fun q => (q, match q with h :: _ => fst h :: cs | [] => cs end)) l ++ todo) F1 r1) as (F2 & r2 & H2 & P2); auto.
        { intros c. cbn. rewrite HC. tauto. }
        exists F2, r2. split; [exact H2|]. cbn [flat_map]. rewrite P2, P1. rewrite app_assoc. auto. }
    destruct (HI (rev (cont p))) as (F2 & r & H2 & P2); [intros q; rewrite <- in_rev; auto|].
    exists (Datatypes.S F2), r. split.
    + intros [|fuel] HFu; [lia|]. cbn [depth_loop]. destruct (Nat.eqb_spec (length p + 1) L); [unfold L in *; lia|].
      destruct (Nat.ltb_spec (length p + 1) L); [|unfold L in *; lia]. rewrite (continue_cs p cs HC), E. rewrite <- map_rev. apply H2. lia.
    + rewrite P2. apply Permutation_app_tail. cbn [exts]. apply Permutation_flat_map. symmetry. apply Permutation_rev.
Qed.
Lemma depth_spec p k : grown p -> exists F r, (forall fuel, F <= fuel -> depth_search N f fuel [p] (length p + Datatypes.S k) = Some r) /\
   NoDup r /\ (forall q, In q r <-> exists t, q = t ++ p /\ length t = Datatypes.S k /\ grown q).
Proof.
  intros HP. destruct (depth_one k p (support p) [] 0 [] HP) as (F & r & H & HPm); [tauto| |].
  { intros [|fuel] _; auto. }
  exists F, r. split; [exact H|]. rewrite app_nil_r in HPm. destruct (exts_spec (Datatypes.S k) p HP) as (HN & HI). split.
  - eapply Permutation_NoDup; [symmetry; exact HPm|auto].
  - intros q. rewrite <- HI. split; apply Permutation_in; auto. symmetry; auto.
Qed.
End Grow.

(** grouping *)
Lemma dset_concat {A K} (keqb : K -> K -> bool) (dd : list (K * list A)) k a :
  Permutation (concat (map snd (dset keqb dd k ((match dget keqb dd k with Some l => l | None => [] end) ++ [a])))) (concat (map snd dd) ++ [a]).
Proof.
  induction dd as [|[k' v] dd IH]; cbn; auto.
  destruct (keqb k k'); cbn.
  - rewrite <- !app_assoc. apply Permutation_app_head. apply Permutation_app_comm.
  - rewrite IH. rewrite app_assoc. auto.
Qed.
Lemma group_by_perm {A K} (keqb : K -> K -> bool) (kl : list (K * A)) : Permutation (concat (map snd (group_by keqb kl))) (map snd kl).
Proof.
  unfold group_by. induction kl as [|[k a] kl IH] using rev_ind; auto.
  rewrite fold_left_app. cbn [fold_left fst snd]. rewrite dset_concat, IH, map_app. auto.
Qed.
Lemma group_by_hom {A K} (keqb : K -> K -> bool) (kl : list (K * A)) (HR : forall k, keqb k k = true) :
  Forall (fun kg => snd kg <> [] /\ Forall (fun a => exists k, In (k, a) kl /\ keqb k (fst kg) = true) (snd kg)) (group_by keqb kl).
Proof.
  unfold group_by. induction kl as [|[k a] kl IH] using rev_ind; [constructor|].
  rewrite fold_left_app. cbn [fold_left fst snd]. revert IH. generalize (fold_left (fun dd ka => dset keqb dd (fst ka) (match dget keqb dd (fst ka) with Some l => l | None => [] end ++ [snd ka])) kl []).
  intros dd HD.
  assert (HM : forall v k', Forall (fun a => exists k, In (k, a) kl /\ keqb k k' = true) v -> Forall (fun a0 => exists k0, In (k0, a0) (kl ++ [(k, a)]) /\ keqb k0 k' = true) v).
  { intros v k'. apply Forall_impl. intros b (k0 & H & E). exists k0. rewrite in_app_iff. auto. }
  induction HD as [|[k' v] dd (HV & HV2) HD IH]; cbn.
  - constructor; [|constructor]. cbn. split; [congruence|]. constructor; [|constructor]. exists k. rewrite in_app_iff; cbn; auto.
  - destruct (keqb k k') eqn:E; cbn.
    + constructor.
      * cbn. split; [destruct v; cbn; congruence|]. apply Forall_app. split; [apply HM; auto|]. constructor; [|constructor]. exists k. rewrite in_app_iff; cbn; auto.
      * eapply Forall_impl; [|exact HD]. intros [k2 v2] (H1 & H2). split; auto.
    + constructor; auto.
Qed.
Lemma group_by_get {A K} (keqb : K -> K -> bool) (HE : eqb_ok keqb) (kl : list (K * A)) k :
  match dget keqb (group_by keqb kl) k with Some l => l | None => [] end = map snd (filter (fun ka => keqb k (fst ka)) kl).
Proof.
  unfold group_by. induction kl as [|[k' a] kl IH] using rev_ind; auto.
  rewrite fold_left_app. cbn [fold_left fst snd]. rewrite (dget_dset keqb HE), filter_app, map_app. cbn.
  destruct (keqb k k') eqn:E.
  - apply HE in E; subst k'. rewrite IH. auto.
  - cbn. rewrite app_nil_r. exact IH.
Qed.
