(** Proofs about combinations: gen_faces, get_lcm, combinations_product. *)
From Verif Require Import Py L_Py L_Qc M_BaseMaps M_Utils S_Utils L_BaseMaps.
From Coq Require Import Permutation.
Local Open Scope nat_scope.

Inductive subseq {A} : list A -> list A -> Prop :=
| ss_nil : subseq [] []
| ss_take x c l : subseq c l -> subseq (x :: c) (x :: l)
| ss_skip x c l : subseq c l -> subseq c (x :: l).
Lemma subseq_nil {A} (l : list A) : subseq [] l.
Proof. induction l; constructor; auto. Qed.
Lemma subseq_In {A} (c l : list A) x : subseq c l -> In x c -> In x l.
Proof. induction 1; cbn; auto; intros [->|]; auto. Qed.
Lemma subseq_NoDup {A} (c l : list A) : subseq c l -> NoDup l -> NoDup c.
Proof.
  induction 1; intros HN; auto; inversion HN; subst; auto. constructor; auto.
  intros Hin. apply H2. eapply subseq_In; eauto.
Qed.
Lemma In_combs {A} (l : list A) : forall r c, In c (combs l r) <-> subseq c l /\ length c = r.
Proof.
  induction l as [|x l IH]; intros [|r] c; cbn.
  - split; [intros [<-|[]]; split; auto; constructor|]. intros [H _]. inversion H; auto.
  - split; [tauto|]. intros [H E]. inversion H; subst; discriminate.
  - split; [intros [<-|[]]; split; auto; apply subseq_nil|]. intros [_ H]. destruct c; [auto|discriminate].
  - rewrite in_app_iff, in_map_iff. setoid_rewrite IH. split.
    + intros [(c' & <- & H1 & H2)|[H1 H2]]; cbn; split; auto; constructor; auto.
    + intros [H E]. inversion H; subst; [left; eexists; split; eauto; split; auto|right; auto].
Qed.
Lemma NoDup_combs {A} (l : list A) : NoDup l -> forall r, NoDup (combs l r).
Proof.
  induction 1 as [|x l Hx HN IH]; intros [|r]; cbn; try (repeat constructor; auto; fail).
  apply NoDup_app_intro.
  - apply NoDup_map_inj; auto. intros a b _ _ E; inversion E; auto.
  - apply IH.
  - intros c Hc1 Hc2. apply in_map_iff in Hc1 as (c' & <- & _). apply In_combs in Hc2 as [H _].
    apply Hx. eapply subseq_In; eauto. cbn; auto.
Qed.
Lemma subseq_filter {A} (eqb : A -> A -> bool) (l c : list A) : eqb_ok eqb -> NoDup l -> subseq c l ->
  c = filter (fun x => memb eqb x c) l.
Proof.
  intros He HN H. revert HN. induction H; intros HN; auto; inversion HN; subst.
  - cbn [filter]. assert (memb eqb x (x :: c) = true) as -> by (apply memb_In; cbn; auto). f_equal.
    rewrite IHsubseq at 1 by auto. apply filter_ext_in. intros y Hy.
    assert (y <> x) by (intros ->; tauto).
    cbn. destruct (eqb y x) eqn:E; auto. apply He in E; contradiction.
  - cbn [filter]. assert (memb eqb x c = false) as ->.
    { apply memb_false; auto. intros Hin. apply H2. eapply subseq_In; eauto. }
    auto.
Qed.
Lemma filter_subseq {A} (f : A -> bool) l : subseq (filter f l) l.
Proof. induction l; cbn; [constructor|]. destruct (f a); constructor; auto. Qed.

(** gen_faces *)
Definition fill (dim : nat) (vals : list Z) (cs : list nat) : list (option Z) :=
  fold_left (fun face vc => upd (snd vc) (Some (fst vc)) face) (combine vals cs) (repeat None dim).
Lemma fill_length dim vals cs : length (fill dim vals cs) = dim.
Proof. unfold fill. rewrite (fold_upd_length (fun vc : Z * nat => snd vc) (fun vc => Some (fst vc))). apply repeat_length. Qed.
Lemma fill_notin dim vals cs j : length vals = length cs -> ~ In j cs -> nth j (fill dim vals cs) None = None.
Proof.
  intros HL Hj. unfold fill. rewrite (fold_upd_notin (fun vc : Z * nat => snd vc) (fun vc => Some (fst vc))).
  - destruct (lt_dec j dim); [rewrite nth_repeat; auto|rewrite nth_overflow; auto; rewrite repeat_length; lia].
  - rewrite combine_map_r by auto. auto.
Qed.
Lemma fill_in dim vals cs v j : NoDup cs -> length vals = length cs -> j < dim ->
  In (v, j) (combine vals cs) -> nth j (fill dim vals cs) None = Some v.
Proof.
  intros HN HL Hj Hin. unfold fill.
  apply (fold_upd_in (fun vc : Z * nat => snd vc) (fun vc => Some (fst vc)) _ _ (v, j) None); auto.
  - rewrite combine_map_r; auto.
  - rewrite repeat_length; auto.
Qed.
Definition fixed_pos (f : list (option Z)) : list nat :=
  filter (fun j => match nth j f None with None => false | _ => true end) (seq 0 (length f)).
Definition unsome (c : option Z) : Z := match c with Some z => z | None => 0%Z end.
Lemma filter_length_split {A} (p : A -> bool) l : length (filter p l) + length (filter (fun x => negb (p x)) l) = length l.
Proof. induction l; cbn; auto. destruct (p a); cbn; lia. Qed.
Lemma filter_map_comm {A B} (g : A -> B) (p : B -> bool) l : filter p (map g l) = map g (filter (fun x => p (g x)) l).
Proof. induction l; cbn; auto. destruct (p (g a)); cbn; congruence. Qed.
Lemma fixed_pos_length f : length (fixed_pos f) + face_free f = length f.
Proof.
  unfold face_free. rewrite <- (map_seq_nth f None) at 2. rewrite filter_map_comm, map_length. unfold fixed_pos.
  rewrite <- (seq_length (length f) 0) at 3.
  rewrite <- (filter_length_split (fun j => match nth j f None with None => false | _ => true end) (seq 0 (length f))).
  f_equal. f_equal. apply filter_ext. intros j. destruct (nth j f None); auto.
Qed.
Lemma In_combine_map {A B} (g : A -> B) l x y : In (x, y) (combine (map g l) l) <-> In y l /\ x = g y.
Proof.
  induction l; cbn; [tauto|]. rewrite IHl. split.
  - intros [E|[H1 H2]]; [inversion E; auto|auto].
  - intros [[->|H] ->]; auto.
Qed.
Lemma fill_fixed f : fill (length f) (map (fun j => unsome (nth j f None)) (fixed_pos f)) (fixed_pos f) = f.
Proof.
  assert (HN : NoDup (fixed_pos f)) by (apply NoDup_filter, seq_NoDup).
  apply nth_ext_lt with (d := None); [apply fill_length|]. rewrite fill_length. intros j Hj.
  destruct (nth j f None) as [v|] eqn:E.
  - apply fill_in; auto; [apply map_length|]. apply In_combine_map. rewrite E. split; auto.
    apply filter_In. rewrite in_seq, E. split; [lia|auto].
  - apply fill_notin; [apply map_length|]. intros H. apply filter_In in H as [_ H]. rewrite E in H. discriminate.
Qed.
Lemma fixed_fill dim vals cs : subseq cs (seq 0 dim) -> length vals = length cs -> fixed_pos (fill dim vals cs) = cs.
Proof.
  intros HS HL. pose proof (subseq_NoDup _ _ HS (seq_NoDup dim 0)) as HN.
  transitivity (filter (fun j => memb Nat.eqb j cs) (seq 0 dim)).
  2:{ symmetry. apply subseq_filter; auto using seq_NoDup. intros x y; apply Nat.eqb_eq. }
  unfold fixed_pos. rewrite fill_length. apply filter_ext_in. intros j Hj. apply in_seq in Hj.
  destruct (memb Nat.eqb j cs) eqn:E.
  - apply memb_In in E; [|intros x y; apply Nat.eqb_eq].
    assert (exists v, In (v, j) (combine vals cs)) as (v & Hv).
    { rewrite <- (combine_map_r vals cs HL) in E. apply in_map_iff in E as ([v j'] & <- & H). eauto. }
    rewrite (fill_in dim vals cs v j); auto. lia.
  - rewrite fill_notin; auto. apply memb_false in E; auto. intros x y; apply Nat.eqb_eq.
Qed.
Lemma fill_vals dim vals cs : subseq cs (seq 0 dim) -> length vals = length cs ->
  map (fun j => unsome (nth j (fill dim vals cs) None)) cs = vals.
Proof.
  intros HS HL. pose proof (subseq_NoDup _ _ HS (seq_NoDup dim 0)) as HN.
  transitivity (map (fun e : Z * nat => unsome (nth (snd e) (fill dim vals cs) None)) (combine vals cs)).
  - rewrite <- (map_map snd (fun j => unsome (nth j (fill dim vals cs) None))), combine_map_r; auto.
  - transitivity (map fst (combine vals cs)); [|apply combine_map_l; auto]. apply map_ext_in. intros [v j] Hin. cbn.
    rewrite (fill_in dim vals cs v j); auto. apply in_combine_r in Hin. apply (subseq_In _ _ _ HS), in_seq in Hin. lia.
Qed.

Lemma gen_faces_exact dim fd : fd <= dim ->
  exists fs, gen_faces dim fd = Some fs /\ NoDup fs /\
    forall f, In f fs <-> length f = dim /\ face_free f = fd /\ Forall (fun c => c = None \/ c = Some 0%Z \/ c = Some 1%Z) f.
Proof.
  intros Hfd. unfold gen_faces. destruct (Nat.leb_spec fd dim); [|lia]. eexists; split; [reflexivity|].
  split.
  - apply NoDup_flat_map.
    + apply NoDup_combs, seq_NoDup.
    + intros cs Hcs. apply In_combs in Hcs as [HS HL]. apply NoDup_map_inj.
      2:{ apply NoDup_lprod_rep. repeat constructor; cbn; intuition discriminate. }
      * intros v v' Hv Hv' E. apply In_lprod_rep in Hv as [Hv _], Hv' as [Hv' _].
        fold (fill dim v cs) in E. fold (fill dim v' cs) in E.
        rewrite <- (fill_vals dim v cs), <- (fill_vals dim v' cs), E; auto; congruence.
    + intros cs cs' f H1 H2 Hf Hf'. apply In_combs in H1 as [HS HL], H2 as [HS' HL'].
      apply in_map_iff in Hf as (v & <- & Hv), Hf' as (v' & E & Hv'). apply In_lprod_rep in Hv as [Hv _], Hv' as [Hv' _].
      fold (fill dim v cs) in E. fold (fill dim v' cs') in E.
      rewrite <- (fixed_fill dim v cs), <- (fixed_fill dim v' cs'), E; auto; congruence.
  - intros f. rewrite in_flat_map. split.
    + intros (cs & Hcs & Hf). apply In_combs in Hcs as [HS HL]. apply in_map_iff in Hf as (v & <- & Hv).
      apply In_lprod_rep in Hv as [Hv HF]. fold (fill dim v cs).
      assert (HLv : length v = length cs) by congruence.
      pose proof (fixed_pos_length (fill dim v cs)) as HP. rewrite fixed_fill, fill_length in HP by auto.
      split; [apply fill_length|]. split; [lia|].
      apply (Forall_nth_lt _ _ None). rewrite fill_length. intros j Hj.
      destruct (in_dec Nat.eq_dec j cs) as [Hin|Hin].
      * assert (exists x, In (x, j) (combine v cs)) as (x & Hx).
        { rewrite <- (combine_map_r v cs HLv) in Hin. apply in_map_iff in Hin as ([x j'] & <- & H'). eauto. }
        rewrite (fill_in dim v cs x j); auto; [|eapply subseq_NoDup; eauto using seq_NoDup].
        apply in_combine_l in Hx. rewrite Forall_forall in HF. apply HF in Hx. cbn in Hx. intuition congruence.
      * rewrite fill_notin; auto.
    + intros (HL & HF & HV). pose proof (fixed_pos_length f) as HP. exists (fixed_pos f). split.
      * apply In_combs. split; [|lia]. unfold fixed_pos. rewrite HL. apply filter_subseq.
      * apply in_map_iff. exists (map (fun j => unsome (nth j f None)) (fixed_pos f)). split.
        -- rewrite <- HL at 1. apply fill_fixed.
        -- apply In_lprod_rep. rewrite map_length. split; [lia|]. apply Forall_map, Forall_forall. intros j Hj.
           apply filter_In in Hj as [Hj _]. apply in_seq in Hj. rewrite Forall_forall in HV.
           destruct (HV (nth j f None) ltac:(apply nth_In; lia)) as [E|[E|E]]; rewrite E; cbn; auto.
Qed.

(** get_lcm *)
Lemma get_lcm_exact xs : Forall (fun x => 0 < x)%Z xs ->
  exists m, get_lcm xs = Some m /\ (0 < m)%Z /\ (forall x, In x xs -> (x | m)%Z) /\
    (forall n, (forall x, In x xs -> (x | n)%Z) -> (m | n)%Z).
Proof.
  intros H. unfold get_lcm.
  assert (G : forall l, (0 < l)%Z ->
    exists m, fold_left (fun acc x => match acc with
                          | Some lcm => if (Z.gcd lcm x =? 0)%Z then None else Some (lcm * x / Z.gcd lcm x)%Z
                          | None => None
                          end) xs (Some l) = Some m /\ (0 < m)%Z /\ (l | m)%Z /\ (forall x, In x xs -> (x | m)%Z) /\
    (forall n, (l | n)%Z -> (forall x, In x xs -> (x | n)%Z) -> (m | n)%Z)).
  { induction H as [|x xs Hx _ IH]; intros l Hl; cbn [fold_left].
    - exists l. repeat split; auto; try reflexivity. cbn; tauto.
    - assert (Hg : (0 < Z.gcd l x)%Z).
      { pose proof (Z.gcd_nonneg l x). destruct (Z.eq_dec (Z.gcd l x) 0) as [E|]; [|lia]. apply Z.gcd_eq_0 in E. lia. }
      destruct (Z.eqb_spec (Z.gcd l x) 0); [lia|].
      assert (EL : (l * x / Z.gcd l x = Z.lcm l x)%Z).
      { unfold Z.lcm. rewrite Z.abs_eq.
        - apply Z.divide_div_mul_exact; [lia|apply Z.gcd_divide_r].
        - apply Z.mul_nonneg_nonneg; [lia|]. apply Z.div_pos; lia. }
      rewrite EL. destruct (IH (Z.lcm l x)) as (m & Hm & Hp & H1 & H2 & H3).
      { pose proof (Z.lcm_nonneg l x). destruct (Z.eq_dec (Z.lcm l x) 0) as [E|]; [|lia]. apply Z.lcm_eq_0 in E. lia. }
      exists m. split; auto. split; auto. split; [eapply Z.divide_trans; [apply Z.divide_lcm_l|]; eauto|]. split.
      + intros y [<-|Hy]; auto. eapply Z.divide_trans; [apply Z.divide_lcm_r|]; eauto.
      + intros n0 Hln Hxn. apply H3.
        * apply Z.lcm_least; auto. apply Hxn; cbn; auto.
        * intros y Hy. apply Hxn; cbn; auto. }
  destruct (G 1%Z ltac:(lia)) as (m & Hm & Hp & _ & H2 & H3). exists m. repeat split; auto.
  intros n Hn. apply H3; auto. apply Z.divide_1_l.
Qed.

(** combinations_product *)
Lemma combs_repl_0 {A} (l : list A) : combs_repl l 0 = [[]].
Proof. destruct l; auto. Qed.
Lemma combs_repl_S {A} (x : A) l r : combs_repl (x :: l) (S r) = map (cons x) (combs_repl (x :: l) r) ++ combs_repl l (S r).
Proof. reflexivity. Qed.
Lemma combs_repl_sound {A} (l : list A) : forall r c, In c (combs_repl l r) -> length c = r /\ Forall (fun x => In x l) c.
Proof.
  induction l as [|x l IH].
  - intros [|r] c; cbn; [intros [<-|[]]; auto|tauto].
  - induction r as [|r IHr]; intros c.
    + cbn. intros [<-|[]]; auto.
    + rewrite combs_repl_S, in_app_iff, in_map_iff. intros [(c' & <- & H)|H].
      * apply IHr in H as [H1 H2]. cbn. split; auto.
      * apply IH in H as [H1 H2]. split; auto. eapply Forall_impl; [|eauto]. cbn; auto.
Qed.
Lemma combs_repl_complete {A} (l : list A) : (forall x y : A, {x = y} + {x <> y}) ->
  forall r t, length t = r -> Forall (fun x => In x l) t -> exists c, In c (combs_repl l r) /\ Permutation t c.
Proof.
  intros dec. induction l as [|x l IH].
  - intros r t HL HF. destruct t as [|y t]; [subst; exists []; cbn; auto|]. inversion HF; subst; contradiction.
  - induction r as [|r IHr]; intros t HL HF.
    + destruct t; [|discriminate]. exists []. cbn; auto.
    + rewrite combs_repl_S. destruct (in_dec dec x t) as [Hin|Hin].
      * apply in_split in Hin as (t1 & t2 & ->). destruct (IHr (t1 ++ t2)) as (c & Hc & HP).
        -- rewrite app_length in *; cbn in HL; lia.
        -- apply Forall_app in HF as [H1 H2]. inversion H2; subst. apply Forall_app; auto.
        -- exists (x :: c). split; [apply in_app_iff; left; apply in_map; auto|].
           rewrite <- HP. apply Permutation_sym, Permutation_middle.
      * destruct (IH (S r) t HL) as (c & Hc & HP).
        -- rewrite Forall_forall in *. intros y Hy. destruct (HF y Hy) as [<-|]; auto. contradiction.
        -- exists c. split; auto. apply in_app_iff; auto.
Qed.
Lemma combs_repl_unique {A} (l : list A) : NoDup l ->
  forall r c c', In c (combs_repl l r) -> In c' (combs_repl l r) -> Permutation c c' -> c = c'.
Proof.
  induction 1 as [|x l Hx HN IH].
  - intros [|r] c c'; cbn; [intros [<-|[]] [<-|[]]; auto|tauto].
  - induction r as [|r IHr]; intros c c'.
    + rewrite combs_repl_0. intros [<-|[]] [<-|[]]; auto.
    + rewrite combs_repl_S, !in_app_iff, !in_map_iff. intros [(a & <- & Ha)|Ha] [(b & <- & Hb)|Hb] HP.
      * f_equal. apply IHr; auto. eapply Permutation_cons_inv; eauto.
      * exfalso. apply Hx. apply combs_repl_sound in Hb as [_ HF]. rewrite Forall_forall in HF. apply HF.
        eapply Permutation_in; eauto. cbn; auto.
      * exfalso. apply Hx. apply combs_repl_sound in Ha as [_ HF]. rewrite Forall_forall in HF. apply HF.
        eapply Permutation_in; [apply Permutation_sym; eauto|]. cbn; auto.
      * eapply IH; eauto.
Qed.
Lemma NoDup_combs_repl {A} (l : list A) : NoDup l -> forall r, NoDup (combs_repl l r).
Proof.
  induction 1 as [|x l Hx HN IH].
  - intros [|r]; cbn; repeat constructor; auto.
  - induction r as [|r IHr]; [rewrite combs_repl_0; repeat constructor; auto|]. rewrite combs_repl_S.
    apply NoDup_app_intro; auto.
    + apply NoDup_map_inj; auto. intros a b _ _ E; inversion E; auto.
    + intros c H1 H2. apply in_map_iff in H1 as (a & <- & Ha). apply combs_repl_sound in H2 as [_ HF].
      inversion HF; subst. contradiction.
Qed.

Section Place.
  Context {T : Type}.
  Lemma place_items_spec (ids : list nat) : forall (ls : list (nat * list T)),
    (forall i, In i ids -> exists g, dget Nat.eqb ls i = Some g /\ length g = count_occ Nat.eq_dec ids i) ->
    exists t, place_items ids ls = Some t /\ length t = length ids /\
      forall i g, In i ids -> dget Nat.eqb ls i = Some g -> items_of i ids t = g.
  Proof.
    induction ids as [|j ids IH]; intros ls H; cbn [place_items].
    - exists []. repeat split; auto. intros i g [].
    - destruct (H j (or_introl eq_refl)) as (g & Hg & HL). rewrite Hg. cbn in HL. destruct (Nat.eq_dec j j); [|congruence].
      destruct g as [|x rest]; [discriminate|]. cbn in HL.
      assert (He : eqb_ok Nat.eqb) by (intros a b; apply Nat.eqb_eq).
      destruct (IH (dset Nat.eqb ls j rest)) as (t & Ht & HLt & HI).
      + intros i Hi. rewrite dget_dset by auto. destruct (Nat.eqb_spec i j) as [->|Hne].
        * exists rest. split; auto.
        * destruct (H i (or_intror Hi)) as (g' & Hg' & HL'). exists g'. split; auto. cbn in HL'. destruct (Nat.eq_dec j i); [congruence|auto].
      + rewrite Ht. cbn. exists (x :: t). split; auto. split; [cbn; lia|]. intros i g' Hi Hg'. cbn.
        destruct (Nat.eqb_spec j i) as [->|Hne].
        * rewrite Hg in Hg'. inversion Hg'; subst. f_equal.
          destruct (in_dec Nat.eq_dec i ids) as [Hin|Hin].
          -- apply HI; auto. rewrite dget_dset, Nat.eqb_refl by auto. auto.
          -- rewrite (proj1 (count_occ_not_In Nat.eq_dec ids i) Hin) in HL. destruct rest; [|discriminate].
             clear - Hin. revert t; induction ids as [|k ids IH']; intros t; cbn; auto. destruct t; auto.
             destruct (Nat.eqb_spec k i); [subst; cbn in Hin; tauto|]. apply IH'. cbn in Hin; tauto.
        * destruct Hi as [->|Hi]; [congruence|]. apply HI; auto. rewrite dget_dset by auto.
          destruct (Nat.eqb_spec i j); [congruence|auto].
  Qed.
  Lemma items_of_ext (ids : list nat) : forall t t' : list T, length t = length ids -> length t' = length ids ->
    (forall i, In i ids -> items_of i ids t = items_of i ids t') -> t = t'.
  Proof.
    induction ids as [|j ids IH]; intros [|x t] [|x' t'] HL HL' H; try discriminate; auto.
    pose proof (H j (or_introl eq_refl)) as HJ. cbn in HJ. rewrite Nat.eqb_refl in HJ. inversion HJ; subst. f_equal.
    apply IH; auto. intros i Hi. specialize (H i (or_intror Hi)). cbn in H. destruct (Nat.eqb j i); congruence.
  Qed.
  Lemma items_of_length (ids : list nat) : forall (t : list T) i, length t = length ids -> length (items_of i ids t) = count_occ Nat.eq_dec ids i.
  Proof.
    induction ids as [|j ids IH]; intros [|x t] i HL; try discriminate; auto. cbn.
    destruct (Nat.eqb_spec j i), (Nat.eq_dec j i); try congruence; cbn; rewrite IH; auto.
  Qed.
  Lemma items_of_notin (ids : list nat) : forall (t : list T) i, ~ In i ids -> items_of i ids t = [].
  Proof.
    induction ids as [|j ids IH]; intros [|x t] i H; auto. cbn in *. destruct (Nat.eqb_spec j i); [tauto|]. apply IH; tauto.
  Qed.
  Lemma items_of_In (ids : list nat) : forall (t : list T) i x, In x (items_of i ids t) -> exists n, nth_error ids n = Some i /\ nth_error t n = Some x.
  Proof.
    induction ids as [|j ids IH]; intros [|y t] i x H; cbn in *; try tauto.
    destruct (Nat.eqb_spec j i).
    - destruct H as [->|H]; [exists 0; subst; auto|]. apply IH in H as (n & ?). exists (S n); auto.
    - apply IH in H as (m & ?). exists (S m); auto.
  Qed.
  Lemma In_items_of (ids : list nat) : forall (t : list T) i x n, nth_error ids n = Some i -> nth_error t n = Some x -> In x (items_of i ids t).
  Proof.
    induction ids as [|j ids IH]; intros [|y t] i x [|n] H1 H2; cbn in *; try discriminate.
    - inversion H1; inversion H2; subst. rewrite Nat.eqb_refl. cbn; auto.
    - destruct (Nat.eqb j i); [right|]; eapply IH; eauto.
  Qed.
End Place.

Lemma nateqb_ok : eqb_ok Nat.eqb. Proof. intros x y; apply Nat.eqb_eq. Qed.
Lemma counter_fst ids : map fst (counter ids) = dedup Nat.eqb ids.
Proof. unfold counter. rewrite map_map. cbn. apply map_id. Qed.
Lemma valid_tuple_nth {T} ids (dict : nat -> option (list T)) t : valid_tuple ids dict t <->
  length t = length ids /\ forall n i x, nth_error ids n = Some i -> nth_error t n = Some x -> exists l, dict i = Some l /\ In x l.
Proof.
  unfold valid_tuple. split.
  - intros H. split; [symmetry; eapply Forall2_length; eauto|]. induction H; intros [|n] i x' H1 H2; cbn in *; try discriminate.
    + inversion H1; inversion H2; subst; auto.
    + eapply IHForall2; eauto.
  - revert t; induction ids as [|i ids IH]; intros [|x t] [HL H]; try discriminate; constructor.
    + apply (H 0); auto.
    + apply IH. split; auto. intros n; apply (H (S n)).
Qed.

Lemma dget_combine_nth {T} (ks : list nat) (gs : list T) i k g : NoDup ks ->
  nth_error ks k = Some i -> nth_error gs k = Some g -> dget Nat.eqb (combine ks gs) i = Some g.
Proof.
  revert gs k; induction ks as [|a ks IH]; intros [|b gs] [|k] HN H1 H2; cbn in *; try discriminate.
  - inversion H1; inversion H2; subst. rewrite Nat.eqb_refl. auto.
  - inversion HN; subst. destruct (Nat.eqb_spec i a) as [->|]; [exfalso; eapply H3, nth_error_In; eauto|]. eapply IH; eauto.
Qed.

Lemma Forall2_nth_error {A B} (P : A -> B -> Prop) l l' : Forall2 P l l' <->
  length l = length l' /\ forall k a b, nth_error l k = Some a -> nth_error l' k = Some b -> P a b.
Proof.
  split.
  - intros H. split; [eapply Forall2_length; eauto|]. induction H; intros [|k] a b; cbn; try discriminate; eauto.
    intros E1 E2; inversion E1; inversion E2; subst; auto.
  - revert l'; induction l as [|a l IH]; intros [|b l'] [HL H]; try discriminate; constructor.
    + apply (H 0); auto.
    + apply IH. split; auto. intros k; apply (H (S k)).
Qed.

Section CP.
  Context {T : Type} (dec : forall x y : T, {x = y} + {x <> y}).
  Variables (ids : list nat) (dict : nat -> option (list T)).
  Hypothesis Hdict : forall i, In i ids -> exists l, dict i = Some l /\ NoDup l.
  Let cnt := counter ids.
  Let ks := dedup Nat.eqb ids.
  Let good (gs : list (list T)) : Prop :=
    Forall2 (fun g i => exists l, dict i = Some l /\ In g (combs_repl l (count_occ Nat.eq_dec ids i))) gs ks.

  Lemma ks_In i : In i ks <-> In i ids. Proof. apply In_dedup, nateqb_ok. Qed.
  Lemma ks_NoDup : NoDup ks. Proof. apply NoDup_dedup, nateqb_ok. Qed.

  Lemma combs_defined : exists cs, omap (fun ic : nat * nat => option_map (fun l => combs_repl l (snd ic)) (dict (fst ic))) cnt = Some cs /\
    Forall2 (fun c i => exists l, dict i = Some l /\ c = combs_repl l (count_occ Nat.eq_dec ids i)) cs ks.
  Proof.
    unfold cnt, counter. fold ks. assert (H : forall i, In i ks -> exists l, dict i = Some l /\ NoDup l).
    { intros i Hi. apply Hdict, ks_In; auto. }
    induction ks as [|i l IH]; cbn; [exists []; split; auto|].
    destruct (H i (or_introl eq_refl)) as (li & Hli & _). rewrite Hli. cbn.
    destruct IH as (cs & -> & HF); [intros; apply H; cbn; auto|]. eexists; split; [reflexivity|]. constructor; eauto.
  Qed.
  Lemma good_lprod cs : Forall2 (fun c i => exists l, dict i = Some l /\ c = combs_repl l (count_occ Nat.eq_dec ids i)) cs ks ->
    forall gs, In gs (lprod cs) <-> good gs.
  Proof.
    intros HF gs. rewrite In_lprod. unfold good. clear good. revert gs.
    induction HF as [|c i cs ks' (l & H1 & ->) HF IH]; intros gs; split; intros HH; inversion HH as [|g ? gs' ? Hg Hgs]; subst; constructor; eauto.
    - apply IH; auto.
    - destruct Hg as (l' & H2 & H3). congruence.
    - apply IH; auto.
  Qed.
  (** the tuple built from the groups *)
  Lemma good_place gs : good gs -> exists t, place_items ids (combine (map fst cnt) gs) = Some t /\ length t = length ids /\
     forall k i, nth_error ks k = Some i -> items_of i ids t = nth k gs [].
  Proof.
    intros HG. unfold cnt. rewrite counter_fst. fold ks.
    apply Forall2_nth_error in HG as [HL HG].
    assert (Hk : forall k i, nth_error ks k = Some i -> exists g, nth_error gs k = Some g /\ dget Nat.eqb (combine ks gs) i = Some g).
    { intros k i Hki. destruct (nth_error gs k) as [g|] eqn:E.
      - exists g. split; auto. eapply dget_combine_nth; eauto using ks_NoDup.
      - apply nth_error_None in E. assert (k < length ks) by (apply nth_error_Some; congruence). lia. }
    destruct (place_items_spec ids (combine ks gs)) as (t & Ht & HLt & HI).
    - intros i Hi. apply ks_In, In_nth_error in Hi as (k & Hki). destruct (Hk k i Hki) as (g & Hg & Hd).
      exists g. split; auto. destruct (HG k g i Hg Hki) as (l & _ & Hin). apply combs_repl_sound in Hin as [? _]. auto.
    - exists t. split; auto. split; auto. intros k i Hki. destruct (Hk k i Hki) as (g & Hg & Hd).
      rewrite (HI i g); auto; [|apply ks_In; eapply nth_error_In; eauto]. symmetry. apply nth_error_nth; auto.
  Qed.

  Lemma combinations_product_exact :
    exists res, combinations_product ids dict = Some res /\ NoDup res /\
      (forall t, In t res -> valid_tuple ids dict t) /\
      (forall t, valid_tuple ids dict t -> exists! r, In r res /\ same_choice ids t r).
  Proof.
    unfold combinations_product. fold cnt. destruct combs_defined as (cs & -> & HF).
    pose proof (good_lprod cs HF) as HGL.
    assert (HO : exists res, omap (fun groups => place_items ids (combine (map fst cnt) groups)) (lprod cs) = Some res /\
      Forall2 (fun gs t => good gs /\ length t = length ids /\ forall k i, nth_error ks k = Some i -> items_of i ids t = nth k gs []) (lprod cs) res).
    { assert (HA : forall gs, In gs (lprod cs) -> good gs) by (intros; apply HGL; auto). clear HGL.
      induction (lprod cs) as [|gs l IH]; cbn; [exists []; auto|].
      destruct (good_place gs (HA gs (or_introl eq_refl))) as (t & -> & H1 & H2).
      destruct IH as (res & -> & HR); [intros; apply HA; cbn; auto|]. eexists; split; [reflexivity|].
      constructor; auto. split; auto. apply HA; cbn; auto. }
    destruct HO as (res & -> & HR). exists res. split; auto.
    assert (HIN : forall t, In t res <-> exists gs, good gs /\ length t = length ids /\
       forall k i, nth_error ks k = Some i -> items_of i ids t = nth k gs []).
    { intros t. split.
      - intros Ht. clear - HR Ht. induction HR; [destruct Ht|]. destruct Ht as [<-|Ht]; eauto.
      - intros (gs & HG & HL & HI). pose proof HG as HG'. apply HGL in HG'.
        apply Forall2_nth_error in HR as [HRL HR]. apply In_nth_error in HG' as (n & Hn).
        destruct (nth_error res n) as [t'|] eqn:E.
        + destruct (HR n gs t' Hn E) as (_ & HL' & HI'). assert (t = t') as ->; [|eapply nth_error_In; eauto].
          apply (items_of_ext ids); auto. intros i Hi. apply ks_In, In_nth_error in Hi as (k & Hk).
          rewrite (HI k i Hk), (HI' k i Hk). auto.
        + apply nth_error_None in E. assert (n < length (lprod cs)) by (apply nth_error_Some; congruence). lia. }
    assert (HGk : forall gs k i, good gs -> nth_error ks k = Some i -> exists l, dict i = Some l /\ NoDup l /\
               In (nth k gs []) (combs_repl l (count_occ Nat.eq_dec ids i))).
    { intros gs k i HG Hk. apply Forall2_nth_error in HG as [HL HG]. destruct (nth_error gs k) as [g|] eqn:E.
      - destruct (HG k g i E Hk) as (l & Hl & Hin). apply nth_error_nth with (d := []) in E. rewrite E. exists l. split; auto. split; auto.
        destruct (Hdict i) as (l' & Hl' & HN); [apply ks_In; eapply nth_error_In; eauto|]. congruence.
      - apply nth_error_None in E. assert (k < length ks) by (apply nth_error_Some; congruence). lia. }
    split; [|split].
    - assert (HNL : NoDup (lprod cs)).
      { apply NoDup_lprod. apply Forall_forall. intros c Hc. apply In_nth_error in Hc as (n & Hn).
        apply Forall2_nth_error in HF as [HFL HF]. destruct (nth_error ks n) as [i|] eqn:E.
        - destruct (HF n c i Hn E) as (l & Hl & ->). apply NoDup_combs_repl.
          destruct (Hdict i) as (l' & Hl' & HN); [apply ks_In; eapply nth_error_In; eauto|]. congruence.
        - apply nth_error_None in E. assert (n < length cs) by (apply nth_error_Some; congruence). lia. }
      clear HIN. clear HF HGL. induction HR as [|gs t l res (HG & HL & HI) HR IH]; [constructor|]. inversion HNL; subst. constructor; auto.
      intros Hin. apply H1. assert (exists gs', In gs' l /\ good gs' /\ forall k i, nth_error ks k = Some i -> items_of i ids t = nth k gs' []) as (gs' & H3 & H4 & H5).
      { clear - HR Hin. induction HR as [|gs0 t0 l0 res0 (A & B & C) HR IH]; [destruct Hin|].
        destruct Hin as [->|Hin]; [exists gs0; cbn; auto|]. destruct (IH Hin) as (g & ? & ? & ?). exists g; cbn; auto. }
      assert (gs = gs') as ->; auto. apply nth_ext_lt with (d := []).
      + apply Forall2_length in HG, H4. congruence.
      + intros k Hk. apply Forall2_length in HG. destruct (nth_error ks k) as [i|] eqn:E.
        * rewrite <- (HI k i E), <- (H5 k i E). auto.
        * apply nth_error_None in E. lia.
    - intros t Ht. apply HIN in Ht as (gs & HG & HL & HI). apply valid_tuple_nth. split; auto.
      intros n i x Hn Hx. assert (Hi : In i ids) by (eapply nth_error_In; eauto).
      apply ks_In, In_nth_error in Hi as (k & Hk). destruct (HGk gs k i HG Hk) as (l & Hl & _ & Hin).
      exists l. split; auto. apply combs_repl_sound in Hin as [_ HFa]. rewrite Forall_forall in HFa. apply HFa.
      rewrite <- (HI k i Hk). eapply In_items_of; eauto.
    - intros t Ht. apply valid_tuple_nth in Ht as [HLt Hv].
      assert (HE : exists gs, good gs /\ forall k i, nth_error ks k = Some i -> Permutation (items_of i ids t) (nth k gs [])).
      { assert (HA : forall i, In i ks -> exists g l, dict i = Some l /\ In g (combs_repl l (count_occ Nat.eq_dec ids i)) /\ Permutation (items_of i ids t) g).
        { intros i Hi. apply ks_In in Hi. destruct (Hdict i Hi) as (l & Hl & HN).
          destruct (combs_repl_complete l dec (count_occ Nat.eq_dec ids i) (items_of i ids t)) as (g & Hg & HP).
          - apply items_of_length; auto.
          - apply Forall_forall. intros x Hx. apply items_of_In in Hx as (n & Hn & Hnx). destruct (Hv n i x Hn Hnx) as (l' & Hl' & Hin). congruence.
          - exists g, l. auto. }
        unfold good. clear - HA. induction ks as [|i l IH]; [exists []; split; [constructor|]; intros [|k] i; discriminate|].
        destruct (HA i (or_introl eq_refl)) as (g & li & H1 & H2 & H3). destruct IH as (gs & H4 & H5); [intros; apply HA; cbn; auto|].
        exists (g :: gs). split; [constructor; eauto|]. intros [|k] j; cbn; [intros E; inversion E; subst; auto|apply H5]. }
      destruct HE as (gs & HG & HP). destruct (good_place gs HG) as (r & _ & HLr & HIr).
      exists r. split.
      + split; [apply HIN; exists gs; auto|]. intros i. destruct (in_dec Nat.eq_dec i ids) as [Hi|Hi].
        * apply ks_In, In_nth_error in Hi as (k & Hk). rewrite (HIr k i Hk). auto.
        * rewrite !items_of_notin; auto.
      + intros r' [Hr' HS]. apply HIN in Hr' as (gs' & HG' & HL' & HI').
        apply (items_of_ext ids); auto. intros i Hi. apply ks_In, In_nth_error in Hi as (k & Hk).
        rewrite (HIr k i Hk), (HI' k i Hk). destruct (HGk gs k i HG Hk) as (l & Hl & HN & Hin), (HGk gs' k i HG' Hk) as (l' & Hl' & _ & Hin').
        assert (l' = l) by congruence. subst. eapply combs_repl_unique; eauto.
        rewrite <- (HP k i Hk). rewrite <- (HI' k i Hk). apply HS.
  Qed.
End CP.

(** naturality: positions may stand for the elements *)
Lemma combs_repl_map {A B} (f : A -> B) l : forall r, combs_repl (map f l) r = map (map f) (combs_repl l r).
Proof.
  induction l as [|x l IH]; [intros [|r]; auto|]. induction r as [|r IHr]; [auto|]. cbn [map]. rewrite !combs_repl_S.
  cbn [map] in IHr. rewrite IHr, IH, map_app, !map_map. auto.
Qed.
Lemma lprod_map {A B} (f : A -> B) ls : lprod (map (map f) ls) = map (map f) (lprod ls).
Proof.
  induction ls as [|l ls IH]; cbn; auto. rewrite IH. induction l as [|x l IHl]; cbn; auto.
  rewrite map_app, IHl, !map_map. auto.
Qed.
Lemma dget_map {A B} (f : A -> B) (ls : list (nat * A)) i : dget Nat.eqb (map (fun e => (fst e, f (snd e))) ls) i = option_map f (dget Nat.eqb ls i).
Proof. induction ls as [|[k v] ls IH]; cbn; auto. destruct (Nat.eqb i k); auto. Qed.
Lemma dset_map {A B} (f : A -> B) (ls : list (nat * A)) i v :
  dset Nat.eqb (map (fun e => (fst e, f (snd e))) ls) i (f v) = map (fun e => (fst e, f (snd e))) (dset Nat.eqb ls i v).
Proof. induction ls as [|[k w] ls IH]; cbn; auto. destruct (Nat.eqb i k); cbn; congruence. Qed.
Lemma place_items_map {A B} (f : A -> B) ids : forall ls,
  place_items ids (map (fun e => (fst e, map f (snd e))) ls) = option_map (map f) (place_items ids ls).
Proof.
  induction ids as [|i ids IH]; intros ls; cbn; auto. rewrite dget_map. destruct (dget Nat.eqb ls i) as [[|x rest]|]; cbn; auto.
  rewrite dset_map, IH. destruct (place_items ids _); auto.
Qed.
Lemma omap_option_map {A B C} (f : A -> option B) (g : B -> C) l :
  omap (fun x => option_map g (f x)) l = option_map (map g) (omap f l).
Proof. induction l; cbn; auto. destruct (f a); cbn; auto. rewrite IHl. destruct (omap f l); auto. Qed.
Lemma omap_map {A B C} (f : B -> option C) (g : A -> B) l : omap f (map g l) = omap (fun x => f (g x)) l.
Proof. induction l; cbn; auto. rewrite IHl. auto. Qed.
Lemma omap_ext {A B} (f g : A -> option B) l : (forall x, f x = g x) -> omap f l = omap g l.
Proof. intros H; induction l; cbn; auto. rewrite H, IHl. auto. Qed.
Lemma combinations_product_natural {A B} (f : A -> B) ids dict :
  combinations_product ids (fun i => option_map (map f) (dict i)) = option_map (map (map f)) (combinations_product ids dict).
Proof.
  unfold combinations_product.
  rewrite (omap_ext (fun ic => option_map (fun l => combs_repl l (snd ic)) (option_map (map f) (dict (fst ic))))
                    (fun ic => option_map (map (map f)) (option_map (fun l => combs_repl l (snd ic)) (dict (fst ic))))).
  2:{ intros [i c]; cbn. destruct (dict i); cbn; auto. rewrite combs_repl_map. auto. }
  rewrite omap_option_map. destruct (omap _ (counter ids)) as [cs|]; cbn; auto.
  rewrite lprod_map, omap_map. rewrite <- (omap_option_map _ (map f)). apply omap_ext. intros gs.
  rewrite <- place_items_map. f_equal. generalize (map fst (counter ids)) gs. clear.
  induction l; intros [|g gs]; cbn; auto. f_equal. apply IHl.
Qed.

(** arbitrary iterables (with repetitions): the choices are multisets of positions *)
Lemma map_nth_error_seq {A} (l : list A) : map (nth_error l) (seq 0 (length l)) = map Some l.
Proof.
  induction l as [|x l IH]; cbn; auto. f_equal. rewrite <- seq_shift, map_map. exact IH.
Qed.
Lemma pos_dict_map {T} (dict : nat -> option (list T)) i :
  option_map (map (at_pos dict)) (pos_dict dict i) = option_map (map Some) (dict i).
Proof.
  unfold pos_dict. destruct (dict i) as [l|] eqn:E; cbn; auto. f_equal. rewrite map_map. unfold at_pos; cbn. rewrite E.
  apply map_nth_error_seq.
Qed.
Lemma combinations_product_ext {A} ids (d d' : nat -> option (list A)) : (forall i, d i = d' i) ->
  combinations_product ids d = combinations_product ids d'.
Proof.
  intros H. unfold combinations_product.
  rewrite (omap_ext _ (fun ic => option_map (fun l => combs_repl l (snd ic)) (d' (fst ic)))); auto. intros; rewrite H; auto.
Qed.
Lemma map_Some_inj {A} (l l' : list (list A)) : map (map (@Some A)) l = map (map Some) l' -> l = l'.
Proof.
  assert (H : forall a b : list A, map Some a = map Some b -> a = b).
  { induction a; intros [|y b]; cbn; intros E; inversion E; f_equal; auto. }
  revert l'; induction l; intros [|y l']; cbn; intros E; inversion E; f_equal; auto.
Qed.
Lemma combinations_product_positions {T} (ids : list nat) (dict : nat -> option (list T)) :
  (forall i, In i ids -> dict i <> None) ->
  exists choices res, combinations_product ids dict = Some res /\
    map (map Some) res = map (map (at_pos dict)) choices /\
    NoDup choices /\ (forall t, In t choices -> valid_tuple ids (pos_dict dict) t) /\
    (forall t, valid_tuple ids (pos_dict dict) t -> exists! r, In r choices /\ same_choice ids t r).
Proof.
  intros Hd. destruct (combinations_product_exact (fun x y : nat * nat => ltac:(decide equality; apply Nat.eq_dec)) ids (pos_dict dict))
    as (ch & Hch & H1 & H2 & H3).
  { intros i Hi. specialize (Hd i Hi). unfold pos_dict. destruct (dict i) as [l|]; [|congruence]. eexists; split; [reflexivity|].
    apply NoDup_map_inj; [|apply seq_NoDup]. intros a b _ _ E; inversion E; auto. }
  pose proof (combinations_product_natural (at_pos dict) ids (pos_dict dict)) as N1.
  rewrite (combinations_product_ext _ _ _ (pos_dict_map dict)), (combinations_product_natural Some ids dict), Hch in N1.
  destruct (combinations_product ids dict) as [res|]; [|discriminate]. cbn in N1. inversion N1.
  exists ch, res. repeat split; auto.
Qed.
Lemma combinations_product_missing {T} (ids : list nat) (dict : nat -> option (list T)) i :
  In i ids -> dict i = None -> combinations_product ids dict = None.
Proof.
  intros Hi Hd. unfold combinations_product.
  assert (H : omap (fun ic : nat * nat => option_map (fun l => combs_repl l (snd ic)) (dict (fst ic))) (counter ids) = None).
  { unfold counter. apply (In_dedup Nat.eqb nateqb_ok) in Hi. induction (dedup Nat.eqb ids) as [|j l IH]; [destruct Hi|]. cbn.
    destruct Hi as [->|Hi]; [rewrite Hd; auto|]. rewrite IH by auto. destruct (option_map _ (dict j)); auto. }
  rewrite H. auto.
Qed.
