(** Lemmas on the helpers of Py.v. *)
From Verif Require Import Py.
From Coq Require Import Permutation Sorted.
Local Open Scope nat_scope.

Lemma NoDup_flat_map {A B} (f : A -> list B) l :
  NoDup l -> (forall x, In x l -> NoDup (f x)) ->
  (forall x y z, In x l -> In y l -> In z (f x) -> In z (f y) -> x = y) ->
  NoDup (flat_map f l).
Proof.
  induction l as [|a l IH]; intros Hn Hf Hd; cbn; [constructor|].
  inversion Hn; subst.
  assert (HA : forall (l1 l2 : list B), NoDup l1 -> NoDup l2 -> (forall z, In z l1 -> ~ In z l2) -> NoDup (l1 ++ l2)).
  { clear. induction l1; cbn; intros l2 H1 H2 H; auto. inversion H1; subst.
    constructor. rewrite in_app_iff; intros [|]; eauto. eapply H; eauto. apply IHl1; auto. }
  apply HA; [apply Hf; cbn; auto| |].
  - apply IH; auto. intros; apply Hf; cbn; auto. intros; eapply Hd; cbn; eauto.
  - intros z Hz Hz2. apply in_flat_map in Hz2. destruct Hz2 as (y & Hy & Hzy).
    assert (a = y) by (eapply Hd; cbn; eauto). subst; auto.
Qed.

Lemma NoDup_app_intro {A} (l1 l2 : list A) :
  NoDup l1 -> NoDup l2 -> (forall z, In z l1 -> ~ In z l2) -> NoDup (l1 ++ l2).
Proof.
  induction l1; cbn; intros H1 H2 H; auto. inversion H1; subst.
  constructor. rewrite in_app_iff; intros [|]; eauto. eapply H; eauto. apply IHl1; auto.
Qed.

Lemma NoDup_map_inj {A B} (f : A -> B) l :
  (forall x y, In x l -> In y l -> f x = f y -> x = y) -> NoDup l -> NoDup (map f l).
Proof.
  induction l; intros Hi Hn; cbn; [constructor|]. inversion Hn; subst. constructor.
  - rewrite in_map_iff. intros (x & Hx & Hin). apply Hi in Hx; cbn; auto. subst; auto.
  - apply IHl; auto. intros; apply Hi; cbn; auto.
Qed.

Lemma NoDup_map_rev {A B} (f : A -> B) l : NoDup (map f l) -> NoDup l.
Proof. apply NoDup_map_inv. Qed.

(** lprod *)
Lemma In_lprod {A} (ls : list (list A)) x : In x (lprod ls) <-> Forall2 (fun a l => In a l) x ls.
Proof.
  revert x; induction ls as [|l ls IH]; intros x; cbn.
  - split; [intros [<-|[]]; constructor | intros H; inversion H; auto].
  - rewrite in_flat_map. split.
    + intros (a & Ha & Hx). apply in_map_iff in Hx as (y & <- & Hy). constructor; [auto|]. apply IH; auto.
    + intros H; inversion H; subst. exists x0; split; auto. apply in_map, IH; auto.
Qed.

Lemma NoDup_lprod {A} (ls : list (list A)) : Forall (@NoDup A) ls -> NoDup (lprod ls).
Proof.
  induction ls as [|l ls IH]; intros H; cbn.
  - repeat constructor; auto.
  - inversion H; subst. apply NoDup_flat_map; auto.
    + intros x _. apply NoDup_map_inj; [congruence|auto].
    + intros x y z _ _ Hx Hy. apply in_map_iff in Hx as (? & <- & _). apply in_map_iff in Hy as (? & ? & _). congruence.
Qed.

Lemma length_lprod_elt {A} (ls : list (list A)) x : In x (lprod ls) -> length x = length ls.
Proof. rewrite In_lprod. intros H; induction H; cbn; auto. Qed.

Lemma length_flat_map_const {A B} (f : A -> list B) l n :
  (forall x, In x l -> length (f x) = n) -> length (flat_map f l) = length l * n.
Proof.
  induction l; cbn; intros H; auto. rewrite app_length, IHl, H; auto.
Qed.

Lemma length_lprod {A} (ls : list (list A)) : length (lprod ls) = fold_right Nat.mul 1 (map (@length A) ls).
Proof.
  induction ls as [|l ls IH]; cbn; auto.
  rewrite (length_flat_map_const _ _ (length (lprod ls))); [rewrite IH; auto|].
  intros; rewrite map_length; auto.
Qed.

Lemma In_lprod_rep {A} (l : list A) n x :
  In x (lprod_rep l n) <-> length x = n /\ Forall (fun a => In a l) x.
Proof.
  unfold lprod_rep. rewrite In_lprod. revert x; induction n; intros x; cbn.
  - split; [intros H; inversion H; auto|]. intros [H _]; destruct x; [constructor|discriminate].
  - split.
    + intros H; inversion H; subst. apply IHn in H4 as [<- HF]. split; auto.
    + intros [Hl HF]. destruct x; [discriminate|]. inversion HF; subst. constructor; auto. apply IHn; auto.
Qed.

Lemma NoDup_lprod_rep {A} (l : list A) n : NoDup l -> NoDup (lprod_rep l n).
Proof. intros; apply NoDup_lprod. apply Forall_forall. intros x Hx; apply repeat_spec in Hx; subst; auto. Qed.

Lemma length_lprod_rep {A} (l : list A) n : length (lprod_rep l n) = length l ^ n.
Proof.
  unfold lprod_rep. rewrite length_lprod. induction n; cbn; auto.
Qed.

(** picks and perms *)
Lemma In_picks {A} (l : list A) x r : In (x, r) (picks l) <-> exists l1 l2, l = l1 ++ x :: l2 /\ r = l1 ++ l2.
Proof.
  revert x r; induction l as [|a l IH]; intros x r; cbn.
  - split; [tauto|]. intros (l1 & l2 & H & _); destruct l1; discriminate.
  - split.
    + intros [H|H].
      * inversion H; subst. exists [], r; auto.
      * apply in_map_iff in H as ([y r'] & H & Hin). cbn in H. inversion H; subst.
        apply IH in Hin as (l1 & l2 & -> & ->). exists (a :: l1), l2; auto.
    + intros (l1 & l2 & H & ->). destruct l1 as [|b l1]; cbn in H; inversion H; subst.
      * auto.
      * right. apply in_map_iff. exists (x, l1 ++ l2); split; auto. apply IH; eauto.
Qed.

Lemma picks_length {A} (l : list A) x r : In (x, r) (picks l) -> length l = S (length r).
Proof. rewrite In_picks. intros (l1 & l2 & -> & ->). rewrite !app_length; cbn; lia. Qed.

Lemma In_perms_fuel {A} n (l : list A) p : length l = n -> In p (perms_fuel n l) <-> Permutation l p.
Proof.
  revert l p; induction n; intros l p Hl; cbn.
  - destruct l; [|discriminate]. split.
    + intros [<-|[]]; constructor.
    + intros H; apply Permutation_nil in H; auto.
  - rewrite in_flat_map. split.
    + intros ([x r] & Hx & Hp). cbn in Hp. apply in_map_iff in Hp as (q & <- & Hq).
      pose proof (picks_length _ _ _ Hx). apply IHn in Hq; [|lia].
      apply In_picks in Hx as (l1 & l2 & -> & ->).
      etransitivity; [symmetry; apply Permutation_middle|]. constructor; auto.
    + intros HP. destruct p as [|x q]; [apply Permutation_sym, Permutation_nil in HP; subst; discriminate|].
      assert (Hin : In x l) by (eapply Permutation_in; [apply Permutation_sym, HP|cbn; auto]).
      apply in_split in Hin as (l1 & l2 & ->).
      exists (x, l1 ++ l2). split; [apply In_picks; eauto|]. cbn. apply in_map, IHn.
      * rewrite app_length in *; cbn in *; lia.
      * apply Permutation_cons_inv with x. etransitivity; [apply Permutation_middle|auto].
Qed.

Lemma In_perms {A} (l p : list A) : In p (perms l) <-> Permutation l p.
Proof. apply In_perms_fuel; auto. Qed.

Lemma NoDup_picks {A} (l : list A) : NoDup l -> NoDup (map fst (picks l)).
Proof.
  assert (E : forall l : list A, map fst (picks l) = l).
  { clear. induction l; cbn; auto. rewrite map_map; cbn. f_equal; auto. }
  rewrite E; auto.
Qed.

Lemma NoDup_perms_fuel {A} n (l : list A) : length l = n -> NoDup l -> NoDup (perms_fuel n l).
Proof.
  revert l; induction n; intros l Hl Hn; cbn.
  - repeat constructor; auto.
  - apply NoDup_flat_map.
    + apply NoDup_map_rev with fst, NoDup_picks; auto.
    + intros [x r] Hx. apply NoDup_map_inj; [congruence|]. pose proof (picks_length _ _ _ Hx).
      apply IHn; cbn; [lia|]. apply In_picks in Hx as (l1 & l2 & -> & ->).
      eapply NoDup_remove_1; eauto.
    + intros [x r] [y s] z Hx Hy Hzx Hzy. cbn in *.
      apply in_map_iff in Hzx as (p & <- & _). apply in_map_iff in Hzy as (q & E & _). inversion E; subst.
      f_equal. pose proof (NoDup_picks _ Hn) as HN.
      clear - Hx Hy HN. induction (picks l) as [|[a b] L IH]; cbn in *; [tauto|].
      inversion HN; subst.
      destruct Hx as [Hx|Hx], Hy as [Hy|Hy]; auto; try congruence.
      * inversion Hx; subst. exfalso; apply H1. apply (in_map fst) in Hy; auto.
      * inversion Hy; subst. exfalso; apply H1. apply (in_map fst) in Hx; auto.
Qed.

Lemma NoDup_perms {A} (l : list A) : NoDup l -> NoDup (perms l).
Proof. apply NoDup_perms_fuel; auto. Qed.

(** upd *)
Lemma length_upd {A} i (v : A) l : length (upd i v l) = length l.
Proof. revert i; induction l; intros [|i]; cbn; auto. Qed.

Lemma nth_upd {A} i j (v d : A) l :
  nth j (upd i v l) d = if Nat.eqb i j then (if Nat.ltb i (length l) then v else nth j l d) else nth j l d.
Proof.
  revert i j; induction l as [|a l IH]; intros i j; cbn [upd].
  - destruct (Nat.eqb i j); cbn; auto.
  - destruct i as [|i], j as [|j]; cbn [nth Nat.eqb length]; auto. rewrite IH.
    replace (S i <? S (length l)) with (i <? length l); auto.
Qed.

Lemma nth_upd_eq {A} i (v d : A) l : i < length l -> nth i (upd i v l) d = v.
Proof. intros. rewrite nth_upd, Nat.eqb_refl. apply Nat.ltb_lt in H; rewrite H; auto. Qed.
Lemma nth_upd_ne {A} i j (v d : A) l : i <> j -> nth j (upd i v l) d = nth j l d.
Proof. intros. rewrite nth_upd. apply Nat.eqb_neq in H; rewrite H; auto. Qed.

Lemma nth_error_upd {A} i j (v : A) l :
  nth_error (upd i v l) j = if Nat.eqb i j then (if Nat.ltb i (length l) then Some v else None) else nth_error l j.
Proof.
  revert i j; induction l as [|a l IH]; intros i j; cbn [upd].
  - destruct (Nat.eqb i j); cbn; destruct j; auto.
  - destruct i as [|i], j as [|j]; cbn [nth_error Nat.eqb length]; auto; try (rewrite IH); try reflexivity.
Qed.

(** enumerate *)
Lemma combine_seq_nth {A} (l : list A) s i x :
  In (i, x) (combine (seq s (length l)) l) <-> s <= i /\ nth_error l (i - s) = Some x.
Proof.
  revert s i; induction l as [|a l IH]; intros s i; cbn [length seq combine In].
  - split; [tauto|]. intros [_ H]. destruct (i - s); discriminate.
  - rewrite IH. split.
    + intros [H|[H1 H2]].
      * inversion H; subst. split; auto. rewrite Nat.sub_diag; auto.
      * split; [lia|]. replace (i - s) with (S (i - S s)) by lia. auto.
    + intros [H1 H2]. destruct (Nat.eq_dec i s) as [->|Hne].
      * rewrite Nat.sub_diag in H2. cbn in H2. inversion H2; auto.
      * right. split; [lia|]. replace (i - s) with (S (i - S s)) in H2 by lia. auto.
Qed.

Lemma In_enumerate {A} (l : list A) i x : In (i, x) (enumerate l) <-> nth_error l i = Some x.
Proof. unfold enumerate. rewrite combine_seq_nth, Nat.sub_0_r. split; [tauto|split; [lia|auto]]. Qed.

Lemma combine_map_l {A B} (l : list A) (m : list B) : length l = length m -> map fst (combine l m) = l.
Proof. revert m; induction l; intros [|b m] H; cbn in *; try discriminate; auto. f_equal; auto. Qed.
Lemma combine_map_r {A B} (l : list A) (m : list B) : length l = length m -> map snd (combine l m) = m.
Proof. revert m; induction l; intros [|b m] H; cbn in *; try discriminate; auto. f_equal; auto. Qed.

Lemma enumerate_length {A} (l : list A) : length (enumerate l) = length l.
Proof. unfold enumerate. rewrite combine_length, seq_length. lia. Qed.
Lemma enumerate_fst {A} (l : list A) : map fst (enumerate l) = seq 0 (length l).
Proof. apply combine_map_l, seq_length. Qed.
Lemma enumerate_snd {A} (l : list A) : map snd (enumerate l) = l.
Proof. apply combine_map_r, seq_length. Qed.

Lemma combine_seq_nth_error {A} (l : list A) s i :
  nth_error (combine (seq s (length l)) l) i = option_map (pair (s + i)) (nth_error l i).
Proof.
  revert s i; induction l as [|a l IH]; intros s [|i]; cbn; auto.
  - rewrite Nat.add_0_r; auto.
  - rewrite IH. f_equal. f_equal. lia.
Qed.
Lemma enumerate_nth_error {A} (l : list A) i :
  nth_error (enumerate l) i = option_map (pair i) (nth_error l i).
Proof. apply (combine_seq_nth_error l 0). Qed.

Lemma combine_app_same {A B} (l l' : list A) (m m' : list B) :
  length l = length m -> combine (l ++ l') (m ++ m') = combine l m ++ combine l' m'.
Proof. revert m; induction l; intros [|b m] H; cbn in *; try discriminate; auto. f_equal; auto. Qed.

Lemma enumerate_app {A} (l : list A) x : enumerate (l ++ [x]) = enumerate l ++ [(length l, x)].
Proof.
  unfold enumerate. rewrite app_length; cbn. rewrite Nat.add_1_r, seq_S.
  rewrite combine_app_same by apply seq_length. auto.
Qed.

(** lists by nth *)
Lemma nth_ext_lt {A} (l l' : list A) d : length l = length l' ->
  (forall i, i < length l -> nth i l d = nth i l' d) -> l = l'.
Proof. intros. eapply nth_ext; eauto. Qed.

Lemma map_nth_lt {A B} (f : A -> B) l i d d' : i < length l -> nth i (map f l) d' = f (nth i l d).
Proof. intros H. rewrite nth_indep with (d' := f d) by (rewrite map_length; auto). apply map_nth. Qed.

Lemma map_seq_nth {A} (l : list A) d : map (fun i => nth i l d) (seq 0 (length l)) = l.
Proof.
  apply nth_ext_lt with d; [rewrite map_length, seq_length; auto|].
  intros i Hi. rewrite map_length, seq_length in Hi.
  rewrite map_nth_lt with (d := 0) by (rewrite seq_length; auto). rewrite seq_nth; auto.
Qed.

Lemma NoDup_nth_lt {A} (l : list A) d i j :
  NoDup l -> i < length l -> j < length l -> nth i l d = nth j l d -> i = j.
Proof. intros H Hi Hj E. rewrite NoDup_nth in H. eapply H; eauto. Qed.

Lemma Permutation_seq_NoDup l n : Permutation l (seq 0 n) -> NoDup l.
Proof. intros. eapply Permutation_NoDup; [apply Permutation_sym; eauto|apply seq_NoDup]. Qed.

Lemma Permutation_seq_lt l n x : Permutation l (seq 0 n) -> In x l -> x < n.
Proof. intros HP Hin. eapply Permutation_in in HP; eauto. apply in_seq in HP; lia. Qed.

Lemma NoDup_lt_Permutation l n :
  NoDup l -> length l = n -> (forall x, In x l -> x < n) -> Permutation l (seq 0 n).
Proof.
  intros HN HL HB. apply NoDup_Permutation_bis; auto.
  - rewrite seq_length; lia.
  - intros x Hx. apply in_seq. specialize (HB _ Hx). lia.
Qed.

(** comparison *)
Record cmp_ok {A} (cmp : A -> A -> comparison) : Prop := {
  cmp_eq : forall x y, cmp x y = Eq <-> x = y;
  cmp_opp : forall x y, cmp y x = CompOpp (cmp x y);
  cmp_trans : forall x y z, cmp x y = Lt -> cmp y z = Lt -> cmp x z = Lt }.

Lemma cmp_refl {A} cmp (H : @cmp_ok A cmp) x : cmp x x = Eq.
Proof. apply H; auto. Qed.

Lemma Z_cmp_ok : cmp_ok Z.compare.
Proof.
  constructor; intros.
  - apply Z.compare_eq_iff.
  - rewrite Z.compare_antisym; auto.
  - rewrite Z.compare_lt_iff in *; lia.
Qed.
Lemma nat_cmp_ok : cmp_ok Nat.compare.
Proof.
  constructor; intros.
  - apply Nat.compare_eq_iff.
  - rewrite Nat.compare_antisym; auto.
  - rewrite Nat.compare_lt_iff in *; lia.
Qed.

Lemma lex_ok {A} (cmp : A -> A -> comparison) : cmp_ok cmp -> cmp_ok (lex cmp).
Proof.
  intros H. constructor.
  - induction x as [|a x IH]; intros [|b y]; cbn; split; try discriminate; auto.
    + destruct (cmp a b) eqn:E; try discriminate. apply H in E. subst. intros HE; apply IH in HE; congruence.
    + intros E; inversion E; subst. rewrite (cmp_refl _ H). apply IH; auto.
  - induction x as [|a x IH]; intros [|b y]; cbn; auto.
    rewrite (cmp_opp _ H a b). destruct (cmp a b); cbn; auto.
  - induction x as [|a x IH]; intros [|b y] [|c z]; cbn; auto; try discriminate.
    destruct (cmp a b) eqn:E1; try discriminate; intros H1.
    + apply H in E1; subst. destruct (cmp b c); try discriminate; auto. apply IH; auto.
    + destruct (cmp b c) eqn:E2; try discriminate; intros H2.
      * apply H in E2; subst. rewrite E1; auto.
      * rewrite (cmp_trans _ H _ _ _ E1 E2); auto.
Qed.

Lemma lex2_ok {A B} (ca : A -> A -> comparison) (cb : B -> B -> comparison) :
  cmp_ok ca -> cmp_ok cb -> cmp_ok (lex2 ca cb).
Proof.
  intros Ha Hb. unfold lex2. constructor.
  - intros [a1 b1] [a2 b2]; cbn. split.
    + destruct (ca a1 a2) eqn:E; try discriminate. apply Ha in E. intros E2; apply Hb in E2. congruence.
    + intros E; inversion E; subst. rewrite (cmp_refl _ Ha). apply cmp_refl; auto.
  - intros [a1 b1] [a2 b2]; cbn. rewrite (cmp_opp _ Ha a1 a2). destruct (ca a1 a2); cbn; auto. apply Hb.
  - intros [a1 b1] [a2 b2] [a3 b3]; cbn.
    destruct (ca a1 a2) eqn:E1; try discriminate; intros H1.
    + apply Ha in E1; subst. destruct (ca a2 a3); try discriminate; auto. apply Hb with (1 := H1).
    + destruct (ca a2 a3) eqn:E2; try discriminate; intros H2.
      * apply Ha in E2; subst. rewrite E1; auto.
      * rewrite (cmp_trans _ Ha _ _ _ E1 E2); auto.
Qed.

Definition leq_of {A} (cmp : A -> A -> comparison) x y : Prop := cmp x y <> Gt.

Lemma leq_of_trans {A} cmp (H : @cmp_ok A cmp) x y z : leq_of cmp x y -> leq_of cmp y z -> leq_of cmp x z.
Proof.
  unfold leq_of. intros H1 H2.
  destruct (cmp x y) eqn:E1; try congruence.
  - apply H in E1; subst; auto.
  - destruct (cmp y z) eqn:E2; try congruence.
    + apply H in E2; subst. congruence.
    + rewrite (cmp_trans _ H _ _ _ E1 E2). congruence.
Qed.
Lemma leq_of_refl {A} cmp (H : @cmp_ok A cmp) x : leq_of cmp x x.
Proof. unfold leq_of. rewrite cmp_refl; auto. congruence. Qed.
Lemma leq_of_antisym {A} cmp (H : @cmp_ok A cmp) x y : leq_of cmp x y -> leq_of cmp y x -> x = y.
Proof.
  unfold leq_of. rewrite (cmp_opp _ H x y). destruct (cmp x y) eqn:E; cbn; try congruence.
  intros; apply H; auto.
Qed.
Lemma leq_of_total {A} cmp (H : @cmp_ok A cmp) x y : leq_of cmp x y \/ leq_of cmp y x.
Proof. unfold leq_of. rewrite (cmp_opp _ H x y). destruct (cmp x y); cbn; [left|left|right]; congruence. Qed.

Lemma min_of_spec {A} cmp (H : @cmp_ok A cmp) x xs :
  In (min_of cmp x xs) (x :: xs) /\ (forall y, In y (x :: xs) -> leq_of cmp (min_of cmp x xs) y).
Proof.
  unfold min_of. revert x; induction xs as [|a xs IH]; intros x; cbn.
  - split; auto. intros y [<-|[]]. apply leq_of_refl; auto.
  - destruct (IH (if ltb_of cmp a x then a else x)) as [H1 H2].
    set (m := fold_left _ _ _) in *. unfold ltb_of in *. split.
    + destruct (cmp a x); cbn in H1; tauto.
    + intros y [<-|[<-|Hy]].
      * destruct (cmp a x) eqn:E; try (apply H2; cbn; auto; fail).
        apply leq_of_trans with a; auto. apply H2; cbn; auto. unfold leq_of; congruence.
      * destruct (cmp a x) eqn:E; try (apply H2; cbn; auto; fail).
        -- apply H in E; subst. apply H2; cbn; auto.
        -- apply leq_of_trans with x; auto. apply H2; cbn; auto. unfold leq_of. rewrite (cmp_opp _ H a x), E. cbn; congruence.
      * apply H2; cbn; auto.
Qed.

Lemma min_list_spec {A} cmp (H : @cmp_ok A cmp) l m :
  min_list cmp l = Some m -> In m l /\ (forall y, In y l -> leq_of cmp m y).
Proof. destruct l; cbn; [discriminate|]. intros E; inversion E; subst. apply min_of_spec; auto. Qed.

Lemma min_list_some {A} cmp (l : list A) : l <> [] -> exists m, min_list cmp l = Some m.
Proof. destruct l; [congruence|cbn; eauto]. Qed.

(** [min_list] depends only on the set of elements. *)
Lemma min_list_ext {A} cmp (H : @cmp_ok A cmp) l l' :
  (forall x, In x l <-> In x l') -> min_list cmp l = min_list cmp l'.
Proof.
  intros HE. destruct l as [|a l], l' as [|b l']; auto.
  - exfalso. apply (proj2 (HE b)); cbn; auto.
  - exfalso. apply (proj1 (HE a)); cbn; auto.
  - cbn. f_equal. destruct (min_of_spec cmp H a l) as [H1 H2], (min_of_spec cmp H b l') as [H3 H4].
    apply leq_of_antisym with cmp; auto. apply H2, HE; auto. apply H4, HE; auto.
Qed.

(** sorted *)
Lemma insert_sorted_perm {A} cmp (x : A) l : Permutation (insert_sorted cmp x l) (x :: l).
Proof.
  induction l as [|y l IH]; cbn; auto. destruct (cmp x y); auto.
  rewrite IH. constructor.
Qed.
Lemma sorted_perm {A} cmp (l : list A) : Permutation (sorted cmp l) l.
Proof. induction l; cbn; auto. rewrite insert_sorted_perm. auto. Qed.

Lemma insert_sorted_Sorted {A} cmp (H : @cmp_ok A cmp) x l :
  StronglySorted (leq_of cmp) l -> StronglySorted (leq_of cmp) (insert_sorted cmp x l).
Proof.
  induction 1 as [|y l HS IH HF]; cbn.
  - repeat constructor.
  - destruct (cmp x y) eqn:E.
    + constructor; [constructor; auto|]. apply H in E; subst. constructor; auto. apply leq_of_refl; auto.
    + constructor; [constructor; auto|]. constructor; [unfold leq_of; congruence|].
      rewrite Forall_forall in *. intros z Hz. apply leq_of_trans with y; auto. unfold leq_of; congruence.
    + constructor; auto. rewrite Forall_forall in *. intros z Hz.
      apply (Permutation_in _ (insert_sorted_perm cmp x l)) in Hz. destruct Hz as [<-|Hz]; auto.
      unfold leq_of. rewrite (cmp_opp _ H x y), E. cbn; congruence.
Qed.
Lemma sorted_Sorted {A} cmp (H : @cmp_ok A cmp) l : StronglySorted (leq_of cmp) (sorted cmp l).
Proof. induction l; cbn; [constructor|apply insert_sorted_Sorted; auto]. Qed.

Lemma StronglySorted_perm_eq {A} cmp (H : @cmp_ok A cmp) l l' :
  StronglySorted (leq_of cmp) l -> StronglySorted (leq_of cmp) l' -> Permutation l l' -> l = l'.
Proof.
  intros HS; revert l'; induction HS as [|x l HS IH HF]; intros l' HS' HP.
  - apply Permutation_nil in HP; auto.
  - destruct l' as [|y l']; [apply Permutation_sym, Permutation_nil in HP; discriminate|].
    inversion HS'; subst. rewrite Forall_forall in *.
    assert (x = y).
    { assert (Hx : In x (y :: l')) by (eapply Permutation_in; [eauto|cbn; auto]).
      assert (Hy : In y (x :: l)) by (eapply Permutation_in; [apply Permutation_sym; eauto|cbn; auto]).
      destruct Hx as [->|Hx]; auto. destruct Hy as [->|Hy]; auto.
      apply leq_of_antisym with cmp; auto. }
    subst. f_equal. apply IH; auto. apply Permutation_cons_inv in HP; auto.
Qed.
Lemma sorted_ext {A} cmp (H : @cmp_ok A cmp) l l' : Permutation l l' -> sorted cmp l = sorted cmp l'.
Proof.
  intros HP. apply StronglySorted_perm_eq with cmp; auto using sorted_Sorted.
  rewrite !sorted_perm; auto.
Qed.

(** dedup *)
Definition eqb_ok {A} (eqb : A -> A -> bool) : Prop := forall x y, eqb x y = true <-> x = y.

Lemma memb_In {A} eqb (H : @eqb_ok A eqb) x l : memb eqb x l = true <-> In x l.
Proof.
  unfold memb. rewrite existsb_exists. split.
  - intros (y & Hy & E). apply H in E; subst; auto.
  - intros Hx. exists x; split; auto. apply H; auto.
Qed.
Lemma memb_false {A} eqb (H : @eqb_ok A eqb) x l : memb eqb x l = false <-> ~ In x l.
Proof. rewrite <- (memb_In eqb H). destruct (memb eqb x l); split; congruence. Qed.

Lemma In_dedup_aux {A} eqb (H : @eqb_ok A eqb) seen l x :
  In x (dedup_aux eqb seen l) <-> In x l /\ ~ In x seen.
Proof.
  revert seen; induction l as [|a l IH]; intros seen; cbn; [tauto|].
  destruct (memb eqb a seen) eqn:E.
  - apply memb_In in E; auto. rewrite IH. split.
    + tauto.
    + intros [[<-|Hx] Hn]; [tauto|auto].
  - apply memb_false in E; auto. cbn. rewrite IH. cbn. split.
    + intros [<-|[H1 H2]]; tauto.
    + intros [[<-|Hx] Hn]; auto.
      destruct (eqb a x) eqn:Eax; [apply H in Eax; auto|]. right. split; auto.
      intros [->|]; auto. assert (eqb x x = true) by (apply H; auto). congruence.
Qed.
Lemma In_dedup {A} eqb (H : @eqb_ok A eqb) l x : In x (dedup eqb l) <-> In x l.
Proof. unfold dedup. rewrite In_dedup_aux; auto. cbn; tauto. Qed.
Lemma NoDup_dedup_aux {A} eqb (H : @eqb_ok A eqb) seen l : NoDup (dedup_aux eqb seen l).
Proof.
  revert seen; induction l as [|a l IH]; intros seen; cbn; [constructor|].
  destruct (memb eqb a seen); auto. constructor; auto.
  rewrite In_dedup_aux; auto. cbn. tauto.
Qed.
Lemma NoDup_dedup {A} eqb (H : @eqb_ok A eqb) l : NoDup (dedup eqb l).
Proof. apply NoDup_dedup_aux; auto. Qed.

(** dictionaries *)
Lemma dget_dset {K V} (keqb : K -> K -> bool) (H : eqb_ok keqb) (d : list (K * V)) k v k' :
  dget keqb (dset keqb d k v) k' = if keqb k' k then Some v else dget keqb d k'.
Proof.
  induction d as [|[k0 v0] d IH]; cbn.
  - destruct (keqb k' k); auto.
  - destruct (keqb k k0) eqn:E; cbn.
    + apply H in E; subst. destruct (keqb k' k0); auto.
    + rewrite IH. destruct (keqb k' k0) eqn:E1; auto.
      apply H in E1; subst. destruct (keqb k0 k) eqn:E2; auto. apply H in E2; subst.
      assert (keqb k k = true) by (apply H; auto). congruence.
Qed.
Lemma dget_In {K V} (keqb : K -> K -> bool) (H : eqb_ok keqb) (d : list (K * V)) k v :
  dget keqb d k = Some v -> In (k, v) d.
Proof.
  induction d as [|[k0 v0] d IH]; cbn; [discriminate|].
  destruct (keqb k k0) eqn:E; auto. apply H in E; subst. intros E; inversion E; auto.
Qed.
Lemma In_dget {K V} (keqb : K -> K -> bool) (H : eqb_ok keqb) (d : list (K * V)) k v :
  NoDup (map fst d) -> In (k, v) d -> dget keqb d k = Some v.
Proof.
  induction d as [|[k0 v0] d IH]; cbn; [tauto|]. intros HN [E|Hin].
  - inversion E; subst. assert (keqb k k = true) as -> by (apply H; auto). auto.
  - inversion HN; subst. destruct (keqb k k0) eqn:E; auto.
    apply H in E; subst. exfalso. apply H2. apply (in_map fst) in Hin; auto.
Qed.

(** omap *)
Lemma omap_Some {A B} (f : A -> option B) l l' :
  omap f l = Some l' <-> Forall2 (fun a b => f a = Some b) l l'.
Proof.
  revert l'; induction l as [|a l IH]; intros l'; cbn.
  - split; [intros E; inversion E; constructor|intros E; inversion E; auto].
  - split.
    + destruct (f a) eqn:E1; try discriminate. destruct (omap f l) eqn:E2; try discriminate.
      intros E; inversion E; subst. constructor; auto. apply IH; auto.
    + intros E; inversion E; subst. rewrite H1. apply IH in H3. rewrite H3; auto.
Qed.


Lemma Forall2_nth {A B} (P : A -> B -> Prop) l l' da db :
  Forall2 P l l' <-> length l = length l' /\ (forall i, i < length l -> P (nth i l da) (nth i l' db)).
Proof.
  split.
  - induction 1; cbn; split; auto; try lia.
    intros [|i] Hi; auto. apply IHForall2; lia.
  - revert l'; induction l as [|a l IH]; intros [|b l'] [HL H]; cbn in *; try discriminate; constructor.
    + apply (H 0); lia.
    + apply IH. split; [lia|]. intros i Hi. apply (H (S i)); lia.
Qed.
Lemma Forall_nth_lt {A} (P : A -> Prop) l d :
  Forall P l <-> (forall i, i < length l -> P (nth i l d)).
Proof.
  rewrite Forall_forall. split.
  - intros H i Hi. apply H, nth_In; auto.
  - intros H x Hx. apply In_nth with (d := d) in Hx as (i & Hi & <-). auto.
Qed.
