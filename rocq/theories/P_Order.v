(** ==, < and hash() of the values of the library. *)
From Verif Require Import Py L_Py L_Qc M_BaseMaps M_Subsets M_Paths M_Curves M_Dilation M_Session M_Order L_BaseMaps P_Subsets S_Order.
From Coq Require Import Lia.
Local Open Scope nat_scope.

Section Ind.
Context (P : pyval -> Prop) (HN : forall q, P (VNum q)) (H0 : P VNone) (HT : forall l, Forall P l -> P (VTuple l)) (HO : forall c l, Forall P l -> P (VObj c l)).
Fixpoint val_ind (a : pyval) : P a :=
  match a with
  | VNum q => HN q
  | VNone => H0
  | VTuple l => HT l ((fix go l : Forall P l := match l with [] => Forall_nil P | x :: l' => Forall_cons x (val_ind x) (go l') end) l)
  | VObj c l => HO c l ((fix go l : Forall P l := match l with [] => Forall_nil P | x :: l' => Forall_cons x (val_ind x) (go l') end) l)
  end.
End Ind.
Lemma class_inj c c' : class_num c = class_num c' -> c = c'. Proof. destruct c, c'; cbn; congruence. Qed.
Lemma qc_eqb_iff x y : qc_eqb x y = true <-> x = y. Proof. unfold qc_eqb. destruct (Qc_eq_dec x y); split; congruence. Qed.
(** what == sees of a value *)
Definition kept (f : pyval -> pyval) : list bool -> list pyval -> list pyval :=
  fix go (mask : list bool) (l : list pyval) {struct l} : list pyval :=
    match l with [] => [] | x :: l' => (if hd false mask then f x else VNone) :: go (tl mask) l' end.
Fixpoint seen (a : pyval) : pyval :=
  match a with VTuple l => VTuple (map seen l) | VObj c l => VObj c (kept seen (eq_mask c) l) | _ => a end.
Lemma py_eq_true a : forall b, py_eq a b = Some true <-> seen a = seen b.
Proof.
  induction a as [q| |l IH|c l IH] using val_ind; intros [q'| |l'|c' l']; cbn; try (split; discriminate).
  - split; [intros E; f_equal; apply qc_eqb_iff; congruence|intros E; injection E as ->; f_equal; apply qc_eqb_iff; auto].
  - split; auto.
  - assert (X : forall l', tuple_eq py_eq l l' = Some true <-> map seen l = map seen l').
    { clear l'. induction IH as [|x l Hx Hl IH]; intros [|y m]; cbn; split; try discriminate; auto.
      - destruct (py_eq x y) as [[|]|] eqn:E; try discriminate. apply Hx in E. intros H. f_equal; auto. apply IH; auto.
      - intros E. injection E as E1 E2. rewrite (proj2 (Hx y) E1). apply IH; auto. }
    rewrite X. split; congruence.
  - destruct (Nat.eqb_spec (class_num c) (class_num c')) as [E|E].
    + apply class_inj in E. subst. generalize (eq_mask c'). intros k.
      assert (X : forall k l', obj_eq py_eq k l l' = Some true <-> kept seen k l = kept seen k l').
      { clear l' k. induction IH as [|x l Hx Hl IH]; intros k [|y m]; cbn; split; try discriminate; auto.
        - destruct (hd false k).
          + destruct (py_eq x y) as [[|]|] eqn:E; try discriminate. apply Hx in E. intros H. f_equal; auto. apply IH; auto.
          + intros H. f_equal. apply IH; auto.
        - destruct (hd false k).
          + intros E. injection E as E1 E2. rewrite (proj2 (Hx y) E1). apply IH; auto.
          + intros E. injection E as E. apply IH; auto. }
      rewrite X. split; congruence.
    + split; [discriminate|intros X; injection X as -> _; congruence].
Qed.
Lemma masks_agree c : hash_mask c = eq_mask c. Proof. destruct c; reflexivity. Qed.
Lemma py_hash_seen hn h0 ht a : forall b, seen a = seen b -> py_hash hn h0 ht a = py_hash hn h0 ht b.
Proof.
  induction a as [q| |l IH|c l IH] using val_ind; intros [q'| |l'|c' l']; cbn; intros E; try discriminate; try congruence.
  - injection E as E. f_equal. revert l' E. induction IH as [|x l Hx Hl IH]; intros [|y m]; cbn; intros E; try discriminate; auto. injection E as E1 E2. f_equal; auto.
  - injection E as -> E. rewrite masks_agree. f_equal. revert l' E. generalize (eq_mask c'). induction IH as [|x l Hx Hl IH]; intros k [|y m]; cbn; intros E; try discriminate; auto.
    destruct (hd false k); injection E as E; [f_equal; auto|auto].
Qed.

(** values compared by == *)
Definition eqs {A} (v : A -> pyval) (eqb : A -> A -> bool) : Prop := forall a b, py_eq (v a) (v b) = Some (eqb a b).
Definition eqs_l {A} (f : A -> list pyval) (eqb : A -> A -> bool) : Prop := forall a b, tuple_eq py_eq (f a) (f b) = Some (eqb a b).
Lemma eqs_nil {A} : eqs_l (fun _ : A => []) (fun _ _ => true). Proof. intros a b. reflexivity. Qed.
Lemma eqs_cons {A} (v : A -> pyval) f e1 e2 : eqs v e1 -> eqs_l f e2 -> eqs_l (fun a => v a :: f a) (fun a b => e1 a b && e2 a b).
Proof. intros H1 H2 a b. cbn. rewrite H1. destruct (e1 a b); cbn; auto. Qed.
Lemma eqs_map {A} (v : A -> pyval) e : eqs v e -> eqs_l (map v) (list_eqb e).
Proof. intros H a. induction a as [|x a IH]; intros [|y b]; cbn; auto. rewrite H. destruct (e x y); cbn; auto. Qed.
Lemma eqs_tuple {A} (f : A -> list pyval) e : eqs_l f e -> eqs (fun a => VTuple (f a)) e. Proof. intros H a b. apply H. Qed.
Lemma eqs_obj {A} c (f g : A -> list pyval) e : (forall a b, obj_eq py_eq (eq_mask c) (f a) (f b) = tuple_eq py_eq (g a) (g b)) -> eqs_l g e -> eqs (fun a => VObj c (f a)) e.
Proof. intros HM H a b. cbn [py_eq]. rewrite Nat.eqb_refl, HM. apply H. Qed.
Lemma eqs_ext {A} (v : A -> pyval) e e' : (forall a b, e a b = e' a b) -> eqs v e -> eqs v e'. Proof. intros H H1 a b. rewrite H1, H. auto. Qed.
Lemma eqs_on {A B} (v : A -> pyval) e (p : B -> A) : eqs v e -> eqs (fun b => v (p b)) (fun x y => e (p x) (p y)). Proof. intros H a b. apply H. Qed.
Lemma Zq_cmp a b : Qccompare (Zq a) (Zq b) = Z.compare a b.
Proof.
  assert (X : forall z, this (Zq z) = inject_Z z) by (intros z; change (Qred (inject_Z z) = inject_Z z); apply Qred_identity; cbn; apply Z.gcd_1_r).
  unfold Qccompare. rewrite !X. unfold Qcompare. cbn. rewrite !Z.mul_1_r. auto.
Qed.
Lemma Zq_inj a b : Zq a = Zq b -> a = b.
Proof. intros H. apply Z.compare_eq. rewrite <- Zq_cmp, H, Zq_cmp. apply Z.compare_refl. Qed.
Lemma eqs_num : eqs VNum qc_eqb. Proof. intros a b. reflexivity. Qed.
Lemma eqs_int : eqs v_int Z.eqb.
Proof. intros a b. cbn. f_equal. destruct (Z.eqb_spec a b) as [->|H]; [apply qc_eqb_iff; auto|]. destruct (qc_eqb (Zq a) (Zq b)) eqn:E; auto. apply qc_eqb_iff, Zq_inj in E. congruence. Qed.
Lemma eqs_nat : eqs v_nat Nat.eqb.
Proof. intros a b. unfold v_nat. rewrite eqs_int. f_equal. destruct (Nat.eqb_spec a b) as [->|H]; [apply Z.eqb_refl|apply Z.eqb_neq; lia]. Qed.
Lemma eqs_bool : eqs v_bool Bool.eqb. Proof. intros [|] [|]; reflexivity. Qed.

(** values compared by < too *)
Definition is_eq (c : comparison) : bool := match c with Eq => true | _ => false end.
Definition is_lt (c : comparison) : bool := match c with Lt => true | _ => false end.
Definition ords {A} (P : A -> Prop) (v : A -> pyval) (cmp : A -> A -> comparison) : Prop :=
  forall a b, P a -> P b -> py_eq (v a) (v b) = Some (is_eq (cmp a b)) /\ py_lt (v a) (v b) = Some (is_lt (cmp a b)).
Definition ords_l {A} (P : A -> Prop) (f : A -> list pyval) (cmp : A -> A -> comparison) : Prop :=
  forall a b, P a -> P b -> tuple_eq py_eq (f a) (f b) = Some (is_eq (cmp a b)) /\ tuple_lt py_lt (f a) (f b) = Some (is_lt (cmp a b)).
Lemma ords_nil {A} P : ords_l P (fun _ : A => []) (fun _ _ => Eq). Proof. intros a b _ _. split; reflexivity. Qed.
Lemma ords_cons {A} P (v : A -> pyval) f c1 c2 : ords P v c1 -> ords_l P f c2 -> ords_l P (fun a => v a :: f a) (fun a b => match c1 a b with Eq => c2 a b | r => r end).
Proof. intros H1 H2 a b Pa Pb. destruct (H1 a b Pa Pb) as [E L]. destruct (H2 a b Pa Pb) as [E2 L2]. cbn. rewrite E, L. destruct (c1 a b); cbn; auto. Qed.
Lemma ords_map {A} P (v : A -> pyval) c : ords P v c -> ords_l (Forall P) (map v) (lex c).
Proof.
  intros H a b Pa. revert b. induction Pa as [|x a Hx Ha IH]; intros [|y b] Pb; cbn; auto. inversion Pb; subst. destruct (H x y) as [E L]; auto. rewrite E, L.
  destruct (c x y); cbn; auto.
Qed.
Lemma ords_tuple {A} P (f : A -> list pyval) c : ords_l P f c -> ords P (fun a => VTuple (f a)) c. Proof. intros H a b Pa Pb. apply (H a b Pa Pb). Qed.
Lemma ords_obj {A} P k (f : A -> list pyval) c : has_lt k = true -> (forall a b, obj_eq py_eq (eq_mask k) (f a) (f b) = tuple_eq py_eq (f a) (f b)) ->
  (forall a b, obj_lt py_lt (lt_mask k) (f a) (f b) = tuple_lt py_lt (f a) (f b)) -> ords_l P f c -> ords P (fun a => VObj k (f a)) c.
Proof. intros Hk HE HL H a b Pa Pb. cbn [py_eq py_lt]. rewrite Nat.eqb_refl, Hk, HE, HL. apply (H a b Pa Pb). Qed.
Lemma ords_ext {A} (P Q : A -> Prop) (v : A -> pyval) c c' : (forall a, Q a -> P a) -> (forall a b, c a b = c' a b) -> ords P v c -> ords Q v c'.
Proof. intros HP H H1 a b Pa Pb. rewrite <- H. auto. Qed.
Lemma ords_on {A B} P (v : A -> pyval) c (p : B -> A) : ords P v c -> ords (fun b => P (p b)) (fun b => v (p b)) (fun x y => c (p x) (p y)). Proof. intros H a b Pa Pb. apply H; auto. Qed.
Lemma ords_num : ords (fun _ => True) VNum Qccompare.
Proof.
  intros a b _ _. cbn. split; [f_equal|unfold ltb_of, is_lt; destruct (Qccompare a b); auto].
  destruct (qc_eqb a b) eqn:X; [apply qc_eqb_iff in X; subst; rewrite (cmp_refl _ Qccompare_ok); auto|].
  destruct (Qccompare a b) eqn:E; auto. apply (cmp_eq _ Qccompare_ok) in E. subst. rewrite (proj2 (qc_eqb_iff b b) eq_refl) in X. discriminate.
Qed.
Lemma ords_int : ords (fun _ => True) v_int Z.compare.
Proof. intros a b _ _. unfold v_int. destruct (ords_num (Zq a) (Zq b) I I) as [E L]. rewrite E, L, Zq_cmp. auto. Qed.
Lemma ords_nat : ords (fun _ => True) v_nat Nat.compare.
Proof. intros a b _ _. unfold v_nat. destruct (ords_int (Z.of_nat a) (Z.of_nat b) I I) as [E L]. rewrite E, L, Nat2Z.inj_compare. auto. Qed.
Lemma ords_list {A} (v : A -> pyval) c : ords (fun _ => True) v c -> ords (fun _ => True) (v_tuple v) (lex c).
Proof. intros H. apply (ords_ext (Forall (fun _ => True)) _ _ (lex c)); auto; [intros a _; apply Forall_forall; auto|]. apply ords_tuple, ords_map. auto. Qed.
Lemma ords_point : ords (fun _ => True) v_point pt_cmp. Proof. apply ords_list, ords_num. Qed.
Lemma ords_cube : ords (fun _ => True) v_cube (lex Z.compare). Proof. apply ords_list, ords_int. Qed.
Lemma ords_facet : ords (fun _ => True) v_facet fs_cmp.
Proof.
  unfold v_facet. eapply ords_ext; [| |apply ords_obj; [reflexivity|reflexivity|reflexivity|]; apply ords_cons; [apply (ords_on _ _ _ fs_dim ords_nat)|]; apply ords_cons; [apply (ords_on _ _ _ fs_div ords_nat)|]; apply ords_cons;
    [apply ords_tuple; apply ords_cons; [apply (ords_on _ _ _ (fun s => fst (fs_facet s)) ords_nat)|apply ords_cons; [apply (ords_on _ _ _ (fun s => snd (fs_facet s)) ords_int)|apply ords_nil]]|];
    apply ords_cons; [apply (ords_on _ _ _ fs_cubes (ords_list v_cube _ ords_cube))|apply ords_nil]].
  - auto.
  - intros a b. unfold fs_cmp, lex2; cbn [fst snd]. destruct (Nat.compare (fs_dim a) (fs_dim b)); auto. destruct (Nat.compare (fs_div a) (fs_div b)); auto.
    destruct (Nat.compare _ _); auto. destruct (Z.compare _ _); auto. destruct (lex _ _ _); auto.
Qed.
Lemma ords_link {T} (v : T -> pyval) c : ords (fun _ => True) v c -> ords (fun _ => True) (v_link v) (lk_cmp c).
Proof.
  intros H. unfold v_link. eapply ords_ext; [| |apply ords_obj; [reflexivity|reflexivity|reflexivity|]; apply ords_cons; [apply (ords_on _ _ _ entrance H)|]; apply ords_cons; [apply (ords_on _ _ _ exit H)|apply ords_nil]].
  - auto.
  - intros a b. unfold lk_cmp, lex2; cbn [fst snd]. destruct (c _ _); auto. destruct (c _ _); auto.
Qed.
Lemma ords_proto : ords full_proto v_proto pr_cmp.
Proof.
  apply (ords_ext full_proto _ _ pr_cmp); auto. unfold v_proto, v_tuple, full_proto.
  assert (X : ords (fun c => c <> None) (fun c => match c with Some c => v_cube c | None => VNone end) ocube_cmp).
  { intros [a|] [b|] Ha Hb; try congruence. apply ords_cube; auto. }
  intros a b Pa Pb. apply (ords_map _ _ _ X); auto.
Qed.
Lemma ords_path {T} (v : T -> pyval) (O : subset_ops T) : ords (fun _ => True) v (so_cmp O) -> ords (fun p => full_proto (pa_proto p)) (v_path v) (pa_cmp O).
Proof.
  intros H. unfold v_path. pose proof (ords_link v _ H) as HL.
  assert (H1 : ords (fun p => full_proto (pa_proto p)) (fun p => v_link v (pa_link p)) (fun p q => lk_cmp (so_cmp O) (pa_link p) (pa_link q))) by (intros a b _ _; apply HL; auto).
  assert (H2 : ords (fun p => full_proto (pa_proto p)) (fun p => v_tuple (v_link v) (pa_links p)) (fun p q => lex (lk_cmp (so_cmp O)) (pa_links p) (pa_links q))) by (intros a b _ _; apply (ords_list _ _ HL); auto).
  eapply ords_ext; [| |apply ords_obj; [reflexivity|reflexivity|reflexivity|]; apply ords_cons; [apply H1|apply ords_cons; [apply (ords_on _ _ _ pa_proto ords_proto)|]; apply ords_cons; [apply H2|apply ords_nil]]]; [auto|].
  intros a b. unfold pa_cmp, lex2; cbn [fst snd]. destruct (lk_cmp _ _ _); auto. destruct (pr_cmp _ _); auto. destruct (lex _ _ _); auto.
Qed.

Lemma ords_total {A} P (v : A -> pyval) cmp : (forall a b c, cmp a b = Lt -> cmp b c = Lt -> cmp a c = Lt) -> (forall a b, cmp b a = CompOpp (cmp a b)) -> ords P v cmp ->
  totally_ordered (fun w => exists a, P a /\ w = v a).
Proof.
  intros HT HO H. constructor.
  - intros x y (a & Pa & ->) (b & Pb & ->). destruct (H a b Pa Pb) as [E L]. destruct (H b a Pb Pa) as [_ L']. rewrite E, L, L', (HO a b). unfold exactly_one. destruct (cmp a b); cbn; auto 10.
  - intros x y z (a & Pa & ->) (b & Pb & ->) (c & Pc & ->) H1 H2. destruct (H a b Pa Pb) as [_ L1]. destruct (H b c Pb Pc) as [_ L2]. destruct (H a c Pa Pc) as [_ L3].
    rewrite L1 in H1. rewrite L2 in H2. rewrite L3. assert (X : cmp a c = Lt); [|rewrite X; auto].
    apply (HT a b c); [destruct (cmp a b); cbn in H1; congruence|destruct (cmp b c); cbn in H2; congruence].
Qed.

(** == of the model is == of Python *)
Lemma eqs_list {A} (v : A -> pyval) e : eqs v e -> eqs (v_tuple v) (list_eqb e). Proof. intros H. apply eqs_tuple, eqs_map, H. Qed.
Lemma eqs_point : eqs v_point pt_eqb. Proof. apply eqs_list, eqs_num. Qed.
Lemma eqs_cube : eqs v_cube z_list_eqb. Proof. apply eqs_list, eqs_int. Qed.
Lemma eqs_key : eqs_l bm_key bm_eqb.
Proof.
  intros a b. unfold bm_key, bm_eqb. cbn [tuple_eq].
  assert (X : eqs (v_tuple (fun kb : nat * bool => VTuple [v_nat (fst kb); v_bool (snd kb)])) (list_eqb coord_eqb)).
  { apply eqs_list. intros x y. cbn [py_eq tuple_eq]. unfold coord_eqb. rewrite (eqs_nat (fst x) (fst y)), (eqs_bool (snd x) (snd y)). destruct (Nat.eqb _ _); cbn; auto. destruct (Bool.eqb _ _); auto. }
  rewrite (X (coords a) (coords b)), (eqs_bool (time_rev a) (time_rev b)). destruct (list_eqb _ _ _); cbn; auto. destruct (Bool.eqb _ _); auto.
Qed.
Lemma eqs_bm : eqs v_bm bm_eqb. Proof. unfold v_bm. apply eqs_obj with (g := bm_key); [reflexivity|apply eqs_key]. Qed.
Lemma eqs_spec : eqs v_spec spec_eqb.
Proof.
  unfold v_spec. apply eqs_obj with (g := fun s => [VTuple (bm_key (sp_bm s)); v_nat (sp_pnum s)]); [reflexivity|]. intros a b. cbn [tuple_eq]. change (py_eq (VTuple (bm_key (sp_bm a))) (VTuple (bm_key (sp_bm b)))) with (tuple_eq py_eq (bm_key (sp_bm a)) (bm_key (sp_bm b))).
  rewrite eqs_key, eqs_nat. unfold spec_eqb. destruct (bm_eqb _ _); cbn; auto. destruct (Nat.eqb _ _); auto.
Qed.
Lemma eqs_facet : eqs v_facet fs_eqb.
Proof.
  unfold v_facet. apply eqs_obj with (g := fun s => [v_nat (fs_dim s); v_nat (fs_div s); VTuple [v_nat (fst (fs_facet s)); v_int (snd (fs_facet s))]; v_tuple v_cube (fs_cubes s)]); [reflexivity|]. intros a b. cbn [tuple_eq]. rewrite !eqs_nat, (eqs_list _ _ eqs_cube (fs_cubes a) (fs_cubes b)).
  unfold fs_eqb, facet_eqb. destruct (Nat.eqb (fs_dim a) _); cbn [andb]; auto. destruct (Nat.eqb (fs_div a) _); cbn [andb]; auto.
  cbn [py_eq tuple_eq]. rewrite (eqs_nat (fst _)), (eqs_int (snd _)). destruct (Nat.eqb _ _); cbn [andb]; auto. destruct (Z.eqb _ _); cbn [andb]; auto. destruct (list_eqb _ _ _); auto.
Qed.
Lemma eqs_link {T} (v : T -> pyval) e : eqs v e -> eqs (v_link v) (lk_eqb e).
Proof. intros H. unfold v_link. apply eqs_obj with (g := fun l => [v (entrance l); v (exit l)]); [reflexivity|]. intros a b. cbn [tuple_eq]. rewrite !H. unfold lk_eqb. destruct (e _ _); cbn; auto. destruct (e _ _); auto. Qed.
Lemma eqs_proto : eqs v_proto pr_eqb.
Proof.
  assert (X : eqs (fun c => match c with Some c => v_cube c | None => VNone end) ocube_eqb) by (intros [a|] [b|]; try reflexivity; apply eqs_cube).
  intros a b. apply (eqs_list _ _ X).
Qed.
Lemma eqs_path {T} (v : T -> pyval) (O : subset_ops T) : eqs v (so_eqb O) -> eqs (v_path v) (pa_eqb O).
Proof.
  intros H. pose proof (eqs_link v _ H) as HL. unfold v_path. apply eqs_obj with (g := fun p => [v_link v (pa_link p); v_proto (pa_proto p); v_tuple (v_link v) (pa_links p)]); [reflexivity|]. intros a b. cbn [tuple_eq]. rewrite HL, eqs_proto, (eqs_list _ _ HL (pa_links a) (pa_links b)).
  unfold pa_eqb. destruct (lk_eqb _ _ _); cbn; auto. destruct (pr_eqb _ _); cbn; auto. destruct (list_eqb _ _ _); auto.
Qed.
Lemma eqs_junction : eqs v_junction junc_eqb.
Proof.
  unfold v_junction. apply eqs_obj with (g := fun j => [v_tuple v_int (j_dx j); v_int (j_dt j); v_spec (j_spec1 j); v_spec (j_spec2 j)]); [reflexivity|]. intros a b. cbn [tuple_eq]. rewrite (eqs_list _ _ eqs_int (j_dx a) (j_dx b)), eqs_int, !eqs_spec. unfold junc_eqb, z_list_eqb.
  destruct (list_eqb _ _ _); cbn; auto. destruct (Z.eqb _ _); cbn; auto. destruct (spec_eqb _ _); cbn; auto. destruct (spec_eqb _ _); auto.
Qed.
Lemma eqs_position : eqs v_position pos_eqb.
Proof.
  unfold v_position. apply eqs_obj with (g := fun p => [v_tuple v_nat (po_cnums p); v_tuple v_cube (po_cubes p); v_nat (po_div p); v_nat (po_dim p)]); [reflexivity|]. intros a b. cbn [tuple_eq]. rewrite (eqs_list _ _ eqs_nat (po_cnums a) (po_cnums b)), (eqs_list _ _ eqs_cube (po_cubes a) (po_cubes b)), !eqs_nat. unfold pos_eqb.
  destruct (list_eqb Nat.eqb _ _); cbn; auto. destruct (list_eqb _ _ _); cbn; auto. destruct (Nat.eqb _ _); cbn; auto. destruct (Nat.eqb _ _); auto.
Qed.
Lemma eqs_equality {A} (v : A -> pyval) e : eqs v e -> equality (fun w => exists a, w = v a).
Proof.
  intros H. constructor.
  - intros x y (a & ->) (b & ->). rewrite H. discriminate.
  - intros x _. apply py_eq_true. auto.
  - intros x y _ _ E. apply py_eq_true. apply py_eq_true in E. auto.
  - intros x y z _ _ _ E1 E2. apply py_eq_true in E1, E2. apply py_eq_true. congruence.
Qed.
Lemma lex_less_iff {A} (cmp : A -> A -> comparison) (lt : A -> A -> Prop) : (forall x y, cmp x y = Eq <-> x = y) -> (forall x y, cmp x y = Lt <-> lt x y) ->
  forall p q, lex cmp p q = Lt <-> lex_less lt p q.
Proof.
  intros HE HL. induction p as [|x p IH]; intros [|y q]; cbn.
  - split; [discriminate|]. intros (k & _ & [(x & y & H & _)|[H1 H2]]); [destruct k; discriminate|cbn in *; lia].
  - split; auto. intros _. exists 0. split; auto. right. cbn. lia.
  - split; [discriminate|]. intros (k & _ & [(u & w & _ & H & _)|[H1 H2]]); [destruct k; discriminate|cbn in *; lia].
  - split.
    + destruct (cmp x y) eqn:E; try discriminate.
      * apply HE in E. subst. intros H. apply IH in H as (k & H1 & H2). exists (S k). cbn. split; [f_equal; auto|].
        destruct H2 as [H2|[H2 H3]]; [left; exact H2|right; split; lia].
      * intros _. apply HL in E. exists 0. split; auto. left. exists x, y. auto.
    + intros (k & H1 & H2). destruct k as [|k].
      * destruct H2 as [(u & w & X & Y & H)|[X _]]; [|discriminate]. cbn in X, Y. injection X as <-. injection Y as <-. apply HL in H. rewrite H. auto.
      * cbn in H1. injection H1 as <- H1. rewrite (proj2 (HE x x) Logic.eq_refl). apply IH. exists k. split; auto. destruct H2 as [H2|[H2 H3]]; [left; exact H2|right; cbn in *; split; lia].
Qed.

(** the orders are the lexicographic ones *)
Lemma pair_less_iff {A B} c1 c2 (l1 : A -> A -> Prop) (l2 : B -> B -> Prop) : (forall x y, c1 x y = Eq <-> x = y) -> (forall x y, c1 x y = Lt <-> l1 x y) -> (forall x y, c2 x y = Lt <-> l2 x y) ->
  forall p q, lex2 c1 c2 p q = Lt <-> pair_less l1 l2 p q.
Proof.
  intros HE H1 H2 p q. unfold lex2, pair_less. rewrite <- H1, <- H2, <- HE. destruct (c1 _ _); split; intros H; auto; try discriminate; try (destruct H as [H|[H ?]]; congruence).
Qed.
Lemma pt_less_iff p q : pt_cmp p q = Lt <-> point_less p q.
Proof. apply lex_less_iff; [apply (cmp_eq _ Qccompare_ok)|]. intros x y. symmetry. apply Qclt_alt. Qed.
Lemma cube_less_iff p q : lex Z.compare p q = Lt <-> cube_less p q.
Proof. apply lex_less_iff; [apply Z.compare_eq_iff|]. intros x y. apply Z.compare_lt_iff. Qed.
Lemma fs_less_iff s t : fs_cmp s t = Lt <-> facet_less s t.
Proof.
  unfold fs_cmp, facet_less. pose proof (cmp_eq _ nat_cmp_ok) as N. pose proof (cmp_eq _ Z_cmp_ok) as Z0.
  assert (NL : forall x y, Nat.compare x y = Lt <-> Nat.lt x y) by (intros; apply Nat.compare_lt_iff).
  apply pair_less_iff; auto. apply pair_less_iff; auto. apply pair_less_iff; auto.
  - apply (cmp_eq _ (lex2_ok _ _ nat_cmp_ok Z_cmp_ok)).
  - apply pair_less_iff; auto. intros; apply Z.compare_lt_iff.
  - apply lex_less_iff; [apply (cmp_eq _ (lex_ok _ Z_cmp_ok))|apply cube_less_iff].
Qed.
Lemma lk_less_iff {T} cmp (less : T -> T -> Prop) : cmp_ok cmp -> (forall x y, cmp x y = Lt <-> less x y) -> forall a b, lk_cmp cmp a b = Lt <-> link_less less a b.
Proof. intros HO H a b. unfold lk_cmp, link_less. apply pair_less_iff; auto. apply (cmp_eq _ HO). Qed.
Lemma fs_cmp_ok : cmp_ok fs_cmp.
Proof.
  pose proof (lex2_ok _ _ nat_cmp_ok (lex2_ok _ _ nat_cmp_ok (lex2_ok _ _ (lex2_ok _ _ nat_cmp_ok Z_cmp_ok) (lex_ok _ (lex_ok _ Z_cmp_ok))))) as H.
  unfold fs_cmp. constructor.
  - intros x y. rewrite (cmp_eq _ H). destruct x, y; cbn. split; congruence.
  - intros x y. apply (cmp_opp _ H).
  - intros x y z. apply (cmp_trans _ H).
Qed.
Lemma ocube_ok : cmp_ok ocube_cmp.
Proof.
  pose proof (lex_ok _ Z_cmp_ok) as H. constructor.
  - intros [x|] [y|]; cbn; try (split; congruence). rewrite (cmp_eq _ H). split; congruence.
  - intros [x|] [y|]; cbn; auto. apply (cmp_opp _ H).
  - intros [x|] [y|] [z|]; cbn; auto; try discriminate. apply (cmp_trans _ H).
Qed.
Lemma pa_flat_ok {T} (O : subset_ops T) : cmp_ok (so_cmp O) -> cmp_ok (lex2 (lk_cmp (so_cmp O)) (lex2 (lex ocube_cmp) (lex (lk_cmp (so_cmp O))))).
Proof. intros H. apply lex2_ok; [apply lk_cmp_ok; auto|]. apply lex2_ok; [apply lex_ok, ocube_ok|apply lex_ok, lk_cmp_ok; auto]. Qed.
Lemma pa_trans {T} (O : subset_ops T) : cmp_ok (so_cmp O) -> forall a b c, pa_cmp O a b = Lt -> pa_cmp O b c = Lt -> pa_cmp O a c = Lt.
Proof. intros H a b c H1 H2. apply (cmp_trans _ (pa_flat_ok O H) (pa_link a, (pr_cubes (pa_proto a), pa_links a)) (pa_link b, (pr_cubes (pa_proto b), pa_links b)) (pa_link c, (pr_cubes (pa_proto c), pa_links c))); auto. Qed.
Lemma pa_opp {T} (O : subset_ops T) : cmp_ok (so_cmp O) -> forall a b, pa_cmp O b a = CompOpp (pa_cmp O a b).
Proof. intros H a b. apply (cmp_opp _ (pa_flat_ok O H) (pa_link a, (pr_cubes (pa_proto a), pa_links a)) (pa_link b, (pr_cubes (pa_proto b), pa_links b))). Qed.
Lemma lex_known p : forall q, Forall (fun c => c <> None) p -> Forall (fun c => c <> None) q -> lex ocube_cmp p q = Lt <-> lex_less known_less p q.
Proof.
  intros q Hp Hq. rewrite (lex_less_iff ocube_cmp (fun x y => ocube_cmp x y = Lt) (cmp_eq _ ocube_ok)); [|tauto].
  assert (X : forall l k x, Forall (fun c : option (list Z) => c <> None) l -> nth_error l k = Some x -> x <> None) by (intros l k x Hl E; apply nth_error_In in E; rewrite Forall_forall in Hl; auto).
  unfold lex_less. split; intros (k & H1 & H2); exists k; split; auto; destruct H2 as [(x & y & E1 & E2 & L)|H2]; auto; left; exists x, y; repeat split; auto.
  - pose proof (X _ _ _ Hp E1). pose proof (X _ _ _ Hq E2). destruct x as [x|], y as [y|]; try congruence. exists x, y. repeat split; auto. apply cube_less_iff. auto.
  - destruct L as (u & w & -> & -> & L). apply cube_less_iff. auto.
Qed.
Lemma pa_less_iff {T} (O : subset_ops T) less : cmp_ok (so_cmp O) -> (forall x y, so_cmp O x y = Lt <-> less x y) ->
  forall p q, full_proto (pa_proto p) -> full_proto (pa_proto q) -> pa_cmp O p q = Lt <-> path_less less p q.
Proof.
  intros HO H p q Hp Hq. pose proof (lk_cmp_ok _ HO) as HK. pose proof (lk_less_iff _ _ HO H) as HL.
  change (lex2 (lk_cmp (so_cmp O)) (lex2 (lex ocube_cmp) (lex (lk_cmp (so_cmp O)))) (pa_link p, (pr_cubes (pa_proto p), pa_links p)) (pa_link q, (pr_cubes (pa_proto q), pa_links q)) = Lt <-> path_less less p q).
  unfold path_less, lex2, pair_less; cbn [fst snd]. rewrite <- HL, <- (cmp_eq _ HK), <- (lex_known _ _ Hp Hq), <- (cmp_eq _ (lex_ok _ ocube_ok)), <- (lex_less_iff _ _ (cmp_eq _ HK) HL).
  destruct (lk_cmp _ _ _); [|intuition congruence..]. destruct (lex ocube_cmp _ _); intuition congruence.
Qed.
Lemma ords_less {A} P (v : A -> pyval) cmp (less : A -> A -> Prop) : ords P v cmp -> (forall a b, P a -> P b -> cmp a b = Lt <-> less a b) ->
  forall a b, P a -> P b -> py_lt (v a) (v b) = Some true <-> less a b.
Proof. intros H HL a b Pa Pb. rewrite (proj2 (H a b Pa Pb)), <- HL by auto. destruct (cmp a b); cbn; split; congruence. Qed.

(** what is compared *)
Definition decides {A} (e : A -> A -> bool) : Prop := forall a b, e a b = true <-> a = b.
Lemma dec_list {A} (e : A -> A -> bool) : decides e -> decides (list_eqb e).
Proof.
  intros H a. induction a as [|x a IH]; intros [|y b]; cbn; split; try discriminate; auto.
  - intros E. apply andb_true_iff in E as [E1 E2]. apply H in E1. apply IH in E2. congruence.
  - intros E. injection E as <- <-. apply andb_true_iff. split; [apply H; auto|apply IH; auto].
Qed.
Lemma dec_point : decides pt_eqb. Proof. apply dec_list. intros a b. apply qc_eqb_iff. Qed.
Lemma dec_z : decides z_list_eqb. Proof. apply dec_list. intros a b. apply Z.eqb_eq. Qed.
Lemma dec_bm : decides bm_eqb.
Proof.
  assert (X : decides coord_eqb).
  { intros [a b] [c d]. unfold coord_eqb; cbn. rewrite andb_true_iff, Nat.eqb_eq, Bool.eqb_true_iff. split; [intros [-> ->]; auto|intros E; injection E; auto]. }
  intros [a b] [c d]. unfold bm_eqb; cbn. rewrite andb_true_iff, (dec_list _ X a c), Bool.eqb_true_iff. split; [intros [-> ->]; auto|intros E; injection E; auto].
Qed.
Lemma dec_spec : decides spec_eqb.
Proof. intros [a b] [c d]. unfold spec_eqb; cbn. rewrite andb_true_iff, (dec_bm a c), Nat.eqb_eq. split; [intros [-> ->]; auto|intros E; injection E; auto]. Qed.
Lemma dec_facet : decides fs_eqb.
Proof.
  intros [a b [u w] d] [a' b' [u' w'] d']. unfold fs_eqb, facet_eqb; cbn. rewrite !andb_true_iff, !Nat.eqb_eq, Z.eqb_eq, (dec_list _ dec_z d d').
  split; [intros [[[-> ->] [-> ->]] ->]; auto|intros E; injection E; intuition].
Qed.
Lemma dec_link {T} (e : T -> T -> bool) : decides e -> decides (lk_eqb e).
Proof. intros H [a b] [c d]. unfold lk_eqb; cbn. rewrite andb_true_iff, (H a c), (H b d). split; [intros [-> ->]; auto|intros E; injection E; auto]. Qed.
Lemma dec_proto p q : pr_eqb p q = true <-> pr_cubes p = pr_cubes q.
Proof. apply dec_list. intros [a|] [b|]; cbn; try (split; discriminate); [|tauto]. rewrite (dec_z a b). split; congruence. Qed.
Lemma dec_path {T} (O : subset_ops T) : decides (so_eqb O) -> forall p q, pa_eqb O p q = true <-> pa_link p = pa_link q /\ pr_cubes (pa_proto p) = pr_cubes (pa_proto q) /\ pa_links p = pa_links q.
Proof. intros H p q. unfold pa_eqb. rewrite !andb_true_iff, (dec_link _ H (pa_link p) (pa_link q)), dec_proto, (dec_list _ (dec_link _ H) (pa_links p) (pa_links q)). tauto. Qed.
Lemma dec_junction a b : junc_eqb a b = true <-> j_dx a = j_dx b /\ j_dt a = j_dt b /\ j_spec1 a = j_spec1 b /\ j_spec2 a = j_spec2 b.
Proof. unfold junc_eqb. rewrite !andb_true_iff, (dec_z (j_dx a) (j_dx b)), Z.eqb_eq, (dec_spec (j_spec1 a) (j_spec1 b)), (dec_spec (j_spec2 a) (j_spec2 b)). tauto. Qed.
Lemma dec_position : decides pos_eqb.
Proof.
  assert (X : decides Nat.eqb) by (intros a b; apply Nat.eqb_eq).
  intros [a b c d] [a' b' c' d']. unfold pos_eqb; cbn. rewrite !andb_true_iff, !Nat.eqb_eq, (dec_list _ X c c'), (dec_list _ dec_z d d'). split; [intros [[[? ?] ?] ?]; congruence|intros E; injection E; intuition].
Qed.
Lemma eqs_iff {A} (v : A -> pyval) e : eqs v e -> forall a b, py_eq (v a) (v b) = Some true <-> e a b = true.
Proof. intros H a b. rewrite H. split; congruence. Qed.
