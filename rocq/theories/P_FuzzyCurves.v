(** Possible curves of a fuzzy curve (C26). *)
From Verif Require Import Py L_Py L_Qc M_BaseMaps S_BaseMaps L_BaseMaps P_Actions P_GenMaps M_Subsets S_Subsets P_Subsets P_Points
  M_Paths M_Utils M_Curves S_Utils L_R P_Utils S_Curves S_Paths S_Fuzzy P_CurveAct L_Digits P_Core P_Bridge P_Paths P_Entrance P_Cont P_Check P_Fuzzy P_FuzzyInit.
From Coq Require Import Reals Lra Lia.
Local Open Scope nat_scope.

(** positions *)
Lemma nth_error_list_prod {A B} (l : list A) (l' : list B) i j a b : nth_error l i = Some a -> nth_error l' j = Some b ->
  nth_error (list_prod l l') (i * length l' + j) = Some (a, b).
Proof.
  revert i. induction l as [|x l IH]; intros i Hi Hj; [destruct i; discriminate|]. cbn [list_prod].
  assert (Hj' : j < length l') by (apply nth_error_Some; congruence).
  destruct i as [|i]; cbn [nth_error] in Hi.
  - inversion Hi; subst. rewrite nth_error_app1 by (rewrite map_length; lia). cbn. rewrite nth_error_map, Hj. auto.
  - rewrite nth_error_app2 by (rewrite map_length; cbn; lia). rewrite map_length. replace (S i * length l' + j - length l') with (i * length l' + j) by (cbn; lia). auto.
Qed.
Lemma nth_error_seq n k : k < n -> nth_error (seq 0 n) k = Some k.
Proof. intros. pose proof (nth_error_seq_map (fun i => i) n k H) as E. rewrite map_id in E. auto. Qed.
Lemma nth_positions m G p k : p < m -> k < G -> nth_error (list_prod (range m) (range G)) (p * G + k) = Some (p, k).
Proof.
  intros Hp Hk. unfold range. rewrite <- (seq_length G 0) at 2. apply nth_error_list_prod; apply nth_error_seq; auto.
Qed.
Lemma length_positions m G : length (list_prod (range m) (range G)) = m * G.
Proof. rewrite prod_length. unfold range. rewrite !seq_length. auto. Qed.
Lemma slice_nth {A} (l : list A) i j k : k < j - i -> nth_error (slice l i j) k = nth_error l (i + k).
Proof.
  intros H. unfold slice. revert i j H. assert (F : forall (l : list A) n k, k < n -> nth_error (firstn n l) k = nth_error l k).
  { clear. induction l as [|a l IH]; intros n k H; [rewrite firstn_nil; auto|]. destruct n; [lia|]. destruct k; cbn; auto. apply IH; lia. }
  intros i j H. rewrite F by auto. clear. revert i. induction l as [|a l IH]; intros i; [rewrite skipn_nil; destruct k, i; auto|].
  destruct i; cbn; auto.
Qed.
Lemma slice_length {A} (l : list A) i j : j <= length l -> length (slice l i j) = j - i.
Proof. intros H. unfold slice. rewrite firstn_length, skipn_length. lia. Qed.
Lemma nth_error_ext {A} (l l' : list A) : (forall i, nth_error l i = nth_error l' i) -> l = l'.
Proof.
  revert l'. induction l as [|a l IH]; intros [|b l'] H; auto; try (specialize (H 0); discriminate).
  f_equal; [specialize (H 0); cbn in H; congruence|]. apply IH. intros i. apply (H (S i)).
Qed.

Section Choice.
Context (c : curve).
Notation G := (cv_genus c). Notation m := (cv_mult c).
Lemma pats_curve_of ss p : nth_error (cv_pats (curve_of_specs c ss)) p =
  option_map (fun pat => Pat (pat_proto pat) (map Some (slice ss (G * p) (G * (p + 1))))) (nth_error (cv_pats c) p).
Proof.
  unfold curve_of_specs. cbn [cv_pats]. rewrite nth_error_map, enumerate_nth_error. destruct (nth_error (cv_pats c) p); auto.
Qed.
Lemma get_spec_curve_of ss p k : length ss = m * G -> p < m -> k < G -> get_spec (curve_of_specs c ss) p k = option_map Some (nth_error ss (p * G + k)).
Proof.
  intros HL Hp Hk. unfold get_spec. rewrite pats_curve_of. destruct (nth_error (cv_pats c) p) eqn:E; [|apply nth_error_None in E; unfold cv_mult in *; lia].
  cbn [option_map pat_specs]. rewrite nth_error_map, slice_nth by lia. do 2 f_equal. lia.
Qed.
Lemma curve_of_inj ss ss' : length ss = m * G -> length ss' = m * G -> curve_of_specs c ss = curve_of_specs c ss' -> ss = ss'.
Proof.
  intros HL HL' E. destruct (Nat.eq_dec G 0) as [HG|HG]; [rewrite HG, Nat.mul_0_r in *; destruct ss, ss'; cbn in *; auto; lia|].
  apply nth_error_ext. intros i. destruct (Nat.lt_ge_cases i (m * G)) as [Hi|Hi].
  - pose proof (Nat.div_mod i G HG) as Ei. pose proof (Nat.mod_upper_bound i G HG) as Hk. set (p := i / G) in *. set (k := i mod G) in *.
    assert (Hp : p < m) by (unfold p; apply Nat.div_lt_upper_bound; lia).
    pose proof (get_spec_curve_of ss p k HL Hp Hk) as A. pose proof (get_spec_curve_of ss' p k HL' Hp Hk) as B. rewrite E in A. rewrite A in B.
    replace i with (p * G + k) by lia. destruct (nth_error ss (p * G + k)), (nth_error ss' (p * G + k)); cbn in B; congruence.
  - rewrite (proj2 (nth_error_None ss i)), (proj2 (nth_error_None ss' i)) by lia. auto.
Qed.
Lemma curve_of_chosen x ss : cv_kind x = KCurve -> cv_dim x = cv_dim c -> cv_div x = cv_div c -> cv_pnum x = cv_pnum c ->
  map pat_proto (cv_pats x) = map pat_proto (cv_pats c) -> Forall (fun pat => length (pat_specs pat) = G) (cv_pats x) -> length ss = m * G ->
  (forall p k, p < m -> k < G -> get_spec x p k = option_map Some (nth_error ss (p * G + k))) -> x = curve_of_specs c ss.
Proof.
  intros E1 E2 E3 E4 E5 HF HL H. destruct x as [xd xn xp xs xk]. cbn [cv_kind cv_dim cv_div cv_pnum cv_pats] in *. unfold curve_of_specs.
  change (Cv xd xn xp xs xk = Cv (cv_dim c) (cv_div c) (cv_pats (curve_of_specs c ss)) (cv_pnum c) KCurve). subst. f_equal.
  apply nth_error_ext. intros p. rewrite pats_curve_of. pose proof (f_equal (fun l => nth_error l p) E5) as EP. cbn in EP. rewrite !nth_error_map in EP.
  destruct (nth_error xp p) as [pat|] eqn:E, (nth_error (cv_pats c) p) as [cp|] eqn:F; cbn in EP; try discriminate; cbn [option_map]; auto. f_equal.
  destruct pat as [pr sp]. cbn in EP. inversion EP; subst pr. f_equal. assert (Hp : p < m) by (unfold cv_mult; apply nth_error_Some; congruence).
  rewrite Forall_forall in HF. pose proof (HF _ (nth_error_In _ _ E)) as Hlen. cbn in Hlen. apply nth_error_ext. intros k.
  assert (Hm : G * (p + 1) <= length ss) by (rewrite HL; nia).
  destruct (Nat.lt_ge_cases k G) as [Hk|Hk].
  - specialize (H p k Hp Hk). unfold get_spec in H. cbn [cv_pats] in H. rewrite E in H. cbn [pat_specs] in H. rewrite H. rewrite nth_error_map, slice_nth by lia. do 2 f_equal; lia.
  - rewrite (proj2 (nth_error_None sp k)) by lia. symmetry. apply nth_error_None. rewrite map_length, slice_length; lia.
Qed.
Context (vs : list (list spec)) (HV : all_variants c = Some vs).
Lemma variant_at p k : p < m -> k < G -> exists l, gen_allowed_specs c p k = Some l /\ nth_error vs (p * G + k) = Some l.
Proof.
  intros Hp Hk. destruct (omap_nth _ _ _ _ _ HV (nth_positions m G p k Hp Hk)) as (l & A & B). eauto.
Qed.
Lemma variants_length : length vs = m * G.
Proof. rewrite (omap_length _ _ _ HV). apply length_positions. Qed.
Lemma possible_exact : exists l, gen_possible_curves c = Some l /\ (forall x, In x l <-> chosen_from c x).
Proof.
  unfold gen_possible_curves. rewrite HV. cbn [option_map]. eexists; split; [reflexivity|]. intros x. rewrite in_map_iff. split.
  - intros (ss & <- & Hss). pose proof (length_lprod_elt _ _ Hss) as HL. rewrite variants_length in HL. apply In_lprod in Hss.
    split; [reflexivity|]. repeat split; try reflexivity.
    + apply nth_error_ext. intros i. rewrite !nth_error_map, pats_curve_of. destruct (nth_error (cv_pats c) i); auto.
    + apply Forall_forall. intros pat Hin. apply In_nth_error in Hin as (p & E). rewrite pats_curve_of in E. destruct (nth_error (cv_pats c) p) eqn:F; [|discriminate].
      inversion E; subst. cbn [pat_specs]. assert (p < m) by (unfold cv_mult; apply nth_error_Some; congruence). rewrite map_length, slice_length; [lia|]. rewrite HL. nia.
    + intros p k Hp Hk. rewrite get_spec_curve_of by auto. destruct (variant_at p k Hp Hk) as (l & A & B).
      assert (Hi : p * G + k < length ss) by (rewrite HL; nia). destruct (nth_error ss (p * G + k)) as [s|] eqn:E; [|apply nth_error_None in E; lia].
      exists s, l. split; auto. split; auto. pose proof (proj1 (Forall2_nth _ _ _ s l) Hss) as [_ H]. specialize (H (p * G + k) Hi).
      rewrite (nth_error_nth _ _ _ E), (nth_error_nth _ _ _ B) in H. auto.
  - intros (E1 & E2 & E3 & E4 & E5 & E6 & H).
    set (dflt := Sp (id_map 0) 0).
    set (ss := map (fun pk => match get_spec x (fst pk) (snd pk) with Some (Some s) => s | _ => dflt end) (list_prod (range m) (range G))).
    assert (Hn : forall p k, p < m -> k < G -> exists s l, get_spec x p k = Some (Some s) /\ nth_error ss (p * G + k) = Some s /\ nth_error vs (p * G + k) = Some l /\ In s l).
    { intros p k Hp Hk. destruct (H p k Hp Hk) as (s & l & A & B & C). destruct (variant_at p k Hp Hk) as (l' & A' & B'). exists s, l'. split; auto.
      unfold ss. rewrite nth_error_map, (nth_positions m G p k Hp Hk). cbn [option_map fst snd]. rewrite A. repeat split; auto. congruence. }
    assert (HL : length ss = m * G) by (unfold ss; rewrite map_length, length_positions; auto).
    exists ss. split.
    + symmetry. apply curve_of_chosen; auto. intros p k Hp Hk. destruct (Hn p k Hp Hk) as (s & l & A & B & _). rewrite A, B. auto.
    + apply In_lprod. apply (proj2 (Forall2_nth _ _ _ dflt [])). rewrite HL, variants_length. split; auto. intros i Hi.
      destruct (Nat.eq_dec G 0) as [HG|HG]; [rewrite HG in Hi; lia|].
      pose proof (Nat.div_mod i G HG) as Ei. pose proof (Nat.mod_upper_bound i G HG) as Hk. set (p := i / G) in *. set (k := i mod G) in *.
      assert (Hp : p < m) by (unfold p; apply Nat.div_lt_upper_bound; lia). destruct (Hn p k Hp Hk) as (s & l & _ & A & B & C).
      replace i with (p * G + k) by lia. rewrite (nth_error_nth _ _ _ A), (nth_error_nth _ _ _ B). auto.
Qed.
Lemma possible_nodup l : gen_possible_curves c = Some l -> (forall p k a, p < m -> k < G -> gen_allowed_specs c p k = Some a -> NoDup a) -> NoDup l.
Proof.
  unfold gen_possible_curves. rewrite HV. cbn [option_map]. intros E HN. inversion E; subst l. apply NoDup_map_inj.
  - intros s s' Hs Hs'. apply length_lprod_elt in Hs, Hs'. rewrite variants_length in *. apply curve_of_inj; auto.
  - apply NoDup_lprod. apply Forall_forall. intros a Ha. apply In_nth_error in Ha as (i & Hi). destruct (omap_nth' _ _ _ _ _ HV Hi) as ([p k] & A & B).
    apply nth_error_In in A. apply in_prod_iff in A. unfold range in A. rewrite !in_seq in A. cbn in B. apply (HN p k); auto; lia.
Qed.
Lemma count_exact l : gen_possible_curves c = Some l -> count_possible_curves c = Some (length l).
Proof.
  unfold gen_possible_curves. rewrite HV. cbn [option_map]. intros E. inversion E; subst l. rewrite map_length, length_lprod.
  unfold count_possible_curves. unfold all_variants in HV. revert HV. generalize (list_prod (range m) (range G)) as L. intros L HV.
  assert (H : forall L vs a, omap (fun pc : nat * nat => gen_allowed_specs c (fst pc) (snd pc)) L = Some vs ->
    fold_left (fun acc pc => obind acc (fun r => option_map (fun l => r * length l) (gen_allowed_specs c (fst pc) (snd pc)))) L (Some a) =
    Some (a * fold_right Nat.mul 1 (map (@length spec) vs))).
  { clear. induction L as [|x L IH]; intros vs a E; cbn in E; [inversion E; cbn; f_equal; lia|].
    destruct (gen_allowed_specs c (fst x) (snd x)) as [l|] eqn:F; [|discriminate]. destruct (omap _ L) as [vs'|] eqn:E'; [|discriminate]. inversion E; subst.
    cbn [fold_left obind]. rewrite F. cbn [option_map]. rewrite (IH vs' _ eq_refl). cbn. f_equal. lia. }
  rewrite (H L vs 1 HV). f_equal. lia.
Qed.
Lemma chosen_valid x : valid_fuzzy c -> (forall p k l s, p < m -> k < G -> gen_allowed_specs c p k = Some l -> In s l -> wf_spec (cv_dim c) m s) ->
  chosen_from c x -> valid_curve x.
Proof.
  intros (H1 & H2 & H3 & _ & HF) HA (E1 & E2 & E3 & E4 & E5 & E6 & H). assert (EM : cv_mult x = m).
  { unfold cv_mult. rewrite <- (map_length pat_proto), E5, map_length. auto. }
  unfold valid_curve. rewrite E2, E3, E4, EM. repeat split; auto. apply Forall_forall. intros pat Hin. apply In_nth_error in Hin as (p & Hp).
  assert (Lp : p < m) by (rewrite <- EM; unfold cv_mult; apply nth_error_Some; congruence). rewrite Forall_forall in E6, HF.
  pose proof (E6 pat (nth_error_In _ _ Hp)) as Hlen. split; [|split; auto].
  - pose proof (f_equal (fun l => nth_error l p) E5) as EP. cbn in EP. rewrite !nth_error_map, Hp in EP.
    destruct (nth_error (cv_pats c) p) as [cp|] eqn:F; [|discriminate]. cbn in EP. inversion EP as [EQ]. rewrite EQ. apply HF. eapply nth_error_In; eauto.
  - apply Forall_forall. intros os Hos. apply In_nth_error in Hos as (k & Hk). assert (Lk : k < G) by (rewrite <- Hlen; apply nth_error_Some; congruence).
    destruct (H p k Lp Lk) as (s & l & A & B & C). unfold get_spec in A. rewrite Hp in A. exists s. split; [congruence|]. apply (HA p k l s Lp Lk B C).
Qed.
End Choice.

(** links of two families of paths with the same first and last cubes and specs *)
Lemma max_arg {A} (f : A -> R) (l : list A) : l <> [] -> exists a, In a l /\ forall b, In b l -> (f b <= f a)%R.
Proof.
  induction l as [|a l IH]; [congruence|]. intros _. destruct l as [|b l].
  - exists a. split; [left; auto|]. intros b [<-|[]]. lra.
  - destruct IH as (x & Hx & H); [congruence|]. destruct (Rle_lt_dec (f a) (f x)).
    + exists x. split; [right; auto|]. intros y [<-|Hy]; auto.
    + exists a. split; [left; auto|]. intros y [<-|Hy]; [lra|]. specialize (H y Hy). lra.
Qed.
Definition side (w : bool) (l : plink) : list Qc := if w then exit l else entrance l.
Lemma side_mul b w l : side w (pl_mul b l) = pt_mul b (side (xorb w (time_rev b)) l).
Proof. unfold pl_mul, lk_mul, side. destruct w, (time_rev b); auto. Qed.
Section Unique.
Context (d N m : nat) (HN : 2 <= N) (P Q : nat -> path (list Qc)) (sp : nat -> bool -> spec).
Context (HP : forall p, p < m -> valid_ppath d (P p)) (HQ : forall p, p < m -> valid_ppath d (Q p)).
Context (HPr : forall p, p < m -> pa_proto (P p) = pa_proto (Q p) /\ pr_div (pa_proto (P p)) = N).
Definition end_num (T : path (list Qc)) (w : bool) : nat := if w then length (pa_links T) - 1 else 0.
Context (HS : forall p w, p < m -> wf_spec d m (sp p w)).
Context (HlP : forall p w, p < m -> nth_error (pa_links (P p)) (end_num (P p) w) = Some (pl_mul (sp_bm (sp p w)) (pa_link (P (sp_pnum (sp p w)))))).
Context (HlQ : forall p w, p < m -> nth_error (pa_links (Q p)) (end_num (Q p) w) = Some (pl_mul (sp_bm (sp p w)) (pa_link (Q (sp_pnum (sp p w)))))).
Definition dist (x : nat * bool * nat) : R :=
  let '(p, w, j) := x in Rabs (qR (nth j (side w (pa_link (P p))) 0%Qc) - qR (nth j (side w (pa_link (Q p))) 0%Qc))%R.
Lemma end_eq T p (w : bool) : (T = P \/ T = Q) -> p < m -> exists c : list Z, length c = d /\ nth_error (pr_cubes (pa_proto (P p))) (if w then length (pr_cubes (pa_proto (P p))) - 1 else 0) = Some (Some c) /\
  forall j, j < d -> qR (nth j (side w (pa_link (T p))) 0%Qc) =
   ((qR (nth j (pt_mul (sp_bm (sp p w)) (side (xorb w (time_rev (sp_bm (sp p w)))) (pa_link (T (sp_pnum (sp p w)))))) 0%Qc) + IZR (nth j c 0%Z)) / INR N)%R.
Proof.
  intros HT Hp. assert (HV : valid_ppath d (T p)) by (destruct HT; subst; auto).
  assert (EP : pa_proto (T p) = pa_proto (P p)) by (destruct HT; subst; auto; symmetry; apply HPr; auto).
  assert (HL : nth_error (pa_links (T p)) (end_num (T p) w) = Some (pl_mul (sp_bm (sp p w)) (pa_link (T (sp_pnum (sp p w)))))) by (destruct HT; subst; auto).
  destruct (ppath_ends d (T p) HV) as (l0 & l1 & c0 & c1 & L0 & L1 & C0 & C1 & D0 & D1 & D2 & D3 & E). rewrite EP in *. destruct (HPr p Hp) as [_ EN]. rewrite EN in E.
  assert (HNq : Nq N <> 0%Qc) by (apply Nq_neq0; lia).
  assert (main : forall l c j, length c = d -> length l = d -> j < d -> qR (nth j (pt_map_to_cube N c l) 0%Qc) = ((qR (nth j l 0%Qc) + IZR (nth j c 0%Z)) / INR N)%R).
  { intros l c j Hc Hl Hj. rewrite nth_pt_map by lia. rewrite qR_mul, qR_inv, qR_add by auto. rewrite qR_Zq. unfold Rdiv. f_equal. f_equal. unfold Nq. rewrite qR_Zq. rewrite INR_IZR_INZ. auto. }
  unfold end_num in HL. destruct w.
  - exists c1. split; auto. split; auto. intros j Hj. rewrite E. cbn [side exit]. rewrite main by (auto; apply D1). rewrite L1 in HL. inversion HL as [HL']. rewrite <- side_mul. rewrite <- HL'. reflexivity.
  - exists c0. split; auto. split; auto. intros j Hj. rewrite E. cbn [side entrance]. rewrite main by (auto; apply D0). rewrite L0 in HL. inversion HL as [HL']. rewrite <- side_mul. rewrite <- HL'. reflexivity.
Qed.
Lemma dist_step p w j : p < m -> j < d -> exists p' w' j', p' < m /\ j' < d /\ (dist (p, w, j) = dist (p', w', j') / INR N)%R.
Proof.
  intros Hp Hj. destruct (HS p w Hp) as [Wb Wp]. set (b := sp_bm (sp p w)) in *.
  exists (sp_pnum (sp p w)), (xorb w (time_rev b)), (fst (nth j (coords b) (0, false))). split; auto. split; [apply (wf_nth_lt d); auto|].
  destruct (end_eq P p w (or_introl eq_refl) Hp) as (c & _ & C1 & E1). destruct (end_eq Q p w (or_intror eq_refl) Hp) as (c' & _ & C2 & E2).
  assert (c' = c) by congruence. subst c'. unfold dist. rewrite E1, E2 by auto. fold b. rewrite !(nth_pt_mul d) by auto. cbv zeta.
  assert (HNr : (0 < INR N)%R) by (apply lt_0_INR; lia). unfold Rdiv. rewrite <- (Rabs_pos_eq (/ INR N)) at 3 by (left; apply Rinv_0_lt_compat; auto). rewrite <- Rabs_mult.
  destruct (snd (nth j (coords b) (0, false))).
  - rewrite !qR_sub, !qR_1. rewrite <- Rabs_Ropp. f_equal. ring.
  - f_equal. ring.
Qed.
Lemma links_unique p : p < m -> pa_link (P p) = pa_link (Q p).
Proof.
  intros Hp. destruct (Nat.eq_dec d 0) as [Hd|Hd].
  - pose proof (ppath_link_dim d _ (HP p Hp)) as [A B]. pose proof (ppath_link_dim d _ (HQ p Hp)) as [A' B']. destruct (pa_link (P p)) as [e x], (pa_link (Q p)) as [e' x'].
    cbn in *. subst d. destruct e, x, e', x'; cbn in *; try lia; auto.
  - set (L := list_prod (list_prod (seq 0 m) [false; true]) (seq 0 d)).
    assert (HI : forall p w j, In (p, w, j) L <-> p < m /\ j < d).
    { intros q w j. unfold L. rewrite !in_prod_iff, !in_seq. split; [lia|]. intros [A B]. repeat split; try lia. destruct w; cbn; auto. }
    destruct (max_arg dist L) as ([[p0 w0] j0] & H0 & HM). { assert (In (p, false, 0) L) by (apply HI; lia). intros E. rewrite E in H. destruct H. }
    assert (HZ : forall q w j, q < m -> j < d -> dist (q, w, j) = 0%R).
    { apply HI in H0 as [Hp0 Hj0]. destruct (dist_step p0 w0 j0 Hp0 Hj0) as (p1 & w1 & j1 & Hp1 & Hj1 & E).
      pose proof (HM (p1, w1, j1) (proj2 (HI p1 w1 j1) (conj Hp1 Hj1))) as M1.
      assert (HNr : (2 <= INR N)%R) by (apply (le_INR 2); auto).
      assert (E' : (dist (p0, w0, j0) * INR N = dist (p1, w1, j1))%R) by (rewrite E; field; lra).
      assert (pos : forall q w j, (0 <= dist (q, w, j))%R) by (intros; apply Rabs_pos).
      pose proof (pos p0 w0 j0). assert (Z0 : dist (p0, w0, j0) = 0%R) by nra.
      intros q w j Hq Hj. pose proof (HM (q, w, j) (proj2 (HI q w j) (conj Hq Hj))). pose proof (pos q w j). lra. }
    pose proof (ppath_link_dim d _ (HP p Hp)) as [A B]. pose proof (ppath_link_dim d _ (HQ p Hp)) as [A' B'].
    assert (S : forall w, side w (pa_link (P p)) = side w (pa_link (Q p))).
    { intros w. apply list_ext_nth with (dflt := 0%Qc); [destruct w; cbn; lia|]. intros j Hj. assert (Hj' : j < d) by (destruct w; cbn in Hj; lia).
      specialize (HZ p w j Hp Hj'). unfold dist in HZ. apply qR_inj. destruct (Req_dec (qR (nth j (side w (pa_link (P p))) 0%Qc) - qR (nth j (side w (pa_link (Q p))) 0%Qc)) 0) as [Z|Z]; [lra|].
      apply Rabs_no_R0 in Z. lra. }
    pose proof (S false) as S0. pose proof (S true) as S1. cbn in S0, S1. destruct (pa_link (P p)), (pa_link (Q p)); cbn in *; congruence.
Qed.
End Unique.
