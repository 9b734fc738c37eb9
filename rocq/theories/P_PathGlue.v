(** The search of paths finds exactly the Hamiltonian paths. *)
From Verif Require Import Py L_Py L_BaseMaps M_BaseMaps M_Subsets M_PathTree S_Subsets S_PathTree P_Facets P_PathTree.
From Coq Require Import Permutation.
Local Open Scope nat_scope.

Lemma In_zrange z n : In z (zrange n) <-> (0 <= z < Z.of_nat n)%Z.
Proof.
  unfold zrange. rewrite in_map_iff. split.
  - intros (i & <- & H). apply in_seq in H. lia.
  - intros H. exists (Z.to_nat z). rewrite in_seq. lia.
Qed.
Lemma all_cubes_In d N c : In c (all_cubes d N) <-> grid_cube d N c.
Proof.
  unfold all_cubes. rewrite In_lprod_rep. unfold grid_cube. rewrite !Forall_forall. split; intros (H1 & H2); split; auto; intros z Hz; apply In_zrange; auto.
Qed.
Lemma NoDup_zrange n : NoDup (zrange n).
Proof. apply NoDup_map_inj; [intros; lia|apply seq_NoDup]. Qed.
Lemma all_cubes_NoDup d N : NoDup (all_cubes d N).
Proof. apply NoDup_lprod_rep, NoDup_zrange. Qed.
Lemma all_cubes_length d N : length (all_cubes d N) = N ^ d.
Proof. unfold all_cubes. rewrite length_lprod_rep. unfold zrange. rewrite map_length, seq_length. auto. Qed.
(** a list of different cubes of the grid, as many as there are *)
Lemma all_visited d N l : NoDup l -> Forall (grid_cube d N) l -> (length l = N ^ d <-> forall c, grid_cube d N c <-> In c l).
Proof.
  intros HN HG. rewrite Forall_forall in HG. split.
  - intros HL c. split; auto. intros H. apply all_cubes_In in H. revert c H.
    apply NoDup_length_incl; auto; [rewrite all_cubes_length; lia|]. intros c H. apply all_cubes_In; auto.
  - intros H. rewrite <- all_cubes_length. apply Permutation_length. apply NoDup_Permutation; auto using all_cubes_NoDup.
    intros c. rewrite all_cubes_In, H. tauto.
Qed.
Lemma tail_support_cons {S} (h : list Z * S) t : NoDup (map fst (h :: t)) -> tail_support (h :: t) = map fst t.
Proof.
  intros H. unfold tail_support, support. cbn [map filter]. assert (z_list_eqb (fst h) (fst h) = true) as -> by (apply z_list_eqb_ok; auto).
  cbn [negb]. cbn in H. inversion H as [|? ? H1 H2]; subst. clear H H2. induction t as [|x t IH]; auto. cbn in *.
  destruct (z_list_eqb (fst x) (fst h)) eqn:E; [apply z_list_eqb_ok in E; tauto|]. cbn. f_equal. apply IH. tauto.
Qed.
Lemma steps_rev {A} (R : A -> A -> Prop) l : steps R (rev l) <-> steps (fun a b => R b a) l.
Proof.
  assert (HS : forall (P : A -> A -> Prop) l x y, steps P (l ++ [x; y]) <-> steps P (l ++ [x]) /\ P x y).
  { intros P k; induction k as [|a k IH]; intros x y; cbn; [tauto|]. destruct k as [|b k]; cbn in *; [tauto|]. rewrite IH. tauto. }
  induction l as [|x l IH]; cbn [rev]; [cbn; tauto|]. destruct l as [|y l]; [cbn; tauto|]. cbn [rev] in *. rewrite <- app_assoc. cbn [app].
  rewrite HS. rewrite IH. cbn. tauto.
Qed.
Lemma steps_app {A} (R : A -> A -> Prop) l x m : steps R (l ++ [x]) -> steps R (x :: m) -> steps R (l ++ x :: m).
Proof.
  intros H1 H2; induction l as [|y l IH]; auto. cbn. destruct l as [|z l]; cbn in *; [tauto|]. tauto.
Qed.
Lemma steps_app_inv {A} (R : A -> A -> Prop) l x m : steps R (l ++ x :: m) -> steps R (l ++ [x]) /\ steps R (x :: m).
Proof.
  induction l as [|y l IH]; cbn [app]; intros H; [split; [exact I|auto]|].
  destruct l as [|z l]; cbn [app] in *.
  - destruct H as (H1 & H2). split; [split; [auto|exact I]|auto].
  - destruct H as (H1 & H2). apply IH in H2. destruct H2 as (H3 & H4). split; [split; auto|auto].
Qed.
Lemma steps_impl {A} (R R' : A -> A -> Prop) l : (forall x y, In x l -> In y l -> R x y -> R' x y) -> steps R l -> steps R' l.
Proof.
  induction l as [|x l IH]; cbn; auto. destruct l as [|y l]; auto. intros HI (H1 & H2). split; [apply HI; cbn; auto|].
  apply IH; auto.
Qed.
Lemma concat_groups {A} (gs : list (list A)) g g' (x : A) : NoDup (concat gs) -> In g gs -> In g' gs -> In x g -> In x g' -> g = g'.
Proof.
  induction gs as [|a gs IH]; cbn; [tauto|]. intros HN H1 H2 H3 H4.
  assert (HD : forall g, In g gs -> In x g -> ~ In x a).
  { intros b Hb Hxb Hxa. clear - HN Hb Hxb Hxa. induction a as [|y a IHa]; [auto|]. cbn in HN. inversion HN; subst.
    destruct Hxa as [->|Hxa]; auto. apply H1. apply in_app_iff. right. apply in_concat. eauto. }
  assert (HN2 : NoDup (concat gs)). { clear - HN. induction a; auto. cbn in HN. inversion HN; auto. }
  destruct H1 as [<-|H1], H2 as [<-|H2]; auto; exfalso; eapply HD; eauto.
Qed.
Lemma NoDup_groups {A} (gs : list (list A)) : NoDup (concat gs) -> Forall (fun g => g <> []) gs -> NoDup gs /\ Forall (@NoDup A) gs.
Proof.
  induction gs as [|a gs IH]; intros HN HF; [split; constructor|]. inversion HF; subst. cbn in HN.
  assert (HN2 : NoDup (concat gs)). { clear - HN. induction a; auto. cbn in HN. inversion HN; auto. }
  destruct IH as (I1 & I2); auto. split.
  - constructor; auto. intros Hin. destruct a as [|x a]; [congruence|]. inversion HN; subst. apply H3. apply in_app_iff; right.
    apply in_concat. eexists; split; [exact Hin|cbn; auto].
  - constructor; auto. clear - HN. induction a; [constructor|]. cbn in HN. inversion HN; subst. constructor; auto. intros H; apply H1, in_app_iff; auto.
Qed.

Lemma nodup_app_l {A} (l m : list A) : NoDup (l ++ m) -> NoDup l.
Proof. induction l as [|x l IH]; cbn; intros H; [constructor|]. inversion H; subst. constructor; auto. rewrite in_app_iff in *. tauto. Qed.
Lemma nodup_app_r {A} (l m : list A) : NoDup (l ++ m) -> NoDup m.
Proof. induction l as [|x l IH]; cbn; auto. intros H. inversion H; subst. auto. Qed.

Lemma app_inv_length {A} (a b c e : list A) : length a = length c -> a ++ b = c ++ e -> a = c /\ b = e.
Proof. revert c; induction a as [|x a IH]; intros [|y c] HL E; cbn in *; try discriminate; auto. injection E as -> E. apply IH in E; [|lia]. destruct E; subst; auto. Qed.

Section Glue.
Context {S : Type} (seqb : S -> S -> bool) (HS : eqb_ok seqb) (hash : future_t S -> Z) (HH : hash_ok hash).
Context (d N : nat) (good : S -> Prop).
Context (f : list Z -> S -> option (list (list Z * S))) (HF : step_ok d N good f).
Context (start finish : list (list Z * S)).

Lemma node_eqb_ok : eqb_ok (node_eqb seqb).
Proof.
  intros [c s] [c' s']. unfold node_eqb. cbn. rewrite andb_true_iff, (z_list_eqb_ok c c'), (HS s s'). split; [intros (-> & ->); auto|intros [= -> ->]; auto].
Qed.
(** A path from its head to a node of [finish], following [f]. *)
Definition ending (p : cpath S) : Prop :=
  (exists x, hd_error (rev p) = Some x /\ In x finish) /\ steps (offers f) p /\
  NoDup (map fst p) /\ Forall (fun x => grid_cube d N (fst x) /\ good (snd x)) p.

(** [mid] (head first) and [fin] meet in their common head *)
Definition meet (mid fin : cpath S) : Prop :=
  exists h t u, mid = h :: t /\ fin = h :: u /\ (forall c, In c (map fst u) -> ~ In c (map fst t)).
Lemma check_glue_meet mid fin : NoDup (map fst mid) -> NoDup (map fst fin) -> (check_glue seqb mid fin = true <-> meet mid fin).
Proof.
  intros HM HN. unfold check_glue, meet. destruct mid as [|h t], fin as [|h' u].
  1-3: split; [discriminate|intros (? & ? & ? & ? & ? & _); discriminate].
  rewrite !tail_support_cons by auto. rewrite andb_true_iff, (node_eqb_ok h h'), negb_true_iff. split.
  - intros (-> & HE). exists h', t, u. split; auto. split; auto. intros c Hc Hc'. apply not_true_iff_false in HE. apply HE.
    apply existsb_exists. exists c. split; auto. apply inset_In; auto.
  - intros (h0 & t0 & u0 & [= -> ->] & [= -> ->] & HD). split; auto. apply not_true_iff_false. rewrite existsb_exists. intros (c & Hc & E).
    apply inset_In in E. exact (HD c Hc E).
Qed.
Lemma meet_covers mid fin : grown d N good f start mid -> ending fin -> meet mid fin -> length mid + length fin = N ^ d + 1 ->
  NoDup (map fst (rev mid ++ tl fin)) /\ (forall c, grid_cube d N c <-> In c (map fst (rev mid ++ tl fin))).
Proof.
  intros (_ & _ & HN1 & HG1) (_ & _ & HN2 & HG2) (h & t & u & -> & -> & HD) HL. cbn [tl].
  assert (HN : NoDup (map fst (rev (h :: t) ++ u))).
  { rewrite map_app, map_rev. apply NoDup_app_intro.
    - apply NoDup_rev; auto.
    - cbn in HN2. inversion HN2; auto.
    - intros c Hc Hc'. apply in_rev in Hc. cbn in Hc. destruct Hc as [<-|Hc]; [|exact (HD c Hc' Hc)]. cbn in HN2. inversion HN2; auto. }
  split; auto. apply (all_visited d N); auto.
  - rewrite Forall_forall in *. intros c Hc. apply in_map_iff in Hc. destruct Hc as (x & <- & Hx). apply in_app_iff in Hx.
    destruct Hx as [Hx|Hx]; [apply in_rev in Hx; apply HG1; auto|apply HG2; cbn; auto].
  - rewrite map_length, app_length, rev_length. cbn in *. lia.
Qed.
Lemma meet_ham mid fin : grown d N good f start mid -> ending fin -> meet mid fin -> length mid + length fin = N ^ d + 1 ->
  hamiltonian d N f start finish (rev mid ++ tl fin).
Proof.
  intros HM HE HMe HL. pose proof (meet_covers _ _ HM HE HMe HL) as (C1 & C2).
  destruct HM as ((x & Ex & Hx) & HS1 & HN1 & HG1), HE as ((y & Ey & Hy) & HS2 & HN2 & HG2), HMe as (h & t & u & -> & -> & HD).
  unfold hamiltonian. cbn [tl] in *. split; [|split; [|split; [|split]]]; auto.
  - exists x. split; auto. destruct (rev (h :: t)); [discriminate|]. auto.
  - exists y. split; auto. rewrite rev_app_distr, rev_involutive. destruct (rev u) eqn:E; cbn in *; rewrite E in Ey; auto.
  - cbn [rev]. rewrite <- app_assoc. cbn [app]. apply steps_app; auto. change (rev t ++ [h]) with (rev (h :: t)). apply steps_rev. auto.
Qed.
Lemma good_forward z : Forall (fun x => grid_cube d N (fst x)) z -> (exists x, hd_error z = Some x /\ good (snd x)) -> steps (offers f) z ->
  Forall (fun x => good (snd x)) z.
Proof.
  intros HG HI HT. destruct z as [|x z]; [constructor|]. destruct HI as (y & [= <-] & HI). revert x HG HI HT.
  induction z as [|y z IH]; intros x HG HI HT; [constructor; auto|]. constructor; auto. inversion HG as [|? ? G1 G2]; subst.
  destruct HT as (HO & HT). apply IH; auto. destruct HO as (l & dl & E & Hin & _).
  destruct (HF _ _ G1 HI) as (l' & E' & _ & HL). rewrite E in E'; injection E' as <-. rewrite Forall_forall in HL. apply HL in Hin. tauto.
Qed.
Lemma ham_meet z m : Forall (fun x => good (snd x)) start -> 1 <= m <= N ^ d -> hamiltonian d N f start finish z ->
  exists mid fin, z = rev mid ++ tl fin /\ grown d N good f start mid /\ ending fin /\ meet mid fin /\
    length mid = N ^ d + 1 - m /\ length fin = m.
Proof.
  intros HGS Hm ((x & Ex & Hx) & (y & Ey & Hy) & HT & HN & HV).
  assert (HGZ : Forall (fun x => grid_cube d N (fst x)) z).
  { rewrite Forall_forall. intros a Ha. apply HV. apply in_map; auto. }
  assert (HL : length z = N ^ d). { rewrite <- (map_length fst). apply (all_visited d N); auto. rewrite Forall_forall in *. intros c Hc. apply HV; auto. }
  assert (HGG : Forall (fun x => good (snd x)) z).
  { apply good_forward; auto. exists x. split; auto. rewrite Forall_forall in HGS. auto. }
  assert (HB : Forall (fun x => grid_cube d N (fst x) /\ good (snd x)) z) by (rewrite Forall_forall in *; auto).
  destruct (skipn (N ^ d - m) z) as [|h u] eqn:EU.
  { pose proof (skipn_length (N ^ d - m) z) as HK. rewrite EU in HK. cbn in HK. lia. }
  pose proof (firstn_skipn (N ^ d - m) z) as EZ. rewrite EU in EZ. set (a := firstn (N ^ d - m) z) in *.
  assert (LA : length a = N ^ d - m) by (unfold a; rewrite firstn_length; lia).
  assert (LU : length (h :: u) = m) by (rewrite <- EU, skipn_length; lia).
  exists (h :: rev a), (h :: u). cbn [tl rev]. rewrite rev_involutive, <- app_assoc. cbn [app]. clearbody a. subst z.
  apply steps_app_inv in HT. destruct HT as (T1 & T2). rewrite Forall_app in HB. destruct HB as (B1 & B2).
  rewrite map_app in HN. assert (NA : NoDup (map fst a)) by (eapply nodup_app_l; eauto).
  assert (NU : NoDup (map fst (h :: u))) by (eapply nodup_app_r; eauto).
  assert (DJ : forall c, In c (map fst (h :: u)) -> ~ In c (map fst a)).
  { intros c Hc Ha. clear - HN Hc Ha. induction a as [|b a IH]; [auto|]. cbn in HN. inversion HN; subst. destruct Ha as [<-|Ha]; auto. apply H1, in_app_iff; auto. }
  split; auto. split; [|split; [|split; [|split]]]; auto.
  - split; [|split; [|split]].
    + exists x. split; auto. cbn [rev]. rewrite rev_involutive. destruct a; auto.
    + apply steps_rev. cbn [rev]. rewrite rev_involutive. auto.
    + cbn. rewrite map_rev. constructor; [|apply NoDup_rev; auto]. rewrite <- in_rev. apply DJ. cbn; auto.
    + inversion B2; subst. constructor; auto. apply Forall_rev. auto.
  - split; [|split; [|split]]; auto. exists y. split; auto. rewrite rev_app_distr in Ey. destruct (rev (h :: u)) eqn:E; auto.
    apply (f_equal (@length _)) in E. rewrite rev_length in E. cbn in *. lia.
  - exists h, (rev a), u. split; auto. split; auto. intros c Hc. rewrite map_rev, <- in_rev. apply DJ. cbn; auto.
  - cbn. rewrite rev_length. cbn in LU. lia.
Qed.

(** two grown paths with the same head and the same set of tail cubes *)
Definition same_future (p q : cpath S) : Prop :=
  exists h t u, p = h :: t /\ q = h :: u /\ (forall c, In c (map fst t) <-> In c (map fst u)).
Lemma same_sym p q : same_future p q -> same_future q p.
Proof. intros (h & t & u & -> & -> & H). exists h, u, t. split; auto. split; auto. intros; symmetry; auto. Qed.
Lemma same_cubes p q : same_future p q -> forall c, In c (map fst p) <-> In c (map fst q).
Proof. intros (h & t & u & -> & -> & H) c. cbn. rewrite H. tauto. Qed.
Lemma swap_grown p q t : same_future p q -> grown d N good f start q -> grown d N good f start (t ++ p) -> grown d N good f start (t ++ q).
Proof.
  intros HSa HQ. assert (HP : p <> [] /\ q <> []) by (destruct HSa as (h & a & b & -> & -> & _); split; congruence).
  induction t as [|x t IH]; cbn [app]; auto. intros H.
  apply grown_cons in H; [|destruct t; cbn; [tauto|congruence]]. destruct H as (G1 & (h & E & HO) & G2 & G3 & G4).
  apply grown_cons; [destruct t; cbn; [tauto|congruence]|]. split; auto. split; [|split; [|split]]; auto.
  - exists h. split; auto. destruct t; auto. cbn in *. destruct HSa as (h' & a & b & -> & -> & _). auto.
  - intros Hin. apply G4. rewrite map_app, in_app_iff in *. rewrite (same_cubes _ _ HSa). auto.
Qed.
Lemma swap_meet p q t fin : t <> [] -> same_future p q -> meet (t ++ p) fin -> meet (t ++ q) fin.
Proof.
  intros HT HSa (h & a & u & E & -> & HD). destruct t as [|x t]; [congruence|]. cbn in E. injection E as -> <-.
  exists h, (t ++ q), u. split; auto. split; auto. intros c Hc. specialize (HD c Hc). rewrite map_app, in_app_iff in *.
  rewrite <- (same_cubes _ _ HSa). auto.
Qed.

Lemma omap_total {A B} (F : A -> option B) (G : A -> B) l : (forall x, In x l -> F x = Some (G x)) -> omap F l = Some (map G l).
Proof. induction l as [|x l IH]; intros H; auto. cbn. rewrite (H x), IH; cbn; auto. intros; apply H; cbn; auto. Qed.
Lemma nodup_map_filter {A B} (F : A -> B) P l : NoDup (map F l) -> NoDup (map F (filter P l)).
Proof.
  induction l as [|x l IH]; cbn; auto. intros H. inversion H as [|? ? H2 H3]; subst. destruct (P x); cbn; auto. constructor; auto.
  intros Hin. apply H2. apply in_map_iff in Hin. destruct Hin as (y & <- & Hy). apply filter_In in Hy. apply in_map. tauto.
Qed.
Lemma flat_map_map_concat {A B} (G : A -> list B) l : concat (map G l) = flat_map G l.
Proof. symmetry. apply flat_map_concat_map. Qed.

Section Group.
Context (n2 k : nat) (fins : list (cpath S)) (FN : NoDup fins) (FI : forall p, In p fins <-> ending p /\ length p = n2).
Context (hps : list (Z * cpath S)).
Context (EH : omap (fun p => option_map (fun f => (hash f, p)) (complement_future (all_cubes d N) p)) fins = Some hps).
Context (g : list (cpath S)) (n1 : nat) (GN : NoDup g) (GG : forall p, In p g -> grown d N good f start p /\ length p = n1).
Context (GS : forall p q, In p g -> In q g -> same_future p q) (G0 : g <> []).
Context (LEN : n1 + Datatypes.S k + n2 = N ^ d + 1).

Lemma hps_snd : map snd hps = fins.
Proof.
  pose proof (proj1 (omap_Some _ _ _) EH) as EQ. clear - EQ. induction EQ as [|p hp l m E H IH]; auto. cbn. rewrite IH. f_equal.
  destruct (complement_future _ p); [|discriminate]. injection E as <-. auto.
Qed.
Lemma hps_In h p : In (h, p) hps <-> In p fins /\ exists fu, complement_future (all_cubes d N) p = Some fu /\ h = hash fu.
Proof.
  pose proof (proj1 (omap_Some _ _ _) EH) as EQ. clear - EQ. revert h p. induction EQ as [|q hp l m E H IH]; intros h p; cbn; [tauto|].
  destruct (complement_future _ q) eqn:EC; [|discriminate]. cbn in E. injection E as <-. rewrite IH. split.
  - intros [[= <- <-]|(H1 & H3)]; [|auto]. split; auto. eauto.
  - intros ([->|H1] & fu & E1 & E2); [left; congruence|right; eauto].
Qed.
Definition fins_of (fu : future_t S) : list (cpath S) := match dget Z.eqb (group_by Z.eqb hps) (hash fu) with Some l => l | None => [] end.
Lemma fins_of_NoDup fu : NoDup (fins_of fu).
Proof.
  unfold fins_of. rewrite group_by_get; [|intros x y; apply Z.eqb_eq]. apply nodup_map_filter. rewrite hps_snd. auto.
Qed.
Lemma fins_of_In mid fu fin : grown d N good f start mid -> length mid = n1 + Datatypes.S k -> future mid = Some fu ->
  (In fin (filter (check_glue seqb mid) (fins_of fu)) <-> In fin fins /\ meet mid fin).
Proof.
  intros HM HL EF. rewrite filter_In. unfold fins_of. rewrite group_by_get; [|intros x y; apply Z.eqb_eq]. rewrite in_map_iff.
  assert (NM : NoDup (map fst mid)) by (destruct HM as (_ & _ & NM & _); auto).
  assert (NF : In fin fins -> NoDup (map fst fin)) by (intros H; apply FI in H; destruct H as ((_ & _ & NF & _) & _); auto).
  split.
  - intros (([h p] & E & Hp) & HC). cbn in E. subst p. apply filter_In in Hp. destruct Hp as (Hp & _). apply hps_In in Hp. destruct Hp as (Hp & _).
    split; auto. apply check_glue_meet; auto.
  - intros (Hfin & HMe). split; [|apply check_glue_meet; auto].
    pose proof (proj1 (FI fin) Hfin) as (HE & HLf).
    pose proof (meet_covers _ _ HM HE HMe ltac:(lia)) as (C1 & C2).
    destruct HMe as (h & t & u & -> & -> & HD).
    exists (hash fu, h :: u). split; auto. apply filter_In. split; [|apply Z.eqb_refl]. apply hps_In. split; auto.
    cbn [complement_future]. eexists; split; [reflexivity|]. unfold future in EF. rewrite tail_support_cons in EF by auto. injection EF as <-.
    apply HH. intros c. rewrite filter_In, all_cubes_In, C2, negb_true_iff, inset_false.
    cbn [tl rev]. unfold support. rewrite !map_app, map_rev, !in_app_iff, <- in_rev. cbn. cbn in C1.
    assert (HhU : ~ In (fst h) (map fst u)) by (specialize (NF Hfin); cbn in NF; inversion NF; auto).
    assert (HhT : ~ In (fst h) (map fst t)) by (cbn in NM; inversion NM; auto).
    split.
    + intros Hc. split; auto. intros [E|Hu]; [subst; tauto|]. exact (HD c Hu Hc).
    + intros ([[Ht|[E|[]]]|Hu] & HX); tauto.
Qed.
Lemma group_spec : exists F r, (forall fuel, F <= fuel -> grow_group seqb hash N f fuel (n1 + Datatypes.S k) (group_by Z.eqb hps) g = Some r) /\ NoDup r /\
  (forall z, In z r <-> exists st t fin, In st g /\ length t = Datatypes.S k /\ grown d N good f start (t ++ st) /\ In fin fins /\ meet (t ++ st) fin /\
                         z = rev (t ++ st) ++ tl fin).
Proof.
  destruct g as [|p0 g'] eqn:EG; [congruence|]. rewrite <- EG in *.
  assert (HP0 : In p0 g) by (rewrite EG; cbn; auto). destruct (GG p0 HP0) as (HG0 & HL0).
  destruct (depth_spec d N good f HF start p0 k HG0) as (F & mids & HD & HND & HDI). rewrite HL0 in HD.
  set (res := fun mid => match future mid with
     | Some fu => flat_map (fun fin => map (fun st => glue_paths st mid fin) g) (filter (check_glue seqb mid) (fins_of fu))
     | None => [] end).
  exists F, (flat_map res mids). split.
  { intros fuel HFu. unfold grow_group. rewrite EG at 1. rewrite HD by auto. rewrite <- flat_map_map_concat.
    rewrite (omap_total _ res); [auto|]. intros mid Hm. apply HDI in Hm. destruct Hm as (t & -> & HL & HG).
    unfold res. destruct (future (t ++ p0)) eqn:E; auto. destruct t; [destruct p0; discriminate|discriminate]. }
  assert (HGL : forall st t fin, In st g -> length t = Datatypes.S k -> glue_paths st (t ++ p0) fin = rev (t ++ st) ++ tl fin).
  { intros st t fin Hst HLt. destruct (GG st Hst) as (_ & HLs). unfold glue_paths, flat. rewrite rev_involutive, !rev_app_distr, <- app_assoc. f_equal.
    rewrite HLs, <- HL0, <- (rev_length p0). rewrite skipn_app, skipn_all, Nat.sub_diag. auto. }
  assert (HR : forall mid z, In mid mids -> (In z (res mid) <-> exists st t fin, mid = t ++ p0 /\ In st g /\ length t = Datatypes.S k /\ In fin fins /\ meet mid fin /\
       z = rev (t ++ st) ++ tl fin)).
  { intros mid z Hm. apply HDI in Hm. destruct Hm as (t & -> & HL & HG). unfold res.
    destruct (future (t ++ p0)) as [fu|] eqn:EF; [|destruct t; discriminate]. rewrite in_flat_map. split.
    - intros (fin & Hf & Hz). apply fins_of_In in Hf; auto; [|rewrite app_length; lia]. apply in_map_iff in Hz. destruct Hz as (st & <- & Hst).
      exists st, t, fin. rewrite HGL by auto. tauto.
    - intros (st & t' & fin & E & Hst & HLt & Hf & HMe & ->). apply app_inv_tail in E. subst t'. exists fin. split.
      + apply fins_of_In; auto. rewrite app_length; lia.
      + apply in_map_iff. exists st. rewrite HGL; auto. }
  assert (HDET : forall st t fin st' t' fin', In st g -> In st' g -> length t = Datatypes.S k -> length t' = Datatypes.S k ->
      rev (t ++ st) ++ tl fin = rev (t' ++ st') ++ tl fin' -> st = st' /\ t = t' /\ tl fin = tl fin').
  { intros st t fin st' t' fin' H1 H3 H4 H5 E. rewrite !rev_app_distr, <- !app_assoc in E.
    pose proof (GG st H1) as (_ & L1). pose proof (GG st' H3) as (_ & L3).
    apply app_inv_length in E; [|rewrite !rev_length; congruence]. destruct E as (E1 & E).
    apply app_inv_length in E; [|rewrite !rev_length; congruence]. destruct E as (E2 & E3).
    split; [apply (f_equal (@rev _)) in E1; rewrite !rev_involutive in E1; auto|]. split; auto.
    apply (f_equal (@rev _)) in E2; rewrite !rev_involutive in E2; auto. }
  split.
  - apply NoDup_flat_map; auto.
    + intros mid Hm. pose proof Hm as Hm2. apply HDI in Hm. destruct Hm as (t & -> & HL & HG). unfold res.
      destruct (future (t ++ p0)) as [fu|] eqn:EF; [|constructor]. apply NoDup_flat_map.
      * apply NoDup_filter, fins_of_NoDup.
      * intros fin _. apply NoDup_map_inj; [|rewrite EG in *; auto]. intros st st' H1 H3. rewrite !HGL by auto. intros E. eapply HDET in E; eauto. tauto.
      * intros fin fin' z Hf Hf' Hz Hz'. apply fins_of_In in Hf, Hf'; auto; try (rewrite app_length; lia).
        apply in_map_iff in Hz, Hz'. destruct Hz as (st & <- & Hst), Hz' as (st' & E & Hst'). rewrite !HGL in E by auto.
        eapply HDET in E; eauto. destruct E as (_ & _ & E). destruct Hf as (_ & h & a & u & Ea & -> & _), Hf' as (_ & h' & a' & u' & Ea' & -> & _).
        cbn in E. congruence.
    + intros mid mid' z Hm Hm' Hz Hz'. apply HR in Hz, Hz'; auto. destruct Hz as (st & t & fin & -> & H1 & H3 & _ & _ & ->), Hz' as (st' & t' & fin' & -> & H1' & H3' & _ & _ & E).
      eapply HDET in E; eauto. destruct E as (_ & -> & _). auto.
  - intros z. rewrite in_flat_map. split.
    + intros (mid & Hm & Hz). pose proof Hm as Hm2. apply HR in Hz; auto. destruct Hz as (st & t & fin & -> & H1 & H3 & H4 & H5 & ->).
      apply HDI in Hm2. destruct Hm2 as (t' & E & HL & HG). apply app_inv_tail in E. subst t'.
      exists st, t, fin. split; auto. split; auto. split; [|split; [|split]]; auto.
      * eapply swap_grown; [apply (GS p0 st); auto|apply GG; auto|auto].
      * eapply swap_meet; [|apply (GS p0 st); auto|auto]. intros ->. discriminate.
    + intros (st & t & fin & H1 & H3 & H4 & H5 & H6 & ->).
      assert (HM : In (t ++ p0) mids). { apply HDI. exists t. split; auto. split; auto. eapply swap_grown; [apply (GS st p0); auto|auto|auto]. }
      exists (t ++ p0). split; auto. apply HR; auto. exists st, t, fin. split; auto. split; auto. split; auto. split; auto. split; auto.
      eapply swap_meet; [|apply (GS st p0); auto|auto]. intros ->. discriminate.
Qed.
End Group.
End Glue.
