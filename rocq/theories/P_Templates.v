(** Junction templates, part 1: specifying many positions, the list of templates. *)
From Verif Require Import Py L_Py L_Qc M_BaseMaps S_BaseMaps L_BaseMaps P_Actions P_GenMaps M_Subsets S_Subsets P_Subsets P_Points
  M_Paths M_Utils M_Curves S_Utils S_Curves S_Paths S_Fuzzy P_Combi P_CurveAct P_Core P_Bridge P_Paths P_Entrance P_Cont P_Check P_Subdiv P_Fuzzy P_FuzzyInit P_FuzzyCurves P_FuzzyMain P_FuzzyOps P_FuzzyBuilt.
From Coq Require Import Lia.
Local Open Scope nat_scope.

Lemma pc_eqb_ok : eqb_ok pc_eqb.
Proof. intros [a b] [a' b']. unfold pc_eqb. cbn. rewrite andb_true_iff, !Nat.eqb_eq. split; [intros [-> ->]; auto|intros E; injection E; auto]. Qed.
Lemma dget_some_key {K V} (keqb : K -> K -> bool) (H : eqb_ok keqb) (D : list (K * V)) k : In k (map fst D) <-> dget keqb D k <> None.
Proof.
  induction D as [|[k0 v0] D IH]; cbn; [split; [tauto|congruence]|]. destruct (keqb k k0) eqn:E.
  - apply H in E. subst. split; auto. discriminate.
  - rewrite <- IH. split; [intros [->|]; auto|auto]. assert (keqb k k = true) by (apply H; auto). congruence.
Qed.
Definition lookup2 (D : list (nat * list (nat * spec))) (p k : nat) : option spec :=
  match dget Nat.eqb D p with Some u => dget Nat.eqb u k | None => None end.

Lemma set_specs_ok upds : forall specs, NoDup (map fst upds) -> Forall (fun cs => fst cs < length specs) upds ->
  exists l, set_specs specs upds = Some l /\ length l = length specs /\
    forall i, nth_error l i = match dget Nat.eqb upds i with Some s => Some (Some s) | None => nth_error specs i end.
Proof.
  induction upds as [|[k s] upds IH]; intros specs HN HF; [exists specs; auto|]. inversion HN; subst. inversion HF; subst. cbn [fst] in *.
  unfold set_specs. cbn [fold_left obind fst snd]. destruct (Nat.ltb_spec k (length specs)); [|lia].
  destruct (IH (upd k (Some s) specs)) as (l & E1 & E2 & E3); auto. { eapply Forall_impl; [|exact H4]. intros a. rewrite length_upd. auto. }
  exists l. split; auto. rewrite length_upd in E2. split; auto. intros i. rewrite E3. cbn [dget]. rewrite nth_error_upd. destruct (Nat.eqb_spec i k).
  - subst i. rewrite Nat.eqb_refl. destruct (dget Nat.eqb upds k) eqn:EG; [|destruct (Nat.ltb_spec k (length specs)); [auto|lia]].
    exfalso. apply H1. apply (dget_some_key _ nat_eqb_ok). congruence.
  - destruct (dget Nat.eqb upds i); auto. destruct (Nat.eqb_spec k i); [lia|auto].
Qed.
Definition same_frame (c c' : curve) : Prop :=
  cv_kind c' = cv_kind c /\ cv_dim c' = cv_dim c /\ cv_div c' = cv_div c /\ cv_pnum c' = cv_pnum c /\
  map pat_proto (cv_pats c') = map pat_proto (cv_pats c) /\ map (fun pat => length (pat_specs pat)) (cv_pats c') = map (fun pat => length (pat_specs pat)) (cv_pats c).
Lemma specify_allowed_ok D : forall c, NoDup (map fst D) ->
  (forall p u, In (p, u) D -> NoDup (map fst u) /\ exists pat, nth_error (cv_pats c) p = Some pat /\ Forall (fun cs => fst cs < length (pat_specs pat)) u) ->
  exists c', specify_allowed c D = Some c' /\ same_frame c c' /\
    forall p k, get_spec c' p k = match lookup2 D p k with Some s => Some (Some s) | None => get_spec c p k end.
Proof.
  induction D as [|[p u] D IH]; intros c HN HD.
  - exists c. split; [destruct c; reflexivity|]. split; [repeat split|]. intros. reflexivity.
  - cbn [map fst] in HN. inversion HN as [|? ? HNI HN']; subst. destruct (HD p u (or_introl eq_refl)) as (HU & pat & EP & HF).
    destruct (set_specs_ok u (pat_specs pat) HU HF) as (l & E1 & E2 & E3).
    assert (Hp : p < length (cv_pats c)) by (apply nth_error_Some; congruence).
    set (c1 := cv_with_pats c (upd p (Pat (pat_proto pat) l) (cv_pats c))).
    assert (N1 : forall q, nth_error (cv_pats c1) q = if Nat.eqb p q then Some (Pat (pat_proto pat) l) else nth_error (cv_pats c) q).
    { intros q. unfold c1, cv_with_pats. cbn [cv_pats]. rewrite nth_error_upd. destruct (Nat.eqb_spec p q); auto. destruct (Nat.ltb_spec p (length (cv_pats c))); [auto|lia]. }
    destruct (IH c1 HN') as (c' & F1 & F2 & F3).
    { intros q v Hin. destruct (HD q v (or_intror Hin)) as (G1 & pat' & G2 & G3). split; auto. exists pat'. split; auto. rewrite N1.
      destruct (Nat.eqb_spec p q); auto. subst q. exfalso. apply HNI. apply (in_map fst) in Hin. exact Hin. }
    exists c'. split.
    + unfold specify_allowed in *. cbn [fold_left obind fst snd]. rewrite EP, E1. cbn [option_map]. unfold c1 in F1.
      change (cv_pats (cv_with_pats c (upd p (Pat (pat_proto pat) l) (cv_pats c)))) with (upd p (Pat (pat_proto pat) l) (cv_pats c)) in F1.
      destruct (fold_left _ D (Some (upd p (Pat (pat_proto pat) l) (cv_pats c)))) as [ps|]; [|discriminate]. cbn [option_map] in *. rewrite <- F1. destruct c; reflexivity.
    + destruct F2 as (S1 & S2 & S3 & S4 & S5 & S6). split.
      * repeat split; auto.
        -- rewrite S5. apply nth_error_ext. intros i. rewrite !nth_error_map, N1. destruct (Nat.eqb_spec p i); auto. subst i. rewrite EP. auto.
        -- rewrite S6. apply nth_error_ext. intros i. rewrite !nth_error_map, N1. destruct (Nat.eqb_spec p i); auto. subst i. rewrite EP. cbn. rewrite E2. auto.
      * intros q k. rewrite F3. unfold lookup2 at 2. cbn [dget]. destruct (Nat.eqb_spec q p).
        -- subst q. assert (dget Nat.eqb D p = None) as Hn.
           { destruct (dget Nat.eqb D p) eqn:EE; auto. exfalso. apply HNI. apply (dget_some_key _ nat_eqb_ok). congruence. }
           unfold lookup2. rewrite Hn. unfold get_spec. rewrite N1, Nat.eqb_refl, EP. cbn [pat_specs]. apply E3.
        -- fold (lookup2 D q k). unfold get_spec. rewrite N1. destruct (Nat.eqb_spec p q); [lia|auto].
Qed.

(** spec_dict_of *)
Definition dict_step (d : list (nat * list (nat * spec))) (x : nat * nat * spec) :=
  let p := fst (fst x) in
  let cur := match dget Nat.eqb d p with Some l => l | None => [] end in
  dset Nat.eqb d p (dset Nat.eqb cur (snd (fst x)) (snd x)).
Definition dict_ok (D : list (nat * list (nat * spec))) : Prop := NoDup (map fst D) /\ forall p u, In (p, u) D -> NoDup (map fst u).
Lemma dict_step_ok D x : dict_ok D -> dict_ok (dict_step D x) /\
  forall p k, lookup2 (dict_step D x) p k = if pc_eqb (p, k) (fst x) then Some (snd x) else lookup2 D p k.
Proof.
  destruct x as [[p0 k0] s]. intros [H1 H2]. unfold dict_step. cbn [fst snd]. set (cur := match dget Nat.eqb D p0 with Some l => l | None => [] end).
  assert (HC : NoDup (map fst cur)).
  { unfold cur. destruct (dget Nat.eqb D p0) eqn:E; [|constructor]. apply (H2 p0). apply (dget_In _ nat_eqb_ok); auto. }
  split; [split|].
  - apply (dset_NoDup _ nat_eqb_ok); auto.
  - intros p u Hin. apply (dset_In _ nat_eqb_ok) in Hin as [E|Hin]; [|apply (H2 p); auto]. injection E as -> ->. apply (dset_NoDup _ nat_eqb_ok); auto.
  - intros p k. unfold lookup2. rewrite (dget_dset _ nat_eqb_ok). unfold pc_eqb. cbn [fst snd]. destruct (Nat.eqb_spec p p0); cbn [andb]; auto. subst p.
    rewrite (dget_dset _ nat_eqb_ok). destruct (Nat.eqb_spec k k0); auto. unfold cur. destruct (dget Nat.eqb D p0); auto.
Qed.
Lemma spec_dict_ok T : NoDup (map fst T) -> dict_ok (spec_dict_of T) /\ forall p k, lookup2 (spec_dict_of T) p k = dget pc_eqb T (p, k).
Proof.
  intros HN. unfold spec_dict_of.
  assert (H : forall T D, NoDup (map fst T) -> dict_ok D -> dict_ok (fold_left dict_step T D) /\
     forall p k, lookup2 (fold_left dict_step T D) p k = match dget pc_eqb T (p, k) with Some s => Some s | None => lookup2 D p k end).
  { clear. induction T as [|[pc s] T IH]; intros D HN HD; [cbn; auto|]. cbn [map fst] in HN. inversion HN; subst. cbn [fold_left]. destruct (dict_step_ok D (pc, s) HD) as [A B].
    destruct (IH _ H2 A) as [C E]. split; auto. intros p k. rewrite E, B. cbn [fst snd dget]. destruct (pc_eqb (p, k) pc) eqn:EE.
    - apply pc_eqb_ok in EE. subst pc. destruct (dget pc_eqb T (p, k)) eqn:EG; auto. exfalso. apply H1. apply (dget_some_key _ pc_eqb_ok). congruence.
    - auto. }
  destruct (H T [] HN) as [A B]; [split; [constructor|intros p u []]|]. split; [exact A|]. intros p k. etransitivity; [apply B|]. unfold lookup2. cbn. destruct (dget pc_eqb T (p, k)); auto.
Qed.
Lemma specify_template c T : NoDup (map fst T) -> Forall (fun pat => length (pat_specs pat) = cv_genus c) (cv_pats c) ->
  (forall p k s, dget pc_eqb T (p, k) = Some s -> p < cv_mult c /\ k < cv_genus c) ->
  exists c', specify_allowed c (spec_dict_of T) = Some c' /\ same_frame c c' /\
    forall p k, get_spec c' p k = match dget pc_eqb T (p, k) with Some s => Some (Some s) | None => get_spec c p k end.
Proof.
  intros HN HL HR. destruct (spec_dict_ok T HN) as [[D1 D2] D3]. destruct (specify_allowed_ok (spec_dict_of T) c D1) as (c' & E1 & E2 & E3).
  - intros p u Hin. split; [apply (D2 p u); auto|]. pose proof (D2 p u Hin) as HU. apply (In_dget _ nat_eqb_ok) in Hin; auto.
    assert (X : forall k s, In (k, s) u -> p < cv_mult c /\ k < cv_genus c).
    { intros k s Hks. apply (HR p k s). rewrite <- D3. unfold lookup2. rewrite Hin. apply (In_dget _ nat_eqb_ok); auto. }
    destruct u as [|[k s] u].
    + (* every entry is created with a spec *)
      exfalso. assert (Y : forall T D, (forall p', dget Nat.eqb D p' <> Some []) -> forall p', dget Nat.eqb (fold_left dict_step T D) p' <> Some []).
      { clear. induction T as [|x T IH]; intros D HD p'; cbn [fold_left]; auto. apply IH. intros q. unfold dict_step. rewrite (dget_dset _ nat_eqb_ok).
        destruct (Nat.eqb q (fst (fst x))); auto. intros E. injection E as E. destruct (match dget Nat.eqb D (fst (fst x)) with Some l => l | None => [] end) as [|[a b] l]; cbn in E; [discriminate|].
        destruct (Nat.eqb (snd (fst x)) a); discriminate. }
      apply (Y T [] ltac:(cbn; discriminate) p). exact Hin.
    + destruct (X k s (or_introl eq_refl)) as [Hp _]. destruct (nth_error (cv_pats c) p) as [pat|] eqn:EP; [|apply nth_error_None in EP; unfold cv_mult in Hp; lia].
      exists pat. split; auto. rewrite Forall_forall in HL. rewrite (HL pat) by (eapply nth_error_In; eauto). apply Forall_forall. intros [k' s'] Hks. cbn. apply (X k' s'); auto.
  - exists c'. split; auto. split; auto. intros p k. rewrite E3, D3. auto.
Qed.

(** gates *)
Lemma gates_ok G (HG : 2 <= G) : forall r n variant D, length variant = 2 * r -> NoDup (map fst D) ->
  NoDup (map fst (gate_specs_of G n variant D)) /\
  forall p k, dget pc_eqb (gate_specs_of G n variant D) (p, k) =
    if (n <=? p) && (p <? n + r) then if k =? 0 then nth_error variant (2 * (p - n)) else if k =? G - 1 then nth_error variant (2 * (p - n) + 1) else dget pc_eqb D (p, k)
    else dget pc_eqb D (p, k).
Proof.
  induction r as [|r IH]; intros n variant D HL HN.
  - destruct variant; [|discriminate]. cbn [gate_specs_of]. split; auto. intros p k. destruct (Nat.leb_spec n p), (Nat.ltb_spec p (n + 0)); cbn; auto. lia.
  - destruct variant as [|s0 [|s1 rest]]; try (cbn in HL; lia). cbn [gate_specs_of]. destruct (IH (S n) rest (dset pc_eqb (dset pc_eqb D (n, 0) s0) (n, G - 1) s1)) as [A B].
    { cbn in HL. lia. } { apply (dset_NoDup _ pc_eqb_ok), (dset_NoDup _ pc_eqb_ok); auto. }
    split; auto. intros p k. rewrite B. rewrite !(dget_dset _ pc_eqb_ok). unfold pc_eqb. cbn [fst snd].
    destruct (Nat.leb_spec (S n) p), (Nat.ltb_spec p (S n + r)), (Nat.leb_spec n p), (Nat.ltb_spec p (n + S r)); cbn [andb]; try lia.
    + replace (2 * (p - n)) with (S (S (2 * (p - S n)))) by lia. replace (S (S (2 * (p - S n))) + 1) with (S (S (2 * (p - S n) + 1))) by lia. cbn [nth_error].
      destruct (Nat.eqb_spec p n); [lia|]. cbn [andb]. auto.
    + destruct (Nat.eqb_spec p n); [lia|]. auto.
    + assert (p = n) by lia. subst p. rewrite Nat.eqb_refl. cbn [andb]. rewrite Nat.sub_diag. cbn [Nat.mul Nat.add nth_error].
      destruct (Nat.eqb_spec k 0), (Nat.eqb_spec k (G - 1)); auto; lia.
    + destruct (Nat.eqb_spec p n); [lia|]. auto.
Qed.

Section Tmpl.
Context (c : curve).
Notation G := (cv_genus c). Notation m := (cv_mult c).
Context (HG2 : 2 <= G) (HA : forall p k, p < m -> k < G -> exists l, gen_allowed_specs c p k = Some l /\ l <> []).
Context (HLEN : Forall (fun pat => length (pat_specs pat) = cv_genus c) (cv_pats c)).
Definition gate_pos : list (nat * nat) := flat_map (fun p => [(p, 0); (p, G - 1)]) (range m).
Lemma gate_pos_nth p : p < m -> nth_error gate_pos (2 * p) = Some (p, 0) /\ nth_error gate_pos (2 * p + 1) = Some (p, G - 1).
Proof.
  unfold gate_pos, range. generalize m as M. intros M. assert (H : forall M n p, p < M -> nth_error (flat_map (fun p => [(p, 0); (p, G - 1)]) (seq n M)) (2 * p) = Some (n + p, 0) /\
    nth_error (flat_map (fun p => [(p, 0); (p, G - 1)]) (seq n M)) (2 * p + 1) = Some (n + p, G - 1)).
  { clear. induction M as [|M IH]; intros n p Hp; [lia|]. cbn [seq flat_map app]. destruct p as [|p].
    - cbn. rewrite Nat.add_0_r. auto.
    - replace (2 * S p) with (S (S (2 * p))) by lia. cbn [nth_error Nat.add]. destruct (IH (S n) p) as [A B]; [lia|]. rewrite A. replace (S (S (2 * p) + 1)) with (S (S (2 * p + 1))) by lia.
      cbn [nth_error] in *. rewrite B. replace (S n + p) with (n + S p) by lia. auto. }
  intros Hp. apply (H M 0 p Hp).
Qed.
Lemma gate_pos_length : length gate_pos = 2 * m.
Proof.
  unfold gate_pos, range. assert (H : forall l : list nat, length (flat_map (fun p => [(p, 0); (p, G - 1)]) l) = 2 * length l) by (induction l; cbn; auto; lia).
  rewrite H, seq_length. auto.
Qed.
Lemma gate_pos_in pc : In pc gate_pos -> fst pc < m /\ (snd pc = 0 \/ snd pc = G - 1).
Proof. unfold gate_pos. rewrite in_flat_map. intros (p & Hp & H). unfold range in Hp. apply in_seq in Hp. destruct H as [<-|[<-|[]]]; cbn; split; auto; lia. Qed.

Definition is_template (t : nat * nat * list (nat * nat * spec)) : Prop :=
  let p := fst (fst t) in let k := snd (fst t) in let T := snd t in
  p < m /\ k + 1 < G /\ NoDup (map fst T) /\
  (forall q j s, dget pc_eqb T (q, j) = Some s -> q < m /\ j < G /\ exists l, gen_allowed_specs c q j = Some l /\ In s l) /\
  (forall q, q < m -> dget pc_eqb T (q, 0) <> None /\ dget pc_eqb T (q, G - 1) <> None) /\
  dget pc_eqb T (p, k) <> None /\ dget pc_eqb T (p, k + 1) <> None.
Definition inner (gates : list (nat * nat * spec)) (pc : nat * nat) : option (list (nat * nat * list (nat * nat * spec))) :=
  let pc2 := (fst pc, snd pc + 1) in
  match gen_allowed_specs c (fst pc) (snd pc), gen_allowed_specs c (fst pc2) (snd pc2) with
  | Some l1, Some l2 =>
      Some (flat_map (fun sp : spec * spec =>
         if gate_clash gates pc (fst sp) || gate_clash gates pc2 (snd sp) then []
         else [(pc, dset pc_eqb (dset pc_eqb gates pc (fst sp)) pc2 (snd sp))]) (list_prod l1 l2))
  | _, _ => None
  end.
Lemma in_pk' p k : In (p, k) (list_prod (range m) (range (G - 1))) <-> p < m /\ k + 1 < G.
Proof. rewrite in_prod_iff. unfold range. rewrite !in_seq. lia. Qed.
Lemma templates_total : exists ts, templates_of c = Some ts.
Proof.
  unfold templates_of. fold gate_pos. destruct (omap_some_all (fun pc => gen_allowed_specs c (fst pc) (snd pc)) gate_pos) as (vs & ->).
  { intros pc Hin. apply gate_pos_in in Hin as [A B]. destruct (HA (fst pc) (snd pc)) as (l & E & _); eauto. lia. }
  match goal with |- context[omap ?f (lprod vs)] => destruct (omap_some_all f (lprod vs)) as (r & ->); [|cbn; eauto] end.
  intros v _. destruct (omap_some_all (inner (gate_specs_of G 0 v [])) (list_prod (range m) (range (G - 1)))) as (r & E); [|exists (concat r); fold (inner (gate_specs_of G 0 v [])) ; rewrite E; reflexivity].
  intros [p k] Hin. apply in_pk' in Hin as [Hp Hk]. unfold inner. cbn [fst snd]. destruct (HA p k) as (l1 & -> & _); [auto|lia|]. destruct (HA p (k + 1)) as (l2 & -> & _); eauto.
Qed.
Context (ts : list (nat * nat * list (nat * nat * spec))) (HT : templates_of c = Some ts).
Lemma templates_in t : In t ts <-> exists variant, length variant = 2 * m /\
   (forall q, q < m -> exists s0 s1 l0 l1, nth_error variant (2 * q) = Some s0 /\ nth_error variant (2 * q + 1) = Some s1 /\
      gen_allowed_specs c q 0 = Some l0 /\ gen_allowed_specs c q (G - 1) = Some l1 /\ In s0 l0 /\ In s1 l1) /\
   exists p k l1 l2 s1 s2, p < m /\ k + 1 < G /\ gen_allowed_specs c p k = Some l1 /\ gen_allowed_specs c p (k + 1) = Some l2 /\ In s1 l1 /\ In s2 l2 /\
     let gates := gate_specs_of G 0 variant [] in
     gate_clash gates (p, k) s1 = false /\ gate_clash gates (p, k + 1) s2 = false /\
     t = ((p, k), dset pc_eqb (dset pc_eqb gates (p, k) s1) (p, k + 1) s2).
Proof.
  unfold templates_of in HT. fold gate_pos in HT. destruct (omap (fun pc => gen_allowed_specs c (fst pc) (snd pc)) gate_pos) as [vs|] eqn:EV; [|discriminate].
  match type of HT with option_map _ (omap ?f _) = _ => set (F := f) in HT end. destruct (omap F (lprod vs)) as [r|] eqn:ER; [|discriminate]. cbn in HT. injection HT as <-.
  assert (EF : forall v, F v = option_map (@concat _) (omap (inner (gate_specs_of G 0 v [])) (list_prod (range m) (range (G - 1))))) by reflexivity.
  assert (LV : length vs = 2 * m) by (rewrite (omap_length _ _ _ EV); apply gate_pos_length).
  rewrite in_concat. split.
  - intros (tl & Htl & Ht). apply In_nth_error in Htl as (i & Hi). destruct (omap_nth' _ _ _ _ _ ER Hi) as (v & Hv & E). apply nth_error_In in Hv. pose proof (length_lprod_elt _ _ Hv) as HL. apply In_lprod in Hv.
    exists v. split; [congruence|]. split.
    + intros q Hq. destruct (gate_pos_nth q Hq) as [P0 P1]. destruct (omap_nth _ _ _ _ _ EV P0) as (l0 & A0 & B0). destruct (omap_nth _ _ _ _ _ EV P1) as (l1 & A1 & B1). cbn [fst snd] in B0, B1.
      destruct (nth_error v (2 * q)) as [s0|] eqn:E0; [|apply nth_error_None in E0; lia]. destruct (nth_error v (2 * q + 1)) as [s1|] eqn:E1; [|apply nth_error_None in E1; lia].
      exists s0, s1, l0, l1. assert (X : forall i s l, nth_error v i = Some s -> nth_error vs i = Some l -> In s l).
      { intros i0 s l A B. apply Forall2_nth_error in Hv as [_ X]. eapply X; eauto. }
      repeat split; auto; [apply (X (2 * q))|apply (X (2 * q + 1))]; auto.
    + rewrite EF in E. destruct (omap (inner _) _) as [r2|] eqn:E2; [|discriminate]. cbn in E. injection E as <-. apply in_concat in Ht as (tl & Htl & Ht).
      apply In_nth_error in Htl as (i2 & Hi2). destruct (omap_nth' _ _ _ _ _ E2 Hi2) as ([p k] & Hpk & E). apply nth_error_In in Hpk. apply in_pk' in Hpk as [Hp Hk].
      unfold inner in E. cbn [fst snd] in E. destruct (gen_allowed_specs c p k) as [l1|] eqn:L1; [|discriminate]. destruct (gen_allowed_specs c p (k + 1)) as [l2|] eqn:L2; [|discriminate]. injection E as <-.
      apply in_flat_map in Ht as ([s1 s2] & Hs & Ht). cbn [fst snd] in Ht. apply in_prod_iff in Hs as [Hs1 Hs2].
      destruct (gate_clash (gate_specs_of G 0 v []) (p, k) s1) eqn:C1; [destruct Ht|]. destruct (gate_clash (gate_specs_of G 0 v []) (p, k + 1) s2) eqn:C2; [destruct Ht|].
      cbn in Ht. destruct Ht as [<-|[]]. exists p, k, l1, l2, s1, s2. repeat split; auto.
  - intros (v & HL & HVt & p & k & l1 & l2 & s1 & s2 & Hp & Hk & L1 & L2 & I1 & I2 & C1 & C2 & ->).
    assert (Hv : In v (lprod vs)).
    { apply In_lprod. apply Forall2_nth_error. split; [congruence|]. intros i s l Ei El.
      assert (Hi : i < 2 * m) by (rewrite <- HL; apply nth_error_Some; congruence). destruct (Nat.Even_or_Odd i) as [[q ->]|[q ->]].
      - destruct (HVt q) as (s0 & s1' & l0 & l1' & A & B & C & D & I & J); [lia|]. destruct (gate_pos_nth q) as [P0 _]; [lia|]. destruct (omap_nth _ _ _ _ _ EV P0) as (l0' & A0 & B0). cbn in B0. congruence.
      - destruct (HVt q) as (s0 & s1' & l0 & l1' & A & B & C & D & I & J); [lia|]. destruct (gate_pos_nth q) as [_ P1]; [lia|]. destruct (omap_nth _ _ _ _ _ EV P1) as (l0' & A0 & B0). cbn in B0. congruence. }
    apply In_nth_error in Hv as (i & Hi). destruct (omap_nth _ _ _ _ _ ER Hi) as (tl & Hi' & E). exists tl. split; [eapply nth_error_In; eauto|].
    rewrite EF in E. destruct (omap (inner _) _) as [r2|] eqn:E2; [|discriminate]. cbn in E. injection E as <-. apply in_concat.
    assert (Hpk : In (p, k) (list_prod (range m) (range (G - 1)))) by (apply in_pk'; auto). apply In_nth_error in Hpk as (i2 & Hi2). destruct (omap_nth _ _ _ _ _ E2 Hi2) as (tl & Hj & E).
    exists tl. split; [eapply nth_error_In; eauto|]. unfold inner in E. cbn [fst snd] in E. rewrite L1, L2 in E. injection E as <-. apply in_flat_map. exists (s1, s2). split; [apply in_prod_iff; auto|].
    cbn [fst snd]. rewrite C1, C2. cbn. auto.
Qed.
Lemma templates_sound t : In t ts -> is_template t.
Proof.
  intros Ht. apply templates_in in Ht as (v & HL & HVt & p & k & l1 & l2 & s1 & s2 & Hp & Hk & L1 & L2 & I1 & I2 & C1 & C2 & ->).
  destruct (gates_ok G HG2 m 0 v [] HL ltac:(constructor)) as [ND HGt]. unfold is_template. cbn [fst snd]. split; auto. split; auto. split; [apply (dset_NoDup _ pc_eqb_ok), (dset_NoDup _ pc_eqb_ok); auto|].
  assert (GT : forall q j, dget pc_eqb (gate_specs_of G 0 v []) (q, j) = if q <? m then if j =? 0 then nth_error v (2 * q) else if j =? G - 1 then nth_error v (2 * q + 1) else None else None).
  { intros q j. rewrite HGt. cbn [Nat.leb andb Nat.add]. rewrite Nat.sub_0_r. destruct (q <? m), (j =? 0), (j =? G - 1); auto. }
  split; [|split; [|split]].
  - intros q j s. rewrite !(dget_dset _ pc_eqb_ok). destruct (pc_eqb (q, j) (p, k + 1)) eqn:E1; [|destruct (pc_eqb (q, j) (p, k)) eqn:E2].
    + apply pc_eqb_ok in E1. injection E1 as -> ->. intros E. injection E as <-. repeat split; auto. eauto.
    + apply pc_eqb_ok in E2. injection E2 as -> ->. intros E. injection E as <-. repeat split; auto; [lia|]. eauto.
    + rewrite GT. destruct (Nat.ltb_spec q m) as [Hq|]; [|discriminate]. destruct (HVt q Hq) as (s0 & s1' & l0 & l1' & A & B & C & D & I & J).
      destruct (Nat.eqb_spec j 0); [subst j; intros; split; auto; split; [lia|]; exists l0; split; auto; congruence|].
      destruct (Nat.eqb_spec j (G - 1)); [subst j; intros; split; auto; split; [lia|]; exists l1'; split; auto; congruence|discriminate].
  - intros q Hq. destruct (HVt q Hq) as (s0 & s1' & l0 & l1' & A & B & C & D & I & J). split.
    + rewrite !(dget_dset _ pc_eqb_ok). destruct (pc_eqb _ _); [discriminate|]. destruct (pc_eqb _ _); [discriminate|]. rewrite GT. destruct (Nat.ltb_spec q m); [|lia]. cbn [Nat.eqb]. congruence.
    + rewrite !(dget_dset _ pc_eqb_ok). destruct (pc_eqb _ _); [discriminate|]. destruct (pc_eqb _ _); [discriminate|]. rewrite GT. destruct (Nat.ltb_spec q m); [|lia]. destruct (Nat.eqb_spec (G - 1) 0); [lia|]. rewrite Nat.eqb_refl. congruence.
  - rewrite !(dget_dset _ pc_eqb_ok). destruct (pc_eqb _ _); [discriminate|]. rewrite (proj2 (pc_eqb_ok _ _) eq_refl). discriminate.
  - rewrite !(dget_dset _ pc_eqb_ok). rewrite (proj2 (pc_eqb_ok _ _) eq_refl). discriminate.
Qed.
Lemma templates_complete x p k : chosen_from c x -> p < m -> k + 1 < G ->
  exists T, In (p, k, T) ts /\ forall q j s, dget pc_eqb T (q, j) = Some s -> get_spec x q j = Some (Some s).
Proof.
  intros (_ & _ & _ & _ & _ & _ & HX) Hp Hk.
  set (sp := fun q j => match get_spec x q j with Some (Some s) => s | _ => Sp (id_map 0) 0 end).
  assert (HS : forall q j, q < m -> j < G -> get_spec x q j = Some (Some (sp q j)) /\ exists l, gen_allowed_specs c q j = Some l /\ In (sp q j) l).
  { intros q j Hq Hj. destruct (HX q j Hq Hj) as (s & l & A & B & C). unfold sp. rewrite A. split; eauto. }
  set (v := map (fun pc => sp (fst pc) (snd pc)) gate_pos).
  assert (LV : length v = 2 * m) by (unfold v; rewrite map_length; apply gate_pos_length).
  assert (NV : forall q, q < m -> nth_error v (2 * q) = Some (sp q 0) /\ nth_error v (2 * q + 1) = Some (sp q (G - 1))).
  { intros q Hq. unfold v. rewrite !nth_error_map. destruct (gate_pos_nth q Hq) as [-> ->]. auto. }
  destruct (gates_ok G HG2 m 0 v [] LV ltac:(constructor)) as [ND HGt].
  assert (GT : forall q j s, dget pc_eqb (gate_specs_of G 0 v []) (q, j) = Some s -> q < m /\ j < G /\ s = sp q j).
  { intros q j s. rewrite HGt. cbn [Nat.leb andb Nat.add]. rewrite Nat.sub_0_r. destruct (Nat.ltb_spec q m) as [Hq|]; [|discriminate]. destruct (NV q Hq) as [-> ->].
    destruct (Nat.eqb_spec j 0); [subst; intros E; injection E as <-; repeat split; auto; lia|]. destruct (Nat.eqb_spec j (G - 1)); [subst; intros E; injection E as <-; repeat split; auto; lia|discriminate]. }
  assert (NC : forall q j, gate_clash (gate_specs_of G 0 v []) (q, j) (sp q j) = false).
  { intros q j. unfold gate_clash. destruct (dget pc_eqb _ (q, j)) as [s|] eqn:E; auto. apply GT in E as (_ & _ & ->). rewrite (proj2 (spec_eqb_ok _ _) eq_refl). auto. }
  exists (dset pc_eqb (dset pc_eqb (gate_specs_of G 0 v []) (p, k) (sp p k)) (p, k + 1) (sp p (k + 1))). split.
  - apply templates_in. exists v. split; auto. split.
    + intros q Hq. destruct (NV q Hq) as [N0 N1]. destruct (HS q 0 Hq ltac:(lia)) as (_ & l0 & A0 & B0). destruct (HS q (G - 1) Hq ltac:(lia)) as (_ & l1 & A1 & B1).
      exists (sp q 0), (sp q (G - 1)), l0, l1. auto 8.
    + destruct (HS p k Hp ltac:(lia)) as (_ & l1 & A1 & B1). destruct (HS p (k + 1) Hp Hk) as (_ & l2 & A2 & B2).
      exists p, k, l1, l2, (sp p k), (sp p (k + 1)). repeat split; auto.
  - intros q j s. rewrite !(dget_dset _ pc_eqb_ok). destruct (pc_eqb (q, j) (p, k + 1)) eqn:E1; [|destruct (pc_eqb (q, j) (p, k)) eqn:E2].
    + apply pc_eqb_ok in E1. injection E1 as -> ->. intros E. injection E as <-. apply HS; auto.
    + apply pc_eqb_ok in E2. injection E2 as -> ->. intros E. injection E as <-. apply HS; auto; lia.
    + intros E. apply GT in E as (A & B & ->). apply HS; auto.
Qed.
(** the template curve *)
Lemma template_curve t : In t ts -> exists cv, specify_allowed c (spec_dict_of (snd t)) = Some cv /\ same_frame c cv /\
  (forall p k, get_spec cv p k = match dget pc_eqb (snd t) (p, k) with Some s => Some (Some s) | None => get_spec c p k end) /\
  (forall p k, p < m -> k < G -> exists l, gen_allowed_specs cv p k = Some l /\ l <> []) /\
  (forall x, chosen_from cv x -> chosen_from c x /\ consistent cv x) /\
  (forall x, chosen_from c x -> (consistent cv x <-> forall p k s, dget pc_eqb (snd t) (p, k) = Some s -> get_spec x p k = Some (Some s))).
Proof.
  intros Ht. pose proof (templates_sound t Ht) as HTt. destruct t as [[tp tk] T]. unfold is_template in HTt. cbn [fst snd] in *. destruct HTt as (Hp & Hk & ND & HD & HE & H1 & H2).
  destruct (specify_template c T ND HLEN) as (cv & E1 & E2 & E3). { intros p k s E. destruct (HD p k s E) as (A & B & _). auto. }
  exists cv. split; auto. split; auto. split; auto. pose proof E2 as (S1 & S2 & S3 & S4 & S5 & S6).
  assert (EG : cv_genus cv = G) by (unfold cv_genus; congruence). assert (EM : cv_mult cv = m) by (unfold cv_mult; rewrite <- (map_length pat_proto (cv_pats cv)), S5, map_length; auto).
  assert (AL : forall p k, p < m -> k < G -> gen_allowed_specs cv p k = match dget pc_eqb T (p, k) with Some s => Some [s] | None => gen_allowed_specs c p k end).
  { intros p k Hp' Hk'. destruct (HA p k Hp' Hk') as (l & EL & _). unfold gen_allowed_specs in *. rewrite S1, E3. destruct (dget pc_eqb T (p, k)); auto. destruct (cv_kind c); auto; discriminate. }
  split; [|split].
  - intros p k Hp' Hk'. rewrite AL by auto. destruct (dget pc_eqb T (p, k)) as [s|]; [exists [s]; split; auto; discriminate|]. apply HA; auto.
  - intros x (K1 & K2 & K3 & K4 & K5 & K6 & K7). rewrite EG, EM in *. split.
    + unfold chosen_from. do 5 (split; [congruence|]). split; auto. intros p k Hp' Hk'. destruct (K7 p k Hp' Hk') as (s & l & A & B & C). rewrite AL in B by auto.
      destruct (dget pc_eqb T (p, k)) as [s'|] eqn:ED; [|exists s, l; auto]. injection B as <-. destruct C as [<-|[]]. destruct (HD p k s' ED) as (_ & _ & l & El & Hl). exists s', l. auto.
    + intros p k s E. assert (Hpk : p < m /\ k < G).
      { unfold get_spec in E. destruct (nth_error (cv_pats cv) p) as [pat|] eqn:EP; [|discriminate]. split; [rewrite <- EM; unfold cv_mult; apply nth_error_Some; congruence|].
        pose proof (f_equal (fun l => nth_error l p) S6) as X. cbn in X. rewrite !nth_error_map, EP in X. destruct (nth_error (cv_pats c) p) as [pat'|] eqn:EP'; [|discriminate]. cbn in X. injection X as X.
        rewrite Forall_forall in HLEN. rewrite <- (HLEN pat' (nth_error_In _ _ EP')), <- X. apply nth_error_Some. congruence. }
      destruct Hpk as [Hp' Hk']. destruct (K7 p k Hp' Hk') as (s' & l & A & B & C). rewrite A. do 2 f_equal. destruct (HA p k Hp' Hk') as (l0 & EL & _).
      unfold gen_allowed_specs in B. rewrite E in B. assert (l = [s]) by (destruct (cv_kind cv); congruence). subst l. destruct C as [<-|[]]. auto.
  - intros x (K1 & K2 & K3 & K4 & K5 & K6 & K7). split.
    + intros HCx p k s E. apply HCx. rewrite E3, E. auto.
    + intros H p k s E. rewrite E3 in E. destruct (dget pc_eqb T (p, k)) as [s'|] eqn:ED; [apply H; congruence|].
      assert (Hpk : p < m /\ k < G).
      { unfold get_spec in E. destruct (nth_error (cv_pats c) p) as [pat|] eqn:EP; [|discriminate]. split; [unfold cv_mult; apply nth_error_Some; congruence|].
        rewrite Forall_forall in HLEN. rewrite <- (HLEN pat (nth_error_In _ _ EP)). apply nth_error_Some. congruence. }
      destruct (K7 p k (proj1 Hpk) (proj2 Hpk)) as (s' & l & A & B & C). destruct (HA p k (proj1 Hpk) (proj2 Hpk)) as (l0 & EL & _).
      unfold gen_allowed_specs in B. rewrite E in B. assert (l = [s]) by (destruct (cv_kind c); congruence). subst l. destruct C as [<-|[]]. auto.
Qed.
End Tmpl.
Lemma chosen_exists c : (forall p k, p < cv_mult c -> k < cv_genus c -> exists l, gen_allowed_specs c p k = Some l /\ l <> []) -> exists x, chosen_from c x.
Proof.
  intros A. destruct (omap_some_all (fun pc => gen_allowed_specs c (fst pc) (snd pc)) (list_prod (range (cv_mult c)) (range (cv_genus c)))) as (vs & HV).
  { intros [p k] Hin. apply in_prod_iff in Hin. unfold range in Hin. rewrite !in_seq in Hin. destruct (A p k) as (l & H & _); [lia|lia|]. eauto. }
  destruct (possible_exact c vs HV) as (l & E & H). unfold gen_possible_curves in E. unfold all_variants in E. rewrite HV in E. cbn in E. injection E as E.
  assert (HL : exists y, In y (lprod vs)).
  { assert (HN : forall v, In v vs -> v <> []).
    { intros v Hv. apply In_nth_error in Hv as (i & Hi). destruct (omap_nth' _ _ _ _ _ HV Hi) as ([p k] & A' & B). apply nth_error_In in A'. apply in_prod_iff in A'. unfold range in A'. rewrite !in_seq in A'. cbn in B.
      destruct (A p k) as (l' & B1 & B2); [lia|lia|]. congruence. }
    clear -HN. induction vs as [|v vs IH]; [exists []; cbn; auto|]. destruct IH as (y & Hy); [intros v' Hv'; apply HN; right; auto|].
    destruct v as [|a v]; [exfalso; apply (HN []); [left|]; auto|]. exists (a :: y). apply In_lprod. constructor; [left; auto|]. apply In_lprod in Hy. auto. }
  destruct HL as (y & Hy). exists (curve_of_specs c y). apply H. rewrite <- E. apply in_map; auto.
Qed.
