(** Meaning of the clause set of a loaded adapter. *)
From Verif Require Import Py L_Py M_BaseMaps M_Curves M_Sat S_BaseMaps S_Curves S_Fuzzy S_Sat L_BaseMaps P_Junctions P_Sat.
From Coq Require Import Lia.
Local Open Scope nat_scope.
Implicit Types (V : vk -> bool) (Phi Psi : (vk -> bool) -> Prop).

(** clauses given as dictionaries *)
Lemma dset_sem (Q : vk -> bool -> Prop) d v b : (forall vb, In vb d -> vkey (fst vb) = vkey v -> snd vb = b) ->
  ((exists vb, In vb (dset bvar_eqb d v b) /\ Q (vkey (fst vb)) (snd vb)) <-> (exists vb, In vb d /\ Q (vkey (fst vb)) (snd vb)) \/ Q (vkey v) b).
Proof.
  induction d as [|[w x] d IH]; intros HD; cbn [dset].
  - split; [intros (vb & [<-|[]] & H); auto|]. intros [(vb & [] & _)|H]. exists (v, b). cbn. auto.
  - destruct (bvar_eqb v w) eqn:E.
    + apply bvar_key in E. assert (x = b) by (apply (HD (w, x)); cbn; auto). subst x. split; [intros H; left; exact H|]. intros [H|H]; auto. exists (w, b). split; [left; auto|]. cbn. rewrite <- E. auto.
    + specialize (IH ltac:(intros vb Hvb; apply HD; right; auto)). split.
      * intros (vb & [<-|H] & HQ); [left; exists (w, x); cbn; auto|]. destruct (proj1 IH) as [(vb' & A & B)|H']; [eauto|left; exists vb'; cbn; auto|auto].
      * intros [(vb & [<-|H] & HQ)|HQ]; [exists (w, x); cbn; auto| |]; destruct (proj2 IH) as (vb' & A & B); eauto; exists vb'; cbn; auto.
Qed.
Definition coherent (l : clause) : Prop := forall vb vb', In vb l -> In vb' l -> vkey (fst vb) = vkey (fst vb') -> snd vb = snd vb'.
Lemma clause_sem (Q : vk -> bool -> Prop) l : coherent l -> ((exists vb, In vb (clause_of l) /\ Q (vkey (fst vb)) (snd vb)) <-> exists vb, In vb l /\ Q (vkey (fst vb)) (snd vb)).
Proof.
  intros HC. unfold clause_of. assert (GEN : forall l d, coherent (d ++ l) -> forall Q : vk -> bool -> Prop, (exists vb, In vb (fold_left (fun d vb => dset bvar_eqb d (fst vb) (snd vb)) l d) /\ Q (vkey (fst vb)) (snd vb)) <-> (exists vb, In vb (d ++ l) /\ Q (vkey (fst vb)) (snd vb))).
  { clear. induction l as [|vb l IH]; intros d HC Q; cbn [fold_left]; [rewrite app_nil_r; tauto|].
    assert (H1 : forall x, In x d -> vkey (fst x) = vkey (fst vb) -> snd x = snd vb) by (intros x Hx; apply HC; apply in_or_app; [auto|right; left; auto]).
    assert (DS := fun Q => dset_sem Q d (fst vb) (snd vb) H1).
    assert (SUB : forall x, In x (dset bvar_eqb d (fst vb) (snd vb)) -> exists y, In y (d ++ [vb]) /\ vkey (fst y) = vkey (fst x) /\ snd y = snd x).
    { intros x Hx. destruct (proj1 (DS (fun k b => k = vkey (fst x) /\ b = snd x))) as [(y & A & B)|B]; [exists x; auto|exists y; split; [apply in_or_app; auto|tauto]|exists vb; split; [apply in_or_app; right; left; auto|tauto]]. }
    rewrite IH.
    - split.
      + intros (x & Hx & HQ). apply in_app_or in Hx as [Hx|Hx]; [|exists x; split; auto; apply in_or_app; right; right; auto].
        destruct (SUB x Hx) as (y & Hy & E1 & E2). exists y. split; [|rewrite E1, E2; auto]. apply in_app_or in Hy as [Hy|[<-|[]]]; apply in_or_app; [auto|right; left; auto].
      + intros (x & Hx & HQ). apply in_app_or in Hx as [Hx|[<-|Hx]].
        * destruct (proj2 (DS Q)) as (y & A & B); [left; eauto|]. exists y. split; auto. apply in_or_app. auto.
        * destruct (proj2 (DS Q)) as (y & A & B); [right; auto|]. exists y. split; auto. apply in_or_app. auto.
        * exists x. split; auto. apply in_or_app. auto.
    - intros x y Hx Hy E. apply in_app_or in Hx. apply in_app_or in Hy.
      assert (Hx' : exists x', In x' (d ++ vb :: l) /\ vkey (fst x') = vkey (fst x) /\ snd x' = snd x).
      { destruct Hx as [Hx|Hx]; [|exists x; split; auto; apply in_or_app; right; right; auto]. destruct (SUB x Hx) as (z & Hz & E1). exists z. split; [|auto]. apply in_app_or in Hz as [Hz|[<-|[]]]; apply in_or_app; [auto|right; left; auto]. }
      assert (Hy' : exists x', In x' (d ++ vb :: l) /\ vkey (fst x') = vkey (fst y) /\ snd x' = snd y).
      { destruct Hy as [Hy|Hy]; [|exists y; split; auto; apply in_or_app; right; right; auto]. destruct (SUB y Hy) as (z & Hz & E1). exists z. split; [|auto]. apply in_app_or in Hz as [Hz|[<-|[]]]; apply in_or_app; [auto|right; left; auto]. }
      destruct Hx' as (x' & A1 & A2 & A3). destruct Hy' as (y' & B1 & B2 & B3). rewrite <- A3, <- B3. apply HC; auto. congruence. }
  apply (GEN l []). auto.
Qed.
Lemma sat1_clause V l : coherent l -> (sat1 V (clause_of l) <-> sat1 V l).
Proof. intros HC. apply (clause_sem (fun k b => V k = b) l HC). Qed.

(** the invariant of an adapter: its clauses mean Phi *)
Definition cdef V (l : list (nat * nat * spec)) : Prop := V (KC l) = true <-> Forall (fun x => V (KS x) = true) l.
Definition inv (a : adapter) Phi : Prop := (exists cls, enc a cls /\ forall V, sat V cls <-> Phi V) /\
  forall z, In z (ad_curve_vars a) -> exists l, z = VCurve l /\ forall V, Phi V -> cdef V l.
Lemma inv_ext a Phi Psi : (forall V, Phi V <-> Psi V) -> inv a Phi -> inv a Psi.
Proof.
  intros H ((cls & E & HS) & HC). split; [exists cls; split; auto; intros V; rewrite HS; auto|]. intros z Hz. destruct (HC z Hz) as (l & El & Hl). exists l. split; auto. intros V HV. apply Hl, H; auto.
Qed.
Lemma inv_append a Phi cl : inv a Phi -> inv (append_clause a cl) (fun V => Phi V /\ sat1 V cl).
Proof.
  intros ((cls & E & HS) & HC). split.
  - exists (cls ++ [cl]). split; [apply enc_append; auto|]. intros V. unfold sat. rewrite Forall_app, <- HS. unfold sat. split; [intros [A B]; inversion B; auto|intros [A B]; split; auto].
  - rewrite (proj2 (append_frame a cl)). intros z Hz. destruct (HC z Hz) as (l & El & Hl). exists l. split; auto. intros V [HV _]. auto.
Qed.
Lemma inv_appends cls : forall a Phi, inv a Phi -> inv (append_clauses a cls) (fun V => Phi V /\ Forall (sat1 V) cls).
Proof.
  induction cls as [|cl cls IH]; intros a Phi HI; cbn [append_clauses fold_left]; [eapply inv_ext; [|exact HI]; intros V; split; [auto|tauto]|].
  eapply inv_ext; [|apply IH, inv_append, HI]. intros V. split; [intros [[A B] C]; auto|intros [A B]; inversion B; auto].
Qed.
Lemma appends_curve cls : forall a, ad_curve (append_clauses a cls) = ad_curve a.
Proof. induction cls as [|cl cls IH]; intros a; cbn [append_clauses fold_left]; auto. unfold append_clauses in IH. rewrite IH. apply append_frame. Qed.
Lemma appends_vars cls : forall a, ad_curve_vars (append_clauses a cls) = ad_curve_vars a.
Proof. induction cls as [|cl cls IH]; intros a; cbn [append_clauses fold_left]; auto. unfold append_clauses in IH. rewrite IH. apply append_frame. Qed.

(** exactly one *)
Definition one V (vars : list bvar) : Prop := exists v, In v vars /\ V (vkey v) = true /\ forall w, In w vars -> V (vkey w) = true -> vkey w = vkey v.
Lemma pairs_in {A} (l : list A) x y : In (x, y) (pairs_of l) -> In x l /\ In y l.
Proof. induction l as [|z l IH]; cbn [pairs_of]; [intros []|]. intros H. apply in_app_or in H as [H|H]; [apply in_map_iff in H as (w & E & Hw); injection E as <- <-; cbn; auto|]. destruct (IH H). cbn. auto. Qed.
Lemma pairs_neq {A B} (f : A -> B) (l : list A) x y : NoDup (map f l) -> In (x, y) (pairs_of l) -> f x <> f y.
Proof.
  induction l as [|z l IH]; cbn [pairs_of map]; [intros _ []|]. intros ND H. inversion ND as [|? ? NI ND']; subst. apply in_app_or in H as [H|H]; auto. apply in_map_iff in H as (w & E & Hw). injection E as <- <-. intros E. apply NI. rewrite E. apply in_map; auto.
Qed.
Lemma pairs_all {A B} (f : A -> B) (l : list A) x y : In x l -> In y l -> f x <> f y -> In (x, y) (pairs_of l) \/ In (y, x) (pairs_of l).
Proof.
  induction l as [|z l IH]; [intros []|]. cbn [pairs_of]. intros [->|Hx] [->|Hy] HN.
  - congruence.
  - left. apply in_or_app. left. apply in_map. auto.
  - right. apply in_or_app. left. apply in_map. auto.
  - destruct (IH Hx Hy HN); [left|right]; apply in_or_app; auto.
Qed.
Lemma coherent_const (l : clause) b : (forall vb, In vb l -> snd vb = b) -> coherent l.
Proof. intros H x y Hx Hy _. rewrite (H x Hx), (H y Hy). auto. Qed.
Lemma inv_only a Phi vars : NoDup (map vkey vars) -> inv a Phi -> inv (make_only a vars) (fun V => Phi V /\ one V vars).
Proof.
  intros ND HI. unfold make_only. eapply inv_ext; [|apply inv_appends, HI]. intros V. cbv beta. rewrite Forall_cons_iff.
  assert (C1 : coherent (map (fun v => (v, true)) vars)) by (apply (coherent_const _ true); intros vb H; apply in_map_iff in H as (v & <- & _); auto). rewrite (sat1_clause V _ C1).
  assert (C2 : forall vv : bvar * bvar, sat1 V (clause_of [(fst vv, false); (snd vv, false)]) <-> V (vkey (fst vv)) = false \/ V (vkey (snd vv)) = false).
  { intros vv. rewrite sat1_clause by (apply (coherent_const _ false); intros vb [<-|[<-|[]]]; auto). unfold sat1. split; [intros (vb & [<-|[<-|[]]] & H); auto|].
    intros [H|H]; [exists (fst vv, false)|exists (snd vv, false)]; cbn; auto. }
  rewrite Forall_map. unfold one, sat1. split.
  - intros (HP & (vb & Hvb & Ev) & HF). split; auto. apply in_map_iff in Hvb as (v & <- & Hv). cbn [fst snd] in Ev. exists v. split; auto. split; auto. intros w Hw Ew. rewrite Forall_forall in HF.
    assert (KD : forall k k' : vk, {k = k'} + {k <> k'}) by (repeat decide equality; apply Z.eq_dec). destruct (KD (vkey w) (vkey v)) as [|NE]; auto.
    destruct (pairs_all vkey vars w v Hw Hv NE) as [H|H]; apply HF in H; apply C2 in H; cbn [fst snd] in H; destruct H; congruence.
  - intros (HP & v & Hv & Ev & HU). split; auto. split; [exists (v, true); split; [apply in_map_iff; eauto|auto]|]. apply Forall_forall. intros [x y] Hxy. apply C2. cbn [fst snd]. destruct (pairs_in _ _ _ Hxy) as [Hx Hy]. pose proof (pairs_neq vkey _ _ _ ND Hxy) as NE.
    destruct (V (vkey x)) eqn:Ex; auto. right. destruct (V (vkey y)) eqn:Ey; auto. exfalso. apply NE. rewrite (HU x Hx Ex), (HU y Hy Ey). auto.
Qed.
Lemma only_curve a vars : ad_curve (make_only a vars) = ad_curve a. Proof. apply appends_curve. Qed.
Lemma inv_onlys vs : forall a Phi, Forall (fun vars => NoDup (map vkey vars)) vs -> inv a Phi -> inv (fold_left make_only vs a) (fun V => Phi V /\ Forall (one V) vs) /\ ad_curve (fold_left make_only vs a) = ad_curve a.
Proof.
  induction vs as [|v vs IH]; intros a Phi HF HI; cbn [fold_left].
  - split; auto. eapply inv_ext; [|exact HI]. intros V. split; [auto|tauto].
  - inversion HF; subst. destruct (IH (make_only a v) _ H2 (inv_only a Phi v H1 HI)) as [A B]. split; [|rewrite B; apply only_curve]. eapply inv_ext; [|exact A]. intros V. cbv beta. rewrite Forall_cons_iff. tauto.
Qed.

(** variables of sub-curves *)
Lemma inv_curve_var a Phi c : inv a Phi -> let r := make_curve_var a c in snd r = VCurve (gen_defined_specs c) /\ ad_curve (fst r) = ad_curve a /\ inv (fst r) (fun V => Phi V /\ cdef V (gen_defined_specs c)).
Proof.
  intros HI. unfold make_curve_var. cbv zeta. set (l := gen_defined_specs c). change (curve_var c) with (VCurve l). destruct (memb bvar_eqb (VCurve l) (ad_curve_vars a)) eqn:EM.
  - cbn [fst snd]. split; auto. split; auto. apply (memb_key vkey bvar_eqb bvar_key) in EM. apply in_map_iff in EM as (z & Ez & Hz). destruct (proj2 HI z Hz) as (l' & -> & Hl). cbn [vkey] in Ez. injection Ez as ->.
    eapply inv_ext; [|exact HI]. intros V. split; [auto|tauto].
  - cbn [fst snd ad_curve]. split; auto.
    set (a1 := append_clauses a (map (fun x => clause_of [(VCurve l, false); (spec_var x, true)]) l)). set (cl := map (fun x => (spec_var x, false)) l ++ [(VCurve l, true)]).
    split; [rewrite (proj1 (append_frame a1 _)); unfold a1; apply appends_curve|].
    assert (I1 := inv_append _ _ (clause_of cl) (inv_appends (map (fun x => clause_of [(VCurve l, false); (spec_var x, true)]) l) a Phi HI)). fold a1 in I1.
    assert (SV : forall x, vkey (spec_var x) = KS x) by (intros [[p k] s]; reflexivity).
    assert (EQ : forall V, (Phi V /\ Forall (sat1 V) (map (fun x => clause_of [(VCurve l, false); (spec_var x, true)]) l)) /\ sat1 V (clause_of cl) <-> Phi V /\ cdef V l).
    { intros V. cbv beta. rewrite Forall_map. assert (C1 : forall x, sat1 V (clause_of [(VCurve l, false); (spec_var x, true)]) <-> V (KC l) = false \/ V (KS x) = true).
      { intros x. rewrite sat1_clause. - unfold sat1. split; [intros (vb & [<-|[<-|[]]] & H); [left; exact H|right; cbn [fst] in H; rewrite SV in H; exact H]|]. intros [H|H]; [exists (VCurve l, false)|exists (spec_var x, true)]; cbn [In fst snd]; rewrite ?SV; auto.
        - intros vb vb' [<-|[<-|[]]] [<-|[<-|[]]]; cbn [fst snd]; rewrite ?SV; cbn [vkey]; auto; discriminate. }
      assert (C2 : sat1 V (clause_of cl) <-> (exists x, In x l /\ V (KS x) = false) \/ V (KC l) = true).
      { rewrite sat1_clause.
        - unfold sat1, cl. split.
          + intros (vb & Hvb & H). apply in_app_or in Hvb as [Hvb|[<-|[]]]; [|right; exact H]. apply in_map_iff in Hvb as (x & <- & Hx). cbn [fst snd] in H. rewrite SV in H. left; eauto.
          + intros [(x & Hx & H)|H]; [exists (spec_var x, false); split; [apply in_or_app; left; apply in_map_iff; eauto|cbn [fst snd]; rewrite SV; auto]|]. exists (VCurve l, true). split; [apply in_or_app; right; left; auto|exact H].
        - intros x y Hx Hy. unfold cl in *. apply in_app_or in Hx as [Hx|[<-|[]]]; apply in_app_or in Hy as [Hy|[<-|[]]]; try (apply in_map_iff in Hx as (x' & <- & _)); try (apply in_map_iff in Hy as (y' & <- & _)); cbn [fst snd]; rewrite ?SV; cbn [vkey]; auto; discriminate. }
      rewrite C2. unfold cdef. rewrite !Forall_forall. split.
      - intros [[HP HF] HO]. split; auto. split.
        + intros Ez x Hx. destruct (proj1 (C1 x) (HF x Hx)) as [E|E]; congruence.
        + intros HA. destruct HO as [(x & Hx & E)|E]; auto. rewrite (HA x Hx) in E. discriminate.
      - intros [HP [H1 H2]]. split; [split; auto|].
        + intros x Hx. apply C1. destruct (V (KC l)) eqn:Ez; auto.
        + destruct (V (KC l)) eqn:Ez; auto. left. assert (HN : ~ forall x, In x l -> V (KS x) = true) by (intros H; apply H2 in H; congruence).
          clear -HN. induction l as [|x l IH]; [exfalso; apply HN; intros x []|]. destruct (V (KS x)) eqn:E; [|exists x; cbn; auto]. destruct IH as (y & Hy & Ey); [intros H; apply HN; intros y [<-|Hy]; auto|exists y; cbn; auto]. }
    assert (I2 := inv_ext _ _ _ EQ I1). destruct I2 as [(cls & E & HS) HC]. split.
    + exists cls. split; [exact E|]. exact HS.
    + cbn [ad_curve_vars]. intros z Hz. apply in_app_or in Hz as [Hz|[<-|[]]]; [apply HC; auto|]. exists l. split; auto. intros V [_ H]. auto.
Qed.
Lemma inv_junc_var a Phi j cs : inv a Phi -> ad_curve (make_junc_var a j cs) = ad_curve a /\ inv (make_junc_var a j cs) (fun V => Phi V /\ Forall (fun c => cdef V (gen_defined_specs c)) cs /\ (V (KJ (jkey j)) = true <-> exists c, In c cs /\ V (KC (gen_defined_specs c)) = true)).
Proof.
  intros HI. unfold make_junc_var.
  assert (FO : forall cs a acc Phi, inv a Phi -> let r := fold_left (fun st c => let '(a', z) := make_curve_var (fst st) c in (a', snd st ++ [z])) cs (a, acc) in
     snd r = acc ++ map (fun c => VCurve (gen_defined_specs c)) cs /\ ad_curve (fst r) = ad_curve a /\ inv (fst r) (fun V => Phi V /\ Forall (fun c => cdef V (gen_defined_specs c)) cs)).
  { clear. induction cs as [|c cs IH]; intros a acc Phi HI; cbn [fold_left map].
    - cbn [fst snd]. rewrite app_nil_r. split; auto. split; auto. eapply inv_ext; [|exact HI]. intros V. split; [auto|tauto].
    - destruct (inv_curve_var a Phi c HI) as (A & B & C). cbn [fst snd]. destruct (make_curve_var a c) as [a' z]. cbn [fst snd] in *. subst z. destruct (IH a' (acc ++ [VCurve (gen_defined_specs c)]) _ C) as (D & E & F). split; [rewrite D, <- app_assoc; auto|]. split; [congruence|].
      eapply inv_ext; [|exact F]. intros V. cbv beta. rewrite Forall_cons_iff. tauto. }
  destruct (FO cs a [] Phi HI) as (D & E & F). destruct (fold_left _ cs (a, [])) as [a1 cvs]. cbn [fst snd app] in *. subst cvs. split; [rewrite appends_curve; auto|].
  eapply inv_ext; [|apply inv_appends, F]. intros V. cbv beta. rewrite Forall_cons_iff, !map_map, !Forall_map.
  assert (C1 : sat1 V (clause_of (map (fun c => (VCurve (gen_defined_specs c), true)) cs ++ [(VJunc j, false)])) <-> (exists c, In c cs /\ V (KC (gen_defined_specs c)) = true) \/ V (KJ (jkey j)) = false).
  { rewrite sat1_clause.
    - unfold sat1. split.
      + intros (vb & Hvb & H). apply in_app_or in Hvb as [Hvb|[<-|[]]]; [|right; exact H]. apply in_map_iff in Hvb as (c & <- & Hc). left. exists c. auto.
      + intros [(c & Hc & H)|H]; [exists (VCurve (gen_defined_specs c), true); split; [apply in_or_app; left; apply in_map_iff; eauto|exact H]|]. exists (VJunc j, false). split; [apply in_or_app; right; left; auto|exact H].
    - intros x y Hx Hy. apply in_app_or in Hx as [Hx|[<-|[]]]; apply in_app_or in Hy as [Hy|[<-|[]]]; try (apply in_map_iff in Hx as (x' & <- & _)); try (apply in_map_iff in Hy as (y' & <- & _)); cbn [fst snd vkey]; auto; discriminate. }
  rewrite C1. assert (C2 : forall c, sat1 V (clause_of [(VCurve (gen_defined_specs c), false); (VJunc j, true)]) <-> V (KC (gen_defined_specs c)) = false \/ V (KJ (jkey j)) = true).
  { intros c. rewrite sat1_clause. - unfold sat1. split; [intros (vb & [<-|[<-|[]]] & H); [left; exact H|right; exact H]|]. intros [H|H]; [exists (VCurve (gen_defined_specs c), false)|exists (VJunc j, true)]; cbn [In fst snd]; auto.
    - intros vb vb' [<-|[<-|[]]] [<-|[<-|[]]]; cbn [fst snd vkey]; auto; discriminate. }
  rewrite (Forall_forall (fun x => sat1 V (clause_of [(VCurve (gen_defined_specs x), false); (VJunc j, true)]))). split.
  - intros ((HP & HD) & HO & HF). split; auto. split; auto. split.
    + intros Ej. destruct HO as [H|H]; auto. congruence.
    + intros (c & Hc & Ec). destruct (proj1 (C2 c) (HF c Hc)); congruence.
  - intros (HP & HD & HJ). split; auto. split.
    + destruct (V (KJ (jkey j))) eqn:Ej; auto. left. apply HJ. auto.
    + intros c Hc. apply C2. destruct (V (KC (gen_defined_specs c))) eqn:Ec; auto. right. apply HJ. eauto.
Qed.
Definition tmeans V (e : junction * list curve) : Prop := Forall (fun c => cdef V (gen_defined_specs c)) (snd e) /\ (V (KJ (jkey (fst e))) = true <-> exists c, In c (snd e) /\ V (KC (gen_defined_specs c)) = true).
Lemma inv_juncs T : forall a Phi, inv a Phi -> let r := fold_left (fun a e => make_junc_var a (fst e) (snd e)) T a in ad_curve r = ad_curve a /\ inv r (fun V => Phi V /\ Forall (tmeans V) T).
Proof.
  induction T as [|e T IH]; intros a Phi HI; cbn [fold_left].
  - split; auto. eapply inv_ext; [|exact HI]. intros V. split; [auto|tauto].
  - destruct (inv_junc_var a Phi (fst e) (snd e) HI) as [A B]. destruct (IH _ _ B) as [C D]. split; [cbv zeta in *; congruence|]. eapply inv_ext; [|exact D]. intros V. cbv beta. rewrite Forall_cons_iff. unfold tmeans at 2. tauto.
Qed.
(** forbidden combinations *)
Definition fmeans V (jf : junction * curve) : Prop := V (KJ (jkey (fst jf))) = false \/ exists x, In x (gen_defined_specs (snd jf)) /\ V (KS x) = false.
Lemma inv_forbid forb : forall a Phi, inv a Phi -> ad_curve (forbid_all a forb) = ad_curve a /\ inv (forbid_all a forb) (fun V => Phi V /\ Forall (fmeans V) forb).
Proof.
  induction forb as [|[j f] forb IH]; intros a Phi HI; cbn [forbid_all fold_left].
  - split; auto. eapply inv_ext; [|exact HI]. intros V. split; [auto|tauto].
  - cbn [fst snd]. destruct (IH _ _ (inv_append a Phi (clause_of (map (fun x => (spec_var x, false)) (gen_defined_specs f) ++ [(VJunc j, false)])) HI)) as [A B].
    unfold forbid_all in *. fold (add_forbid a j f) in A, B. split; [rewrite A; apply append_frame|]. eapply inv_ext; [|exact B]. intros V. cbv beta. rewrite Forall_cons_iff.
    assert (SV : forall x, vkey (spec_var x) = KS x) by (intros [[p k] s]; reflexivity).
    assert (C1 : sat1 V (clause_of (map (fun x => (spec_var x, false)) (gen_defined_specs f) ++ [(VJunc j, false)])) <-> fmeans V (j, f)).
    { rewrite sat1_clause.
      - unfold sat1, fmeans. cbn [fst snd]. split.
        + intros (vb & Hvb & H). apply in_app_or in Hvb as [Hvb|[<-|[]]]; [|left; exact H]. apply in_map_iff in Hvb as (x & <- & Hx). cbn [fst snd] in H. rewrite SV in H. right; eauto.
        + intros [H|(x & Hx & H)]; [exists (VJunc j, false); split; [apply in_or_app; right; left; auto|exact H]|]. exists (spec_var x, false). split; [apply in_or_app; left; apply in_map_iff; eauto|cbn [fst snd]; rewrite SV; auto].
      - apply (coherent_const _ false). intros vb Hvb. apply in_app_or in Hvb as [Hvb|[<-|[]]]; auto. apply in_map_iff in Hvb as (x & <- & _). auto. }
    rewrite C1. tauto.
Qed.
(** the empty adapter *)
Lemma inv_empty c : inv (AD [] [] [] c) (fun _ => True).
Proof.
  split; [|intros z []]. exists []. split; [|intros V; split; auto; constructor]. unfold enc. cbn. split; [split; [constructor|intros i v z H; destruct i; discriminate]|]. split; [constructor|]. split; auto. intros k [].
Qed.
