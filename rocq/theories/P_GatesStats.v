(** The counters of the gates generator: proofs. *)
From Verif Require Import Py L_Py M_BaseMaps M_Subsets M_Paths M_Curves M_PathTree M_PathGen M_Utils M_Gates M_GatesStats P_GateLoop.
Local Open Scope nat_scope.

Section Gates.
Context (dim div mult : nat) (only_facet : bool) (par : search_par (list Qc)).
Lemma check_erase seen k protos specs :
  option_map fst (check_and_std_s dim div mult only_facet par seen k protos specs) = check_and_std dim div mult only_facet par seen protos specs.
Proof.
  unfold check_and_std_s, check_and_std. destruct (curve_gates _ _ _ _) as [[gs|]|]; auto. destruct (memb gates_eqb gs (fst seen)); auto. destruct (std_gates gs) as [std|]; auto.
  destruct (memb gates_eqb std (snd seen)); auto. destruct (has_paths _ _ _ _) as [[]|]; auto.
Qed.
Lemma all_erase cands : forall seen k, option_map fst (check_all_s dim div mult only_facet par seen k cands) = check_all dim div mult only_facet par seen cands.
Proof.
  induction cands as [|[protos specs] cands IH]; intros seen k; cbn [check_all_s check_all]; auto. rewrite <- (check_erase seen k protos specs).
  destruct (check_and_std_s _ _ _ _ _ _ _ _ _) as [[[r seen'] k']|]; auto. cbn [option_map fst]. rewrite <- (IH seen' k'). destruct (check_all_s _ _ _ _ _ _ _ _) as [[l k2]|]; auto.
Qed.
Definition gives (cands : list (list proto * list spec)) (gs : list plink) : Prop :=
  exists protos specs, In (protos, specs) cands /\ curve_gates dim only_facet (cand_curve dim div mult protos specs) (range mult) = Some (Some gs).
Lemma all_counts cands : forall seen k res k', check_all_s dim div mult only_facet par seen k cands = Some (res, k') ->
  (forall gs s, In gs (fst seen) -> std_gates gs = Some s -> In s (snd seen)) ->
  exists ps ss, NoDup ps /\ NoDup ss /\ (forall gs, In gs ps <-> gives cands gs /\ ~ In gs (fst seen)) /\
    (forall gs, In gs ps -> std_gates gs <> None) /\
    (forall s, In s ss <-> ~ In s (snd seen) /\ exists gs, In gs ps /\ std_gates gs = Some s) /\
    NoDup res /\ (forall s, In s res <-> In s ss /\ has_paths dim div par s = Some true) /\
    g_path k' = g_path k + length ps /\ g_std k' = g_std k + length ss /\ g_good k' = g_good k + length res.
Proof.
  induction cands as [|[protos specs] cands IH]; intros seen k res k' E HS; cbn [check_all_s] in E.
  { injection E as <- <-. exists [], []. split; [constructor|]. split; [constructor|]. split; [intros gs; split; [intros []|intros ((p & s & [] & _) & _)]|]. split; [intros gs []|].
    split; [intros s; split; [intros []|intros (_ & gs & [] & _)]|]. split; [constructor|]. split; [intros s; split; [intros []|intros ([] & _)]|]. cbn. lia. }
  unfold check_and_std_s in E. destruct (curve_gates _ _ _ _) as [[gs|]|] eqn:EG; [| |discriminate].
  2:{ destruct (check_all_s _ _ _ _ _ seen k cands) as [[l k2]|] eqn:EA; [|discriminate]. injection E as <- <-. destruct (IH _ _ _ _ EA HS) as (ps & ss & A1 & A2 & A3 & A4). exists ps, ss. split; auto. split; auto. split; auto.
      intros g. rewrite A3. split; intros ((p & s & H1 & H2) & H3); (split; auto); exists p, s; (split; auto); [right; auto|]. destruct H1 as [X|]; auto. congruence. }
  assert (GV : forall g, gives ((protos, specs) :: cands) g <-> g = gs \/ gives cands g).
  { intros g. split.
    - intros (p & s & [X|X] & H2); [left; injection X as -> ->; congruence|right; exists p, s; auto].
    - intros [->|(p & s & X & H2)]; [exists protos, specs; split; [left|]; auto|exists p, s; split; [right|]; auto]. }
  destruct (memb gates_eqb gs (fst seen)) eqn:EM.
  { apply (memb_In _ gates_eqb_ok) in EM. destruct (check_all_s _ _ _ _ _ seen k cands) as [[l k2]|] eqn:EA; [|discriminate]. injection E as <- <-. destruct (IH _ _ _ _ EA HS) as (ps & ss & A1 & A2 & A3 & A4). exists ps, ss. split; auto. split; auto. split; auto.
    intros g. rewrite A3, GV. split; [tauto|]. intros ([->|X] & Y); tauto. }
  apply (memb_false _ gates_eqb_ok) in EM. destruct (std_gates gs) as [std|] eqn:ES; [|discriminate].
  destruct (memb gates_eqb std (snd seen)) eqn:EM2.
  { apply (memb_In _ gates_eqb_ok) in EM2. destruct (check_all_s _ _ _ _ _ _ _ cands) as [[l k2]|] eqn:EA; [|discriminate]. injection E as <- <-. apply IH in EA; [|cbn; intros g s [<-|X] Y; [congruence|eauto]].
    cbn [fst snd] in EA. destruct EA as (ps & ss & A1 & A2 & A3 & A4 & A5 & A6 & A7 & B1 & B2 & B3). cbn in B1, B2, B3. exists (gs :: ps), ss. split; [constructor; auto; rewrite A3; cbn; tauto|]. split; auto. split.
    { intros g. cbn. rewrite A3, GV. cbn. split; [intros [->|(X & Y)]; tauto|]. intros (X & Y). destruct (gates_eqb gs g) eqn:EQ; [apply gates_eqb_ok in EQ; auto|]. right. destruct X as [->|X]; [assert (gates_eqb gs gs = true) by (apply gates_eqb_ok; auto); congruence|]. split; auto. intros [Z|Z]; auto. subst g. assert (gates_eqb gs gs = true) by (apply gates_eqb_ok; auto); congruence. }
    split; [intros g [<-|X]; [congruence|auto]|]. split.
    { intros s. rewrite A5. split; [intros (X & g & Y & Z); split; auto; exists g; cbn; auto|]. intros (X & g & [<-|Y] & Z); [congruence|]. split; auto. eauto. }
    split; auto. split; auto. cbn [length]. lia. }
  apply (memb_false _ gates_eqb_ok) in EM2. destruct (has_paths dim div par std) as [ok|] eqn:EH; [|discriminate].
  assert (X : exists l k1 k2, check_all_s dim div mult only_facet par (gs :: fst seen, std :: snd seen) k1 cands = Some (l, k2) /\ res = (if ok then std :: l else l) /\ k' = k2 /\
    g_path k1 = g_path k + 1 /\ g_std k1 = g_std k + 1 /\ g_good k1 = g_good k + (if ok then 1 else 0)).
  { destruct ok; cbn [option_map] in E; (destruct (check_all_s _ _ _ _ _ _ _ cands) as [[l k2]|] eqn:EA; [|discriminate]); injection E as <- <-; do 3 eexists; (split; [exact EA|]); cbn; repeat split; lia. }
  destruct X as (l & k1 & k2 & EA & -> & -> & K1 & K2 & K3). clear E. apply IH in EA; [|cbn; intros g s [<-|X] Y; [left; congruence|right; eauto]].
  cbn [fst snd] in EA. destruct EA as (ps & ss & A1 & A2 & A3 & A4 & A5 & A6 & A7 & B1 & B2 & B3). exists (gs :: ps), (std :: ss). split; [constructor; auto; rewrite A3; cbn; tauto|]. split; [constructor; auto; rewrite A5; cbn; tauto|]. split.
  { intros g. cbn. rewrite A3, GV. cbn. split; [intros [->|(X & Y)]; tauto|]. intros (X & Y). destruct (gates_eqb gs g) eqn:EQ; [apply gates_eqb_ok in EQ; auto|]. right. destruct X as [->|X]; [assert (gates_eqb gs gs = true) by (apply gates_eqb_ok; auto); congruence|]. split; auto. intros [Z|Z]; auto. subst g. assert (gates_eqb gs gs = true) by (apply gates_eqb_ok; auto); congruence. }
  split; [intros g [<-|X]; [congruence|auto]|]. split.
  { intros s. cbn. rewrite A5. cbn. split.
    - intros [<-|(X & g & Y & Z)]; [split; auto; exists gs; auto|]. split; [tauto|]. exists g; auto.
    - intros (X & g & [<-|Y] & Z); [left; congruence|]. destruct (gates_eqb std s) eqn:EQ; [apply gates_eqb_ok in EQ; auto|]. right. split; [|eauto]. intros [W|W]; auto. subst s. assert (gates_eqb std std = true) by (apply gates_eqb_ok; auto); congruence. }
  assert (NI : ~ In std l). { rewrite A7, A5. cbn. tauto. }
  split; [destruct ok; auto; constructor; auto|]. split.
  { intros s. destruct ok; cbn; rewrite A7; split.
    - intros [<-|(X & Y)]; auto.
    - intros ([<-|X] & Y); auto.
    - tauto.
    - intros ([<-|X] & Y); [congruence|auto]. }
  destruct ok; cbn [length]; lia.
Qed.
End Gates.
