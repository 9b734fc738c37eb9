(** A small SAT solver satisfying the contract of S_Sat, for the examples. *)
From Verif Require Import Py L_Py M_BaseMaps M_Curves M_Sat S_Curves S_Fuzzy S_Sat.
From Coq Require Import Lia.
Local Open Scope Z_scope.

Definition falsified (asg : list Z) (cl : list Z) : bool := forallb (fun t => memb Z.eqb (- t) asg) cl.
Fixpoint backtrack (cls : list (list Z)) (vars asg : list Z) : option (list Z) :=
  if existsb (falsified asg) cls then None
  else match vars with
       | [] => Some asg
       | v :: vs => match backtrack cls vs (- v :: asg) with
                    | Some r => Some r
                    | None => backtrack cls vs (v :: asg)
                    end
       end.
Definition simple_solver : sat_solver := fun _ cls => backtrack cls (dedup Z.eqb (map Z.abs (concat cls))) [].
Lemma zmemb x l : memb Z.eqb x l = true <-> In x l. Proof. apply (memb_In Z.eqb). intros a b. apply Z.eqb_eq. Qed.
Lemma falsified_iff asg cl : falsified asg cl = true <-> forall t, In t cl -> In (- t) asg.
Proof. unfold falsified. rewrite forallb_forall. split; intros H t Ht; [apply zmemb|apply zmemb]; auto. Qed.
Definition agrees (val : Z -> bool) (asg : list Z) : Prop := forall t, In t asg -> val (Z.abs t) = (0 <? t).
Lemma backtrack_none cls vars : forall asg, (forall cl t, In cl cls -> In t cl -> t <> 0) -> Forall (fun v => 0 < v) vars -> backtrack cls vars asg = None -> forall val, agrees val asg -> ~ satisfies val cls.
Proof.
  induction vars as [|v vs IH]; intros asg NZ HV; cbn [backtrack].
  - destruct (existsb (falsified asg) cls) eqn:E; [|discriminate]. intros _ val HA HS. apply existsb_exists in E as (cl & Hcl & F). destruct (HS cl Hcl) as (t & Ht & Ev). pose proof (proj1 (falsified_iff asg cl) F t Ht) as X. apply HA in X. rewrite Z.abs_opp, Ev in X. specialize (NZ cl t Hcl Ht). destruct (Z.ltb_spec 0 t); destruct (Z.ltb_spec 0 (- t)); try discriminate; lia.
  - inversion HV; subst. destruct (existsb (falsified asg) cls) eqn:E.
    + intros _ val HA HS. apply existsb_exists in E as (cl & Hcl & F). destruct (HS cl Hcl) as (t & Ht & Ev). pose proof (proj1 (falsified_iff asg cl) F t Ht) as X. apply HA in X. rewrite Z.abs_opp, Ev in X. specialize (NZ cl t Hcl Ht). destruct (Z.ltb_spec 0 t); destruct (Z.ltb_spec 0 (- t)); try discriminate; lia.
    + destruct (backtrack cls vs (- v :: asg)) as [r|] eqn:E1; [discriminate|]. intros E2 val HA HS. destruct (val v) eqn:Ev.
      * apply (IH (v :: asg) NZ H2 E2 val); auto. intros t [<-|Ht]; auto. rewrite Z.abs_eq by lia. rewrite Ev. symmetry. apply Z.ltb_lt. auto.
      * apply (IH (- v :: asg) NZ H2 E1 val); auto. intros t [<-|Ht]; auto. rewrite Z.abs_opp, Z.abs_eq by lia. rewrite Ev. symmetry. apply Z.ltb_ge. lia.
Qed.
Lemma backtrack_some cls vars : forall asg r, (forall cl t, In cl cls -> In t cl -> t <> 0 /\ (In (Z.abs t) vars \/ In (Z.abs t) (map Z.abs asg))) -> Forall (fun v => 0 < v) vars -> NoDup vars ->
  (forall t, In t asg -> t <> 0 /\ ~ In (- t) asg /\ ~ In (Z.abs t) vars) -> backtrack cls vars asg = Some r ->
  (forall cl, In cl cls -> exists t, In t cl /\ In t r) /\ (forall t, In t r -> t <> 0 /\ ~ In (- t) r) /\ (forall t, In t r -> In (Z.abs t) vars \/ In t asg).
Proof.
  induction vars as [|v vs IH]; intros asg r HC HV ND HA; cbn [backtrack].
  - destruct (existsb (falsified asg) cls) eqn:E; [discriminate|]. intros X. injection X as <-. split; [|split; [intros t Ht; destruct (HA t Ht) as (A & B & _); auto|auto]].
    intros cl Hcl. assert (NF : falsified asg cl = false) by (destruct (falsified asg cl) eqn:F; auto; rewrite <- E; symmetry; apply existsb_exists; eauto).
    assert (EX : exists t, In t cl /\ ~ In (- t) asg).
    { unfold falsified in NF. clear -NF. induction cl as [|t cl IH]; [discriminate|]. cbn [forallb] in NF. apply andb_false_iff in NF as [H|H]; [|destruct (IH H) as (t' & A & B); exists t'; cbn; auto]. exists t. split; [left; auto|]. intros Hin. apply zmemb in Hin. congruence. }
    destruct EX as (t & Ht & Hn). exists t. split; auto. destruct (HC cl t Hcl Ht) as [NZ [[]|Hin]]. apply in_map_iff in Hin as (u & Eu & Hu). destruct (Z.eq_dec u t) as [->|]; auto. exfalso. apply Hn. replace (- t) with u by lia. auto.
  - destruct (existsb (falsified asg) cls); [discriminate|]. inversion HV; subst. inversion ND; subst.
    assert (GO : forall w, Z.abs w = v -> backtrack cls vs (w :: asg) = Some r -> (forall cl, In cl cls -> exists t, In t cl /\ In t r) /\ (forall t, In t r -> t <> 0 /\ ~ In (- t) r) /\ (forall t, In t r -> In (Z.abs t) (v :: vs) \/ In t asg)).
    { intros w Ew E. destruct (IH (w :: asg) r) as (A & B & C); auto.
      - intros cl t Hcl Ht. destruct (HC cl t Hcl Ht) as [NZ [[X|X]|X]]; split; auto; [right; left; congruence|right; right; auto].
      - intros t [<-|Ht].
        + split; [lia|]. split; [|rewrite Ew; auto]. intros [X|X]; [lia|]. destruct (HA _ X) as (_ & _ & Y). apply Y. left. rewrite Z.abs_opp. auto.
        + destruct (HA t Ht) as (X & Y & Z0). split; auto. split; [|intros Hin; apply Z0; right; auto]. intros [W|W]; [|auto]. apply Z0. left. subst w. rewrite Z.abs_opp in Ew. auto.
      - split; auto. split; auto. intros t Ht. destruct (C t Ht) as [X|[<-|X]]; auto; left; [right; auto|left; auto]. }
    destruct (backtrack cls vs (- v :: asg)) as [r'|] eqn:E1.
    + intros X. injection X as ->. apply (GO (- v)); auto. lia.
    + intros E2. apply (GO v); auto. lia.
Qed.
Theorem simple_solver_ok : sat_ok simple_solver.
Proof.
  intros call cls NZ. unfold simple_solver. set (vars := dedup Z.eqb (map Z.abs (concat cls))).
  assert (ZE : eqb_ok Z.eqb) by (intros a b; apply Z.eqb_eq).
  assert (VI : forall v, In v vars <-> exists cl t, In cl cls /\ In t cl /\ v = Z.abs t).
  { intros v. unfold vars. rewrite (In_dedup _ ZE). rewrite in_map_iff. split.
    - intros (t & <- & Ht). apply in_concat in Ht as (cl & A & B). eauto.
    - intros (cl & t & A & B & ->). exists t. split; auto. apply in_concat. eauto. }
  assert (HV : Forall (fun v => 0 < v) vars) by (apply Forall_forall; intros v Hv; apply VI in Hv as (cl & t & A & B & ->); specialize (NZ cl t A B); lia).
  assert (ND : NoDup vars) by (apply (NoDup_dedup _ ZE)).
  destruct (backtrack cls vars []) as [m|] eqn:E.
  - destruct (backtrack_some cls vars [] m) as (A & B & C); auto.
    + intros cl t Hcl Ht. split; [eapply NZ; eauto|]. left. apply VI. eauto.
    + split; [|split]; auto.
      * intros t Ht. apply (proj2 (B t Ht)).
      * intros t Ht. split; [apply (B t Ht)|]. destruct (C t Ht) as [X|[]]. apply VI in X as (cl & t' & X1 & X2 & X3). exists cl, t'. split; auto. split; auto. lia.
  - intros val. apply (backtrack_none cls vars [] NZ HV E val). intros t [].
Qed.
