(** Property theorems C62: the counters of the gates generator. *)
From Verif Require Import Py L_Py M_BaseMaps M_Subsets M_Paths M_Curves M_PathTree M_PathGen M_Utils M_Gates M_GatesStats P_GatesStats T_Gates.
Local Open Scope nat_scope.

(** C62: counting does not change the gates that are generated. *)
Theorem C62_no_effect : forall d N m only_facet fpar ppar k,
  option_map fst (gen_gates_s d N m only_facet fpar ppar k) = gen_gates d N m only_facet fpar ppar.
Proof.
  intros. unfold gen_gates_s, gen_gates. destruct (if only_facet then _ else _) as [groups|]; cbn [obind]; auto. apply all_erase.
Qed.
Print Assumptions C62_no_effect.

(** The gates of the candidate curves that are looked at, in either mode (those rejected by their faces left out). *)
Definition candidate_gates (d N m : nat) (only_facet : bool) (fpar : search_par facet_set) (gs : list plink) : Prop :=
  exists groups protos specs, (if only_facet then facet_groups d N m fpar else all_groups d N m) = Some groups /\
    In (protos, specs) (candidates groups) /\ curve_gates d only_facet (cand_curve d N m protos specs) (range m) = Some (Some gs).
(** C62: when gen_gates has ended, new_path_gate has grown by the number of different gates of candidates, new_std_gate by the
    number of different standard forms of them, new_good_gate by the number of gates generated: those of the standard forms
    that have a path. *)
Theorem C62_counters : forall d N m only_facet fpar ppar k res k', gen_gates_s d N m only_facet fpar ppar k = Some (res, k') ->
  exists gates stds, NoDup gates /\ NoDup stds /\ NoDup res /\
    (forall gs, In gs gates <-> candidate_gates d N m only_facet fpar gs) /\
    (forall s, In s stds <-> exists gs, In gs gates /\ std_gates gs = Some s) /\
    (forall s, In s res <-> In s stds /\ has_paths d N ppar s = Some true) /\
    g_path k' = g_path k + length gates /\ g_std k' = g_std k + length stds /\ g_good k' = g_good k + length res /\
    length res <= length stds <= length gates.
Proof.
  intros d N m only_facet fpar ppar k res k' E. unfold gen_gates_s in E. destruct (if only_facet then _ else _) as [groups|] eqn:EG; [|discriminate]. cbn [obind] in E.
  apply all_counts in E; [|intros gs s []]. destruct E as (ps & ss & A1 & A2 & A3 & A4 & A5 & A6 & A7 & B1 & B2 & B3). exists ps, ss. split; auto. split; auto. split; auto. split.
  { intros gs. rewrite A3. cbn. split.
    - intros ((p & s & H1 & H2) & _). exists groups, p, s. auto.
    - intros (g & p & s & H0 & H1 & H2). split; auto. exists p, s. split; auto. congruence. }
  split; [intros s; rewrite A5; cbn; tauto|]. split; auto. split; auto. split; auto. split; auto. split; [apply NoDup_incl_length; auto; intros s Hs; apply A7; auto|].
  assert (L : length (map std_gates ps) = length ps) by apply map_length. rewrite <- L, <- (map_length (@Some (list plink)) ss). apply NoDup_incl_length.
  - apply FinFun.Injective_map_NoDup; auto. intros x y X. congruence.
  - intros o Ho. apply in_map_iff in Ho as (s & <- & Hs). apply A5 in Hs as (_ & g & X & Y). apply in_map_iff. eauto.
Qed.
Print Assumptions C62_counters.
Example C62_example : option_map snd (gen_gates_s 2 2 1 false ex_par ex_par g_zero) = Some (GSt 57 24 1).
Proof. vm_compute. reflexivity. Qed.
