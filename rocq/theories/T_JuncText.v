(** Property theorems C63: the text of junctions. *)
From Verif Require Import Py L_Py M_BaseMaps S_BaseMaps L_BaseMaps M_Subsets M_Paths M_Curves S_Curves P_Valid P_Junctions P_JuncFacts M_Zoo M_Text M_GatesText M_JuncText P_JuncText.
From Coq Require Import String Ascii List.
Local Open Scope nat_scope.

(** The junctions of a curve: auto-junctions and the regular ones generated (perhaps by an interrupted enumeration). *)
Definition junctions_of (fuel : nat) (c : curve) : list junction := gen_auto_junctions c ++ fst (gen_regular_junctions fuel c).

(** C63: every junction of a curve of dimension at most 6 can be printed, and the text determines it: junctions of two curves
    have the same text iff they are equal. *)
Theorem C63_determines : forall c c' fuel fuel' a b, valid_curve c -> valid_curve c' -> cv_dim c' = cv_dim c -> cv_dim c <= 6 ->
  In a (junctions_of fuel c) -> In b (junctions_of fuel' c') ->
  (exists t, junc_str a = Some t) /\ (junc_str a = junc_str b <-> junc_eqb a b = true).
Proof.
  intros c c' fuel fuel' a b HC HC' ED Hd Ha Hb. apply (gen_wf c fuel a HC) in Ha. apply (gen_wf c' fuel' b HC') in Hb. rewrite ED in Hb. split; [eapply junc_text; eauto|].
  rewrite junc_eqb_key. split; [|apply junc_str_key]. apply (junc_inj (cv_dim c)); auto. split; auto. destruct HC as (X & _). lia.
Qed.
Print Assumptions C63_determines.
(** C63: the texts of the junctions of a curve are different. *)
Theorem C63_distinct : forall c fuel, valid_curve c -> cv_dim c <= 6 -> NoDup (map junc_str (junctions_of fuel c)).
Proof.
  intros c fuel HC Hd. assert (ND : NoDup (map jkey (junctions_of fuel c))).
  { unfold junctions_of. rewrite map_app. apply NoDup_app_intro.
    - unfold gen_auto_junctions, range. rewrite map_map. apply FinFun.Injective_map_NoDup; [|apply seq_NoDup]. intros p q E. unfold jkey, auto_junction in E. cbn in E. congruence.
    - exact (junc_nodup c fuel HC).
    - intros x Hx Hy. apply in_map_iff in Hx as (j & <- & Hj). apply in_map_iff in Hy as (k & E & Hk). unfold gen_auto_junctions in Hj. apply in_map_iff in Hj as (p & <- & _).
      destruct (junc_normal c fuel k HC Hk) as (_ & _ & _ & E1). unfold jkey in E. cbn in E. congruence. }
  revert ND. assert (W : forall j, In j (junctions_of fuel c) -> wf_junction (cv_dim c) j) by (intros j Hj; apply (gen_wf c fuel j HC Hj)).
  revert W. generalize (junctions_of fuel c). induction l as [|j l IH]; intros W ND; cbn in *; constructor; apply NoDup_cons_iff in ND as [N1 N2]; auto.
  intros Hi. apply N1. apply in_map_iff in Hi as (k & E & Hk). apply in_map_iff. exists k. split; auto. apply (junc_inj (cv_dim c)); auto. destruct HC as (X & _). lia.
Qed.
Print Assumptions C63_distinct.
Example C63_example : let c := curve_or zoo_hilbert in valid_curve c /\ cv_dim c = 2 /\ gen_regular_junctions 400 c = (fst (gen_regular_junctions 400 c), GDone) /\
  map junc_str (junctions_of 400 c) = map (fun t => Some (list_ascii_of_string t)) ["0ij | dx=(0, 0), dt=0 | 0ij"; "0ij | dx=(1, 0), dt=1 | 0ji"; "0ij | dx=(1, 0), dt=1 | 0ij";
    "0ij | dx=(0, -1), dt=1 | 0JI"; "0ij | dx=(0, -1), dt=1 | 0IJ"]%string.
Proof. split; [apply valid_curveb_ok; vm_compute; reflexivity|]. split; [reflexivity|]. split; vm_compute; reflexivity. Qed.
