(** The recorded dilations of the zoo. *)
From Verif Require Import Py M_Curves M_Main M_ZooInfo S_Curves S_Dilation S_ZooInfo P_Valid P_ZooInfo.
Local Open Scope nat_scope.

(** Where the lower bounds are found: dimension of the faces, number of the pair of fractions, steps of its subdivision; in the order of the entries. *)
Definition witnesses : list (list (nat * nat * list nat)) :=
  [ [(0, 8, []); (0, 57, []); (0, 57, [])]; [(0, 0, []); (0, 84, []); (0, 84, [])]; [(0, 305, []); (0, 22, [])]; [(0, 85, []); (0, 85, []); (0, 82, [])]; [];
    [(0, 155, []); (0, 155, []); (0, 181, [])]; [(0, 155, []); (0, 155, []); (0, 164, [])]; [(0, 15, []); (0, 18, []); (0, 18, [])]; [(0, 95, []); (0, 173, []); (0, 173, [])];
    [(0, 90, [])]; [(0, 16, []); (0, 16, []); (0, 31, [])]; [(0, 36, []); (0, 31, [2; 0]); (0, 30, [])]; [(0, 192, []); (0, 192, []); (0, 192, [])];
    [(0, 62, []); (0, 131, []); (0, 129, [])]; [(0, 189, []); (0, 574, [5]); (2, 574, [])]; [(0, 54, []); (0, 208, []); (0, 47, [])]; [(0, 7, []); (0, 47, []); (0, 147, [])];
    [(0, 221, []); (0, 221, []); (0, 221, [3])]; [(0, 344, []); (0, 65, [])]; [(0, 156, [])]; [(0, 297, [])] ].
Fixpoint dils_ok (c : curve) (l : list (metric * dil_value)) (ws : list (nat * nat * list nat)) : bool :=
  match l, ws with
  | [], [] => true
  | (m, v) :: l', w :: ws' => dil_ok 1000000 c m v w && dils_ok c l' ws'
  | _, _ => false
  end.
Definition info_ok (i : curve_info) (ws : list (nat * nat * list nat)) : bool := match ci_curve i with Some c => valid_curveb c && dils_ok c (ci_dilation i) ws | None => false end.
Fixpoint infos_dil_ok (l : list curve_info) (ws : list (list (nat * nat * list nat))) : bool :=
  match l, ws with [], [] => true | i :: l', w :: ws' => info_ok i w && infos_dil_ok l' ws' | _, _ => false end.
Lemma infos_dil : infos_dil_ok zoo_infos witnesses = true.
Proof. vm_compute. reflexivity. Qed.
Lemma dils_in c : valid_curve c -> forall l ws, dils_ok c l ws = true -> forall m v, In (m, v) l -> dilation_true 1000000 c m v.
Proof.
  intros V. induction l as [|[m' v'] l IH]; intros [|w ws] H m v Hin; cbn in H; try discriminate; [destruct Hin|]. apply andb_true_iff in H as [H1 H2]. destruct Hin as [E|Hin].
  - assert (m' = m) by congruence. assert (v' = v) by congruence. subst. eapply dil_sound; eauto. reflexivity.
  - eapply IH; eauto.
Qed.
Lemma infos_in : forall l ws, infos_dil_ok l ws = true -> forall i c m v, In i l -> ci_curve i = Some c -> In (m, v) (ci_dilation i) -> dilation_true 1000000 c m v.
Proof.
  induction l as [|i' l IH]; intros [|w ws] H i c m v Hin E Hv; cbn in H; try discriminate; [destruct Hin|]. apply andb_true_iff in H as [H1 H2]. destruct Hin as [->|Hin]; [|eapply IH; eauto].
  unfold info_ok in H1. rewrite E in H1. apply andb_true_iff in H1 as [V D]. apply valid_curveb_ok in V. eapply dils_in; eauto.
Qed.
