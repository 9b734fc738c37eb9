(** Property theorem C55: what plot_curve draws. *)
From Verif Require Import Py L_Qc M_BaseMaps M_Subsets M_Paths M_Curves M_Zoo M_Plots S_Curves S_Plots P_Valid P_Plots.
From Coq Require Import Lia.
Local Open Scope nat_scope.

(** C55: plot_curve(curve, separate=..., subdivision=k) shows, for each pattern, the polyline through the centres of all cubes of the (k+1)-st
    subdivision in the order of time, cut into the fractions of the pattern, each in the colour of its pattern, with connections between
    consecutive fractions, an arrow at the end, the prototype's polyline and the names of the fractions' patterns. *)
Theorem C55_drawn : forall c separate k, valid_curve c -> 2 <= cv_dim c <= 3 -> cv_mult c <= 4 ->
  exists ds sub, plot_curve c separate k = Some ds /\ get_subdivision c (S k) = Some sub /\
    forall p pat fine, nth_error (cv_pats c) p = Some pat -> nth_error (cv_pats sub) p = Some fine ->
      shows (cv_dim c) c pat (cv_div sub) fine p (if separate then 2 * p else p) (if separate then 2 * p + 1 else p) ds.
Proof. intros c separate k HC Hd Hm. apply plot_curve_shows; auto. Qed.
Print Assumptions C55_drawn.
(** C55: exactly the curves of dimension 2 or 3 with at most four patterns can be plotted; for the others plot_curve raises. *)
Theorem C55_when_plotted : forall c separate k, valid_curve c ->
  ((exists ds, plot_curve c separate k = Some ds) <-> 2 <= cv_dim c <= 3 /\ cv_mult c <= 4).
Proof.
  intros c separate k HC. split.
  - intros [ds E]. destruct (Nat.le_gt_cases 2 (cv_dim c)) as [H1|H1]; [destruct (Nat.le_gt_cases (cv_dim c) 3) as [H2|H2]; [destruct (Nat.le_gt_cases (cv_mult c) 4) as [H3|H3]; [auto|]|]|];
      rewrite plot_curve_fails in E by (auto; lia); discriminate.
  - intros [Hd Hm]. destruct (plot_curve_shows c separate k HC Hd Hm) as (ds & _ & E & _). eauto.
Qed.
Print Assumptions C55_when_plotted.
(** C55 (refuted): "every curve of the zoo in dimension 2 or 3 can be plotted": Iupiter has five patterns. *)
Theorem C55_zoo_refuted : ~ (forall oc, In oc zoo_all -> forall c, oc = Some c -> 2 <= cv_dim c <= 3 -> exists ds, plot_curve c false 0 = Some ds).
Proof.
  intros H. destruct (H zoo_iupiter) with (c := curve_or zoo_iupiter) as [ds E].
  - unfold zoo_all. repeat (first [left; reflexivity | right]).
  - vm_compute. reflexivity.
  - vm_compute. split; repeat constructor.
  - rewrite plot_curve_fails in E; [discriminate|apply valid_curveb_ok; vm_compute; reflexivity|]. intros [_ X]. revert X. vm_compute. intros X. repeat apply le_S_n in X. inversion X.
Qed.
Print Assumptions C55_zoo_refuted.
(** A curve with two patterns meets the hypotheses; the first detail line of each pattern and the labels of the first are as expected. *)
Example C55_example :
  let c := curve_or zoo_beta_omega in
  valid_curve c /\ 2 <= cv_dim c <= 3 /\ cv_mult c = 2 /\
  exists ds, plot_curve c true 1 = Some ds /\ length (details 1 ds) = 4 /\ length (details 3 ds) = 4 /\ length (connectors 3 ds) = 6 /\
    details 0 ds = [] /\ length (labels 2 ds) = 4 /\ map fst (proto_lines 2 ds) = [1] /\ map fst (details 3 ds) = [1; 1; 1; 0].
Proof.
  cbn zeta. assert (HC : valid_curve (curve_or zoo_beta_omega)) by (apply valid_curveb_ok; vm_compute; reflexivity).
  assert (E : cv_dim (curve_or zoo_beta_omega) = 2) by (vm_compute; reflexivity). assert (Em : cv_mult (curve_or zoo_beta_omega) = 2) by (vm_compute; reflexivity).
  split; auto. split; [lia|]. split; auto.
  destruct (plot_curve (curve_or zoo_beta_omega) true 1) as [ds|] eqn:ED.
  - exists ds. split; auto. revert ED. vm_compute. intros X. injection X as <-. repeat split; reflexivity.
  - revert ED. vm_compute. discriminate.
Qed.
