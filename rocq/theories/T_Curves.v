(** Property theorems C08, C14-C16, C19 (paths.py, curves.py). Nothing else is in this file. *)
From Verif Require Import Py L_Py L_Qc M_BaseMaps S_BaseMaps L_BaseMaps M_Subsets S_Subsets P_Subsets M_Paths M_Curves S_Curves S_Paths
  P_CurveAct P_Bridge P_Paths P_Entrance M_Zoo P_Valid M_Text L_R S_Utils.
From Coq Require Import Reals.
Local Open Scope nat_scope.

(** C08: products of specs and base maps are associative in all mixed forms and the identity is neutral. *)
Theorem C08_semigroup : forall d s1 s2 s3 a b,
  wf_bm d (sp_bm s1) -> wf_bm d (sp_bm s2) -> wf_bm d (sp_bm s3) -> wf_bm d a -> wf_bm d b ->
  sp_mul (sp_mul s1 s2) s3 = sp_mul s1 (sp_mul s2 s3) /\
  sp_mul (sp_mul_bm s1 a) s2 = sp_mul s1 (bm_mul_sp a s2) /\
  sp_mul_bm (sp_mul s1 s2) a = sp_mul s1 (sp_mul_bm s2 a) /\
  sp_mul (bm_mul_sp a s1) s2 = bm_mul_sp a (sp_mul s1 s2) /\
  bm_mul_sp (bm_mul a b) s1 = bm_mul_sp a (bm_mul_sp b s1) /\
  sp_mul_bm s1 (bm_mul a b) = sp_mul_bm (sp_mul_bm s1 a) b /\
  sp_mul_bm (bm_mul_sp a s1) b = bm_mul_sp a (sp_mul_bm s1 b) /\
  bm_mul_sp (id_map d) s1 = s1 /\ sp_mul_bm s1 (id_map d) = s1.
Proof. exact spec_semigroup. Qed.
Print Assumptions C08_semigroup.
(** C08: and they act on curves as composition. *)
Theorem C08_action : forall c s1 s2 b,
  wf_bm (cv_dim c) (sp_bm s1) -> wf_bm (cv_dim c) (sp_bm s2) -> wf_bm (cv_dim c) b -> valid_fuzzy c ->
  cv_mul_sp (sp_mul s1 s2) c = cv_mul_sp s1 (cv_mul_sp s2 c) /\
  cv_mul_sp (bm_mul_sp b s1) c = cv_mul_bm b (cv_mul_sp s1 c) /\
  cv_mul_sp (sp_mul_bm s1 b) c = cv_mul_sp s1 (cv_mul_bm b c).
Proof. exact spec_action. Qed.
Print Assumptions C08_action.
Example C08_example :
  let s := Sp (BM [(1, true); (0, false)] true) 1 in
  valid_curve (curve_or zoo_beta_omega) /\ wf_bm 2 (sp_bm s) /\ cv_mul_sp s (curve_or zoo_beta_omega) <> curve_or zoo_beta_omega.
Proof. cbn zeta. split; [apply valid_curveb_ok; vm_compute; auto|]. split; [apply wf_bmb_ok; vm_compute; auto|]. vm_compute. discriminate. Qed.

(** C14: base maps act on prototypes, and the image of a prototype visiting every cube once does so too. *)
Theorem C14_proto : forall d N a b p, wf_bm d a -> wf_bm d b -> valid_proto d N p ->
  pr_mul (bm_mul a b) p = pr_mul a (pr_mul b p) /\ pr_mul (id_map d) p = p /\ pr_inv (pr_inv p) = p /\
  pr_inv p = pr_mul (bm_rev (id_map d)) p /\ valid_proto d N (pr_mul b p).
Proof.
  exact (fun d N a b p Ha Hb Hp => conj (pr_mul_mul d a b p Ha Hb (valid_proto_len d N p Hp))
    (conj (pr_mul_id d p (valid_proto_len d N p Hp)) (conj (pr_inv_inv p)
    (conj (pr_inv_mul d p (valid_proto_len d N p Hp)) (valid_proto_mul d N b p Hb Hp))))).
Qed.
Print Assumptions C14_proto.
(** C14: base maps act on point links. *)
Theorem C14_link : forall d a b l, wf_bm d a -> wf_bm d b -> pl_dim d l ->
  pl_mul (bm_mul a b) l = pl_mul a (pl_mul b l) /\ pl_mul (id_map d) l = l /\ lk_inv (lk_inv l) = l /\
  lk_inv l = pl_mul (bm_rev (id_map d)) l.
Proof. exact link_action. Qed.
Print Assumptions C14_link.
(** C14: base maps act on point paths; the global link is transformed with the path. *)
Theorem C14_path : forall d a b p, wf_bm d a -> wf_bm d b -> valid_ppath d p ->
  exists bp, pa_mul point_ops b p = Some bp /\ valid_ppath d bp /\ pa_link bp = pl_mul b (pa_link p) /\
    pa_mul point_ops (bm_mul a b) p = pa_mul point_ops a bp /\ pa_mul point_ops (id_map d) p = Some p /\
    obind (pa_inv point_ops p) (pa_inv point_ops) = Some p.
Proof. exact path_action. Qed.
Print Assumptions C14_path.
(** C14: is_continuous decides that consecutive fractions share a point, and a base map does not change the answer. *)
Theorem C14_continuous : forall d p, valid_ppath d p ->
  exists r, pa_is_continuous point_ops p = Some r /\ (r = true <-> joined_path p).
Proof. exact is_continuous_exact. Qed.
Print Assumptions C14_continuous.
Theorem C14_continuity_preserved : forall d b p bp, wf_bm d b -> valid_ppath d p -> pa_mul point_ops b p = Some bp ->
  exists r, pa_is_continuous point_ops p = Some r /\ pa_is_continuous point_ops bp = Some r.
Proof. exact continuous_preserved. Qed.
Print Assumptions C14_continuity_preserved.
Example C14_example : exists p, get_paths (curve_or zoo_hilbert) = Some [p] /\ valid_ppath 2 p /\
  pa_is_continuous point_ops p = Some true /\ valid_proto 2 2 (pa_proto p) /\ wf_bm 2 (BM [(1, true); (0, false)] true).
Proof.
  eexists. split; [vm_compute; reflexivity|]. split; [|split; [vm_compute; auto|split; [apply valid_protob_ok; vm_compute; auto|apply wf_bmb_ok; vm_compute; auto]]].
  constructor; cbn; auto; try (intros E; discriminate E).
  - repeat constructor; eexists; split; auto; reflexivity.
  - repeat constructor.
Qed.

(** C15: base maps act on curves of all classes. *)
Theorem C15_action : forall c a b, wf_bm (cv_dim c) a -> wf_bm (cv_dim c) b -> valid_fuzzy c ->
  cv_mul_bm a (cv_mul_bm b c) = cv_mul_bm (bm_mul a b) c /\ cv_mul_bm (id_map (cv_dim c)) c = c /\
  cv_mul_bm (bm_inv a) (cv_mul_bm a c) = c /\ cv_inv (cv_inv c) = c /\ cv_inv c = cv_mul_bm (bm_rev (id_map (cv_dim c))) c.
Proof. exact curve_action. Qed.
Print Assumptions C15_action.
(** C15: the image of a valid curve is a valid curve of the same shape. *)
Theorem C15_valid : forall b p c, wf_bm (cv_dim c) b -> p < cv_mult c ->
  (valid_fuzzy c -> valid_fuzzy (cv_mul b p c)) /\ (valid_curve c -> valid_curve (cv_mul b p c)).
Proof. exact (fun b p c Hb Hp => conj (valid_fuzzy_mul b p c Hb Hp) (valid_curve_mul b p c Hb Hp)). Qed.
Print Assumptions C15_valid.
Example C15_example :
  valid_fuzzy (curve_or zoo_haverkort_f) /\ wf_bm 3 (BM [(1, true); (2, false); (0, true)] true) /\
  (exists f, forget (curve_or zoo_hilbert) None false = Some f /\ valid_fuzzy f) /\
  cv_inv (curve_or zoo_hilbert) <> curve_or zoo_hilbert.
Proof.
  split; [apply valid_curve_fuzzy, valid_curveb_ok; vm_compute; auto|]. split; [apply wf_bmb_ok; vm_compute; auto|].
  split; [|vm_compute; discriminate].
  eexists. split; [vm_compute; reflexivity|]. split; [cbn; lia|]. split; [cbn; lia|]. split; [cbn; lia|].
  cbn [cv_dim cv_div cv_kind cv_pats valid_kind links_std pat_reprs].
  split; [split; repeat (constructor; cbn [snd]; try (apply wf_bmb_ok; vm_compute; reflexivity))|].
  constructor; [|constructor]. split; [apply valid_protob_ok; vm_compute; auto|]. split; [reflexivity|].
  apply Forall_forall. intros os Hos s E. cbn in Hos. destruct Hos as [H|[H|[H|[H|[]]]]]; congruence.
Qed.

(** C16: get_deep_spec along any nested sequence of cube numbers succeeds and the nested fraction of the pattern is
    the curve transformed by it. *)
Theorem C16_deep_spec : forall c, valid_curve c -> forall p cnums, p < cv_mult c -> Forall (fun k => k < cv_genus c) cnums ->
  exists X cubes, get_deep_spec c p (map Z.of_nat cnums) = Some X /\ wf_spec (cv_dim c) (cv_mult c) X /\
    walk (pattern_curve c p) cnums = Some (cubes, cv_mul_sp X c).
Proof. exact deep_spec_walk. Qed.
Print Assumptions C16_deep_spec.
(** C16, one step: _compose_specs(S, k) is the spec of the k-th fraction of S*C. *)
Theorem C16_step : forall c, valid_curve c -> forall X k, wf_spec (cv_dim c) (cv_mult c) X -> k < cv_genus c ->
  exists Y cube, compose_specs c X (Z.of_nat k) = Some Y /\ fraction (cv_mul_sp X c) k = Some (cube, cv_mul_sp Y c).
Proof. exact deep_spec_step. Qed.
Print Assumptions C16_step.
Example C16_example : valid_curve (curve_or zoo_haverkort_f) /\
  get_deep_spec (curve_or zoo_haverkort_f) 0 [2; 5; 7]%Z = Some (Sp (BM [(1, true); (2, false); (0, false)] true) 0).
Proof. split; [apply valid_curveb_ok; vm_compute; auto|]. vm_compute. reflexivity. Qed.

(** C19: get_entrance / get_exit terminate with a point and it is the only point of the graph of the map at time 0 / 1.
    The fuzzy curves allowed here have the first and last specs defined. *)
Theorem C19_entrance : forall c, valid_fuzzy c ->
  (forall p, p < cv_mult c -> (exists s, get_spec c p 0 = Some (Some s)) /\ exists s, get_spec c p (cv_genus c - 1) = Some (Some s)) ->
  forall p, p < cv_mult c -> exists e, get_entrance c (Some p) = Some e /\ length e = cv_dim c /\
    forall y, graph (pattern_curve c p) 0 y <-> y = map qR e.
Proof. exact entrance_graph. Qed.
Print Assumptions C19_entrance.
Theorem C19_exit : forall c, valid_fuzzy c ->
  (forall p, p < cv_mult c -> (exists s, get_spec c p 0 = Some (Some s)) /\ exists s, get_spec c p (cv_genus c - 1) = Some (Some s)) ->
  forall p, p < cv_mult c -> exists e, get_exit c (Some p) = Some e /\ length e = cv_dim c /\
    forall y, graph (pattern_curve c p) 1 y <-> y = map qR e.
Proof. exact exit_graph. Qed.
Print Assumptions C19_exit.
(** C19: self-similarity through the first and last fractions. *)
Theorem C19_selfsimilar : forall c, valid_fuzzy c ->
  (forall p, p < cv_mult c -> (exists s, get_spec c p 0 = Some (Some s)) /\ exists s, get_spec c p (cv_genus c - 1) = Some (Some s)) ->
  forall p pat e x q0 q1 s0 s1 l0 l1,
  nth_error (cv_pats c) p = Some pat -> get_entrance c (Some p) = Some e -> get_exit c (Some p) = Some x ->
  nth_error (pr_cubes (pat_proto pat)) 0 = Some (Some q0) -> nth_error (pat_specs pat) 0 = Some (Some s0) ->
  nth_error (pr_cubes (pat_proto pat)) (cv_genus c - 1) = Some (Some q1) -> nth_error (pat_specs pat) (cv_genus c - 1) = Some (Some s1) ->
  get_entrance c (Some (sp_pnum s0)) = Some (entrance l0) -> get_exit c (Some (sp_pnum s0)) = Some (exit l0) ->
  get_entrance c (Some (sp_pnum s1)) = Some (entrance l1) -> get_exit c (Some (sp_pnum s1)) = Some (exit l1) ->
  place_in (cv_div c) q0 (entrance (pl_mul (sp_bm s0) l0)) e /\ place_in (cv_div c) q1 (exit (pl_mul (sp_bm s1) l1)) x.
Proof. exact link_selfsim'. Qed.
Print Assumptions C19_selfsimilar.
(** C19: the pair (entrance, exit) of b*C is b*(pair of C). *)
Theorem C19_equivariant : forall b c, wf_bm (cv_dim c) b -> valid_fuzzy c ->
  (forall p, p < cv_mult c -> (exists s, get_spec c p 0 = Some (Some s)) /\ exists s, get_spec c p (cv_genus c - 1) = Some (Some s)) ->
  forall q l, q < cv_mult c -> get_entrance c (Some q) = Some (entrance l) -> get_exit c (Some q) = Some (exit l) ->
  get_entrance (cv_mul_bm b c) (Some q) = Some (entrance (pl_mul b l)) /\ get_exit (cv_mul_bm b c) (Some q) = Some (exit (pl_mul b l)).
Proof. exact link_equivariant'. Qed.
Print Assumptions C19_equivariant.
(** zoo.py:191, 230, 245: the documented gates of the Beta-Omega curve. *)
Example C19_example : let c := curve_or zoo_beta_omega in let q (a b : nat) := (Nq a / Nq b)%Qc in
  valid_fuzzy c /\
  (forall p, p < cv_mult c -> (exists s, get_spec c p 0 = Some (Some s)) /\ exists s, get_spec c p (cv_genus c - 1) = Some (Some s)) /\
  match get_entrance c (Some 1), get_exit c (Some 1) with
  | Some e, Some x => pt_eqb e [0%Qc; q 1 3] && pt_eqb x [q 2 3; 0%Qc] | _, _ => false end = true.
Proof.
  cbn zeta. assert (H : valid_curve (curve_or zoo_beta_omega)) by (apply valid_curveb_ok; vm_compute; auto). split; [apply valid_curve_fuzzy; auto|].
  split; [apply curve_ends_def; auto|]. vm_compute. reflexivity.
Qed.
