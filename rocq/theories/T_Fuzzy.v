(** Property theorems C25, C26, C27, C28, C29: fuzzy curves, their possible curves and their junction templates. *)
From Verif Require Import Py M_BaseMaps M_Subsets M_Paths M_Curves M_Zoo S_BaseMaps S_Subsets S_Utils S_Paths S_Curves S_Junctions S_Fuzzy
  L_BaseMaps P_GenMaps P_Valid P_Check P_FuzzyInit P_FuzzyMain P_FuzzyOps P_FuzzyBuilt P_TemplJunc P_FuzzyExample.
Local Open Scope nat_scope.

(** The fuzzy curve of the path of Hilbert's curve, used in the examples. *)
Definition hilbert_paths : list (path (list Qc)) := match get_paths (curve_or zoo_hilbert) with Some p => p | None => [] end.
Definition hilbert_fuzzy : curve := curve_or (init_from_paths hilbert_paths None false).

(** C25: for an unspecified position the allowed specs are exactly those that fit the entrance and exit there, each once. *)
Theorem C25_allowed_exact : forall d N group no_time_rev paths c p k,
  valid_group d group -> valid_paths d N paths -> init_from_paths paths group no_time_rev = Some c -> p < length paths -> k < N ^ d ->
  exists l, gen_allowed_specs c p k = Some l /\ NoDup l /\ forall s, In s l <-> fits d group no_time_rev paths p k s.
Proof. exact (fun d N g r ps c p k HG HP => init_allowed d N g r ps HG HP c p k). Qed.
Print Assumptions C25_allowed_exact.
(** C25: a position with a defined spec yields only this spec (for all classes but the abstract FuzzyCurve). *)
Theorem C25_specified : forall c p k s, cv_kind c <> KFuzzy -> get_spec c p k = Some (Some s) -> gen_allowed_specs c p k = Some [s].
Proof. exact specified_allowed. Qed.
Print Assumptions C25_specified.
(** C25: init_from_paths raises KeyError exactly if in some fraction of some path no spec fits. *)
Theorem C25_keyerror : forall d N group no_time_rev paths, valid_group d group -> valid_paths d N paths ->
  (init_from_paths paths group no_time_rev = None <->
   exists p k path l, nth_error paths p = Some path /\ nth_error (pa_links path) k = Some l /\ forall s, ~ fits d group no_time_rev paths p k s).
Proof. exact (fun d N g r ps HG HP => init_none d N g r ps HG HP). Qed.
Print Assumptions C25_keyerror.
Example C25_example : valid_group 2 None /\ valid_paths 2 2 hilbert_paths /\ init_from_paths hilbert_paths None false = Some hilbert_fuzzy /\
  option_map (@length spec) (gen_allowed_specs hilbert_fuzzy 0 0) = Some 2.
Proof.
  assert (HV : valid_curve (curve_or zoo_hilbert)) by (apply valid_curveb_ok; vm_compute; reflexivity).
  split; [intros g E; discriminate|]. split; [|split; [vm_compute; reflexivity|vm_compute; reflexivity]].
  unfold hilbert_paths. rewrite (P_Check.get_paths_eq _ HV). exact (forget_paths_valid _ HV).
Qed.

(** C26: every curve chosen from init_from_paths(paths) is valid and its get_paths() is paths. *)
Theorem C26_keeps_paths : forall d N group no_time_rev paths c x,
  valid_group d group -> valid_paths d N paths -> init_from_paths paths group no_time_rev = Some c -> chosen_from c x ->
  valid_curve x /\ get_paths x = Some paths.
Proof. exact (fun d N g r ps c x HG HP EC HX => conj (chosen_valid_init d N g r ps HG HP c EC x HX) (chosen_paths d N g r ps HG HP c EC x HX)). Qed.
Print Assumptions C26_keeps_paths.
(** C26: the curves generated by gen_possible_curves are the chosen curves, each once, at least one; count_possible_curves
    is their number.  This also after multiplications and specify. *)
Theorem C26_possible : forall d N group no_time_rev paths c,
  valid_group d group -> valid_paths d N paths -> built group no_time_rev paths c ->
  exists l, gen_possible_curves c = Some l /\ NoDup l /\ count_possible_curves c = Some (length l) /\ l <> [] /\ forall x, In x l <-> chosen_from c x.
Proof. exact (fun d N g r ps c HG HP => built_possible d N g r ps HG HP c). Qed.
Print Assumptions C26_possible.
(** C26: they are valid curves and pass check() if the paths are continuous. *)
Theorem C26_check : forall d N group no_time_rev paths c x,
  valid_group d group -> valid_paths d N paths -> built group no_time_rev paths c -> chosen_from c x ->
  valid_curve x /\ ((forall p, In p paths -> joined_path p) -> check x = Some true).
Proof. exact (fun d N g r ps c x HG HP HB HX => conj (built_chosen_valid d N g r ps HG HP c x HB HX) (fun HJ => built_check d N g r ps HG HP c x HJ HB HX)). Qed.
Print Assumptions C26_check.
(** C26: a curve is among the possible curves of its forget(), if its specs use the given group. *)
Theorem C26_forget : forall x group no_time_rev,
  valid_curve x -> valid_group (cv_dim x) group -> (forall p k s, get_spec x p k = Some (Some s) -> usable (cv_dim x) group no_time_rev (sp_bm s)) -> cv_pnum x = 0 ->
  exists f l, forget x group no_time_rev = Some f /\ gen_possible_curves f = Some l /\ In x l.
Proof. exact forget_possible. Qed.
Print Assumptions C26_forget.
Example C26_example : option_map (@length curve) (gen_possible_curves hilbert_fuzzy) = Some 16 /\ count_possible_curves hilbert_fuzzy = Some 16 /\
  forget (curve_or zoo_hilbert) None false = Some hilbert_fuzzy /\ cv_pnum (curve_or zoo_hilbert) = 0.
Proof. vm_compute. repeat split. Qed.

(** C27: the allowed specs of b*F are the conjugates of the allowed specs of F at the same fraction of the (reversed) order. *)
Theorem C27_allowed_specs : forall d N group no_time_rev paths c b q p k,
  valid_group d group -> valid_paths d N paths -> built group no_time_rev paths c -> wf_bm d b -> p < cv_mult c -> k < cv_genus c ->
  exists l, gen_allowed_specs c p (if time_rev b then cv_genus c - 1 - k else k) = Some l /\
    gen_allowed_specs (cv_mul_sp (Sp b q) c) p k = Some (map (fun s => Sp (bm_mul (bm_mul b (sp_bm s)) (bm_inv b)) (sp_pnum s)) l).
Proof. exact (fun d N g r ps c b q p k HG HP HB => built_allowed_mul d N g r ps c b q p k HG HP HB). Qed.
Print Assumptions C27_allowed_specs.
(** C27: the curves chosen from b*F are the images under b of the curves chosen from F. *)
Theorem C27_possible : forall d N group no_time_rev paths c b q x,
  valid_group d group -> valid_paths d N paths -> built group no_time_rev paths c -> wf_bm d b -> q < cv_mult c ->
  (chosen_from (cv_mul_sp (Sp b q) c) x <-> exists y, chosen_from c y /\ x = cv_mul_sp (Sp b q) y).
Proof. exact (fun d N g r ps c b q x HG HP => built_mul_possible d N g r ps HG HP c b q x). Qed.
Print Assumptions C27_possible.
Example C27_example : let b := BM [(1, false); (0, true)] true in
  let F := cv_mul_sp (Sp b 0) hilbert_fuzzy in
  built None false hilbert_paths F /\ wf_bm 2 b /\ gen_allowed_specs F 0 3 <> gen_allowed_specs hilbert_fuzzy 0 3 /\ count_possible_curves F = Some 16.
Proof.
  cbv zeta. split; [|split; [apply wf_bmb_ok; vm_compute; reflexivity|split; [vm_compute; discriminate|vm_compute; reflexivity]]].
  apply built_mul; [apply built_init; vm_compute; reflexivity|apply wf_bmb_ok; vm_compute; reflexivity|vm_compute; auto].
Qed.

(** C28: specify raises exactly if the spec is not allowed there. *)
Theorem C28_raises : forall c p k s, specify c p k s = None <-> ~ exists l, gen_allowed_specs c p k = Some l /\ In s l.
Proof. exact specify_raises. Qed.
Print Assumptions C28_raises.
(** C28: otherwise the curves chosen from the result are those with this spec; *)
Theorem C28_narrows : forall c p k s c' x, p < cv_mult c -> k < cv_genus c -> specify c p k s = Some c' ->
  (chosen_from c' x <-> chosen_from c x /\ get_spec x p k = Some (Some s)).
Proof. exact specify_chosen. Qed.
Print Assumptions C28_narrows.
(** C28: and nothing else changes. *)
Theorem C28_frame : forall c p k s c', specify c p k s = Some c' ->
  cv_dim c' = cv_dim c /\ cv_div c' = cv_div c /\ cv_pnum c' = cv_pnum c /\ map pat_proto (cv_pats c') = map pat_proto (cv_pats c) /\
  (get_spec c' p k = Some (Some s) /\ gen_allowed_specs c' p k = Some [s]) /\
  forall p' k', (p', k') <> (p, k) -> get_spec c' p' k' = get_spec c p' k' /\ gen_allowed_specs c' p' k' = gen_allowed_specs c p' k'.
Proof. exact specify_frame. Qed.
Print Assumptions C28_frame.
(** C28: get_curve_example has an allowed spec at every position. *)
Theorem C28_curve_example : forall d N group no_time_rev paths c,
  valid_group d group -> valid_paths d N paths -> built group no_time_rev paths c ->
  exists e, get_curve_example c = Some e /\ cv_dim e = cv_dim c /\ cv_div e = cv_div c /\ cv_pnum e = cv_pnum c /\
    map pat_proto (cv_pats e) = map pat_proto (cv_pats c) /\
    forall p k, p < cv_mult c -> k < cv_genus c -> exists s l, get_spec e p k = Some (Some s) /\ gen_allowed_specs c p k = Some l /\ In s l.
Proof. exact built_example. Qed.
Print Assumptions C28_curve_example.
Example C28_example : let s := Sp (BM [(1, false); (0, false)] false) 0 in let bad := Sp (BM [(0, false); (1, false)] false) 0 in
  specify hilbert_fuzzy 0 0 bad = None /\
  option_map count_possible_curves (specify hilbert_fuzzy 0 0 s) = Some (Some 8).
Proof. vm_compute. repeat split. Qed.

(** C29: a curve chosen from a fuzzy curve has the junction j iff it is consistent with one of the templates of j.
    (Junctions are equal if spec1, spec2, delta_x and delta_t are, as in the code.) *)
Theorem C29_exact : forall d N group no_time_rev paths c fuel T,
  valid_group d group -> valid_paths d N paths -> built group no_time_rev paths c -> get_junction_templates fuel c = Some T ->
  forall x fuel' js, chosen_from c x -> gen_regular_junctions fuel' x = (js, GDone) ->
  forall j, (exists j', In j' js /\ (j_spec1 j', j_spec2 j', j_dx j', j_dt j') = (j_spec1 j, j_spec2 j, j_dx j, j_dt j)) <->
            exists cvs cv, dget junc_eqb T j = Some cvs /\ In cv cvs /\ consistent cv x.
Proof. exact (fun d N g r ps c fuel T HG HP HB => templates_exact d N g r ps HG HP c HB fuel T). Qed.
Print Assumptions C29_exact.
(** C29: for continuous paths the computation of the templates ends (and, by C23 and C26, so does the enumeration of the
    junctions of each chosen curve). *)
Theorem C29_terminates : forall d N group no_time_rev paths c,
  valid_group d group -> valid_paths d N paths -> built group no_time_rev paths c -> (forall p, In p paths -> joined_path p) ->
  exists fuel0 T, forall fuel, fuel0 <= fuel -> get_junction_templates fuel c = Some T.
Proof. exact (fun d N g r ps c HG HP HB => templates_end d N g r ps HG HP c HB). Qed.
Print Assumptions C29_terminates.
Example C29_example : option_map (map (fun e => length (snd e))) (get_junction_templates 100 hilbert_fuzzy) <> None /\
  snd (gen_regular_junctions 100 (curve_or zoo_hilbert)) = GDone.
Proof. vm_compute. split; [discriminate|reflexivity]. Qed.
