(** Specification vocabulary for fuzzy curves: groups of base maps, families of paths, the specs that fit a path,
    and curves chosen from a fuzzy curve. *)
From Verif Require Import Py M_BaseMaps M_Subsets M_Paths M_Curves S_BaseMaps S_Subsets S_Paths S_Curves.
Local Open Scope nat_scope.

(** A list of base maps that is a subgroup of the isometries of the d-cube with time reversals. *)
Definition subgroup (d : nat) (g : list base_map) : Prop :=
  NoDup g /\ (forall b, In b g -> wf_bm d b) /\ In (id_map d) g /\
  (forall a b, In a g -> In b g -> In (bm_mul a b) g) /\ (forall a, In a g -> In (bm_inv a) g).
(** The argument base_maps_group of init_from_paths: a subgroup, or None for all base maps. *)
Definition valid_group (d : nat) (group : option (list base_map)) : Prop := forall g, group = Some g -> subgroup d g.
(** Base maps that may be used: of dimension d, in the group if one is given, without time reversal if it is disabled. *)
Definition usable (d : nat) (group : option (list base_map)) (no_time_rev : bool) (b : base_map) : Prop :=
  wf_bm d b /\ (forall g, group = Some g -> In b g) /\ (no_time_rev = true -> time_rev b = false).
(** Paths of a curve: at least one; each visits all cubes of the N-grid of dimension d. *)
Definition valid_paths (d N : nat) (paths : list (path (list Qc))) : Prop :=
  1 <= d /\ 2 <= N /\ paths <> [] /\ Forall (fun p => valid_ppath d p /\ valid_proto d N (pa_proto p)) paths.
(** The spec s puts the pattern s.pnum in the fraction k of path p so that its entrance and exit are the prescribed ones. *)
Definition fits (d : nat) (group : option (list base_map)) (no_time_rev : bool) (paths : list (path (list Qc)))
    (p k : nat) (s : spec) : Prop :=
  exists path l other, nth_error paths p = Some path /\ nth_error (pa_links path) k = Some l /\
    nth_error paths (sp_pnum s) = Some other /\ usable d group no_time_rev (sp_bm s) /\ pl_mul (sp_bm s) (pa_link other) = l.
(** A curve (all specs defined) has the prototypes, dimension, division and selected pattern of the fuzzy curve f and at
    every position one of the allowed specs. *)
Definition chosen_from (f : curve) (x : curve) : Prop :=
  cv_kind x = KCurve /\ cv_dim x = cv_dim f /\ cv_div x = cv_div f /\ cv_pnum x = cv_pnum f /\
  map pat_proto (cv_pats x) = map pat_proto (cv_pats f) /\
  Forall (fun pat => length (pat_specs pat) = cv_genus f) (cv_pats x) /\
  forall p k, p < cv_mult f -> k < cv_genus f ->
    exists s l, get_spec x p k = Some (Some s) /\ gen_allowed_specs f p k = Some l /\ In s l.
(** The fraction number k of b * f is the fraction number k or (time reversed) genus-1-k of f. *)
Definition flip_num (b : base_map) (G k : nat) : nat := if time_rev b then G - 1 - k else k.
(** Every spec defined in the (fuzzy) curve f is the spec of x at the same position. *)
Definition consistent (f x : curve) : Prop :=
  forall p k s, get_spec f p k = Some (Some s) -> get_spec x p k = Some (Some s).
(** The path fuzzy curves a user can build from given paths: init_from_paths, multiplication by base maps and specs,
    and specify, in any order. *)
Inductive built (group : option (list base_map)) (no_time_rev : bool) (paths : list (path (list Qc))) : curve -> Prop :=
| built_init c : init_from_paths paths group no_time_rev = Some c -> built group no_time_rev paths c
| built_mul c b p : built group no_time_rev paths c -> wf_bm (cv_dim c) b -> p < cv_mult c ->
    built group no_time_rev paths (cv_mul_sp (Sp b p) c)
| built_specify c p k s c' : built group no_time_rev paths c -> specify c p k s = Some c' -> built group no_time_rev paths c'.
