(** Property theorems C17: subdivision of curves. *)
From Verif Require Import Py M_BaseMaps M_Subsets M_Paths M_Curves M_Zoo S_Utils S_Curves P_Valid P_Subdiv.
From Coq Require Import Reals.
Local Open Scope nat_scope.

(** C17: get_subdivision(k) succeeds; it is a valid curve (it visits every cube of its grid once) of division div^(k+1). *)
Theorem C17_valid : forall c, valid_curve c -> forall k, exists s, get_subdivision c k = Some s /\ valid_curve s /\
  cv_dim s = cv_dim c /\ cv_div s = cv_div c ^ S k /\ cv_mult s = cv_mult c /\ cv_pnum s = cv_pnum c.
Proof. exact subdivision_ok. Qed.
Print Assumptions C17_valid.
(** C17: its cubes and specs are those of the nested fractions of the original curve, in the order of time. *)
Theorem C17_nested : forall c, valid_curve c -> forall k s p cnums, get_subdivision c k = Some s -> p < cv_mult c ->
  length cnums = S k -> Forall (fun i => i < cv_genus c) cnums ->
  let time := Z.to_nat (value (Z.of_nat (cv_genus c)) (map Z.of_nat cnums)) in
  exists X cubes q pat, walk (pattern_curve c p) cnums = Some (cubes, cv_mul_sp X c) /\
    nth_error (cv_pats s) p = Some pat /\
    nth_error (pr_cubes (pat_proto pat)) time = Some (Some q) /\
    nth_error (pat_specs pat) time = Some (Some X) /\
    length q = cv_dim c /\ forall j, j < cv_dim c -> nth j q 0%Z = place_of j (cv_div c) cubes.
Proof. exact subdivision_nested. Qed.
Print Assumptions C17_nested.
(** C17: it is the same map of [0,1] to the cube. *)
Theorem C17_same_map : forall c, valid_curve c -> forall k s p t x, get_subdivision c k = Some s -> p < cv_mult c ->
  (graph (pattern_curve s p) t x <-> graph (pattern_curve c p) t x).
Proof. exact subdivision_graph. Qed.
Print Assumptions C17_same_map.
(** C17: same entrances and exits. *)
Theorem C17_gates : forall c k s p, valid_curve c -> get_subdivision c k = Some s -> p < cv_mult c ->
  get_entrance s (Some p) = get_entrance c (Some p) /\ get_exit s (Some p) = get_exit c (Some p).
Proof. exact subdivision_gates. Qed.
Print Assumptions C17_gates.
(** C17: it passes check() exactly when the curve does. *)
Theorem C17_check : forall c k s, valid_curve c -> get_subdivision c k = Some s -> (check s = Some true <-> check c = Some true).
Proof. exact subdivision_check. Qed.
Print Assumptions C17_check.
Example C17_example : let c := curve_or zoo_beta_omega in valid_curve c /\ check c = Some true /\
  match get_subdivision c 1 with
  | Some s => cv_div s = 4 /\ option_map (fun p => nth_error (pr_cubes (pat_proto p)) 5) (nth_error (cv_pats s) 0) = Some (Some (Some [0; 2]%Z)) /\
              check s = Some true
  | None => False end.
Proof. cbn zeta. split; [apply valid_curveb_ok; vm_compute; auto|]. split; vm_compute; auto. Qed.
