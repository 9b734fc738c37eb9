(** Property theorems C60: wrong arguments are rejected. *)
From Verif Require Import Py L_Py L_Qc L_BaseMaps M_BaseMaps M_Subsets M_Paths M_Curves M_PathTree M_PathGen M_Gates M_Utils M_Heap M_Heapq M_Sat M_Dilation M_Search M_Text M_GatesText M_Main
  S_BaseMaps S_Subsets S_Paths S_PathGen S_PathTree S_Gates S_GatesText S_Main P_GatesText T_PathGen T_Main.
From Coq Require String.
Local Open Scope nat_scope.

(** Wrong options of search.py, as the user sees them. *)
Inductive wrong_args (a : args) : Prop :=
| odd_l2 : Nat.even (a_dim a) = false -> a_metric a = Some M_l2 -> wrong_args a
| no_metric : a_metric a = None -> a_output_gates a = false -> wrong_args a
| bad_gates t : a_gates a = Some t -> parse_gates_line t = None -> wrong_args a
| bad_file t : a_gates_file a = Some t -> parse_gates_file t = None -> wrong_args a
| bad_number gl gates : given_gates a (Some gl) -> In gates gl -> length gates <> a_mult a -> wrong_args a
| bad_bound t : a_upper_bound a = Some t -> (forall q, ~ denotes t q) -> wrong_args a.

(** C60: with wrong options search.py prints nothing, whatever the solver and however long it runs (None: an exception; the
    fuel is arbitrary). *)
Theorem C60_main_rejects : forall hash fhash fuel solver sched a, wrong_args a -> search_main hash fhash fuel solver sched a = None.
Proof.
  intros hash fhash fuel solver sched a W. unfold search_main. destruct W as [H1 H2|H1 H2|t H1 H2|t H1 H2|gl gates H1 H2 H3|t H1 H2].
  - rewrite H2. rewrite <- Nat.negb_even, H1. reflexivity.
  - rewrite H1, H2. destruct (_ && _); reflexivity.
  - destruct (_ && _); auto. destruct (_ && _); auto. unfold main_gates. destruct (match a_gates_file a with Some t => _ | None => _ end); auto. cbn [obind]. rewrite H1, H2. reflexivity.
  - destruct (_ && _); auto. destruct (_ && _); auto. unfold main_gates. rewrite H1, H2. reflexivity.
  - destruct (_ && _); auto. destruct (_ && _); auto. rewrite (given_main a _ H1). cbn [obind]. destruct (match a_upper_bound a with Some t => _ | None => _ end); auto. cbn [obind].
    unfold run_search, search_gates. replace (forallb (fun gates => Nat.eqb (length gates) (a_mult a)) gl) with false; auto.
    symmetry. destruct (forallb _ gl) eqn:E; auto. rewrite forallb_forall in E. specialize (E _ H2). apply Nat.eqb_eq in E. contradiction.
  - destruct (_ && _); auto. destruct (_ && _); auto. destruct (main_gates a); auto. cbn [obind]. rewrite H1. destruct (frac_parse t) as [q|] eqn:E; auto. destruct (H2 q). apply frac_parse_ok; auto.
Qed.
Print Assumptions C60_main_rejects.
(** C60: a search for paths with both links and parents, or for one path with neither or both of link and parent, is
    rejected. *)
Theorem C60_paths_reject : forall T (O : subset_ops T) pt g hash fuel start_max finish_max std,
  (forall links parents, generate_paths O pt g hash fuel start_max finish_max (Some links) (Some parents) std = None) /\
  (forall links parents, get_paths_example O pt g hash fuel start_max finish_max (Some links) (Some parents) std = None) /\
  (forall link parent, pg_generic O pt g hash fuel start_max finish_max std (Some link) (Some parent) = None) /\
  pg_generic O pt g hash fuel start_max finish_max std None None = None.
Proof. intros. repeat split. Qed.
Print Assumptions C60_paths_reject.

(** Six wrong calls like that of C49_example; with the right options the program prints something. *)
Import String.StringSyntax.
Example C60_example :
  let call := Args 2 1 2 false in
  let three := Args 3 1 2 false in
  let ok := Some (tx "(0,0)->(0,1)") in
  wrong_args (three None None None None (Some M_l2) None None None false false) /\
  wrong_args (call ok None None None None None None None false false) /\
  wrong_args (call (Some (tx "(0,0)>(0,1)")) None None None (Some M_l1) None None None false false) /\
  wrong_args (call ok (Some (tx "0,0" ++ [newline])) None None (Some M_l1) None None None false false) /\
  wrong_args (call (Some (tx "(0,0)->(0,1)|(0,0)->(1,1)")) None None None (Some M_l1) None None None false false) /\
  wrong_args (call ok None None None (Some M_l1) (Some (tx "6.")) None None false false) /\
  search_main (fun _ => 0%Z) (fun _ => 0%Z) 400 (fun _ _ => None) (fun z => z) (call ok None None None None None None None false true) = Some (Gates_printed [[Lk [Zq 0; Zq 0] [Zq 0; Zq 1]]]).
Proof.
  cbn zeta. split; [|split; [|split; [|split; [|split; [|split]]]]].
  - apply odd_l2; reflexivity.
  - apply no_metric; reflexivity.
  - eapply bad_gates; [reflexivity|vm_compute; reflexivity].
  - eapply bad_file; [reflexivity|vm_compute; reflexivity].
  - eapply bad_number; [split; [discriminate|]; cbn; eexists; split; [vm_compute; reflexivity|reflexivity]|left; reflexivity|discriminate].
  - eapply bad_bound; [reflexivity|]. intros q H. apply frac_parse_ok in H. vm_compute in H. discriminate.
  - vm_compute. reflexivity.
Qed.
