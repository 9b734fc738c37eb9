(** C48: the text form of points and gates. C49: the main program of search.py. *)
From Verif Require Import Py L_Py L_Qc L_BaseMaps M_BaseMaps M_Subsets M_Paths M_Curves M_PathTree M_PathGen M_Gates M_Utils M_Heap M_Heapq M_Sat M_Dilation M_Search M_Text M_GatesText M_Main M_Zoo
  S_BaseMaps S_Subsets S_Paths S_Utils S_Curves S_Fuzzy S_PathGen S_PathTree S_Gates S_Heap S_Sat S_Ratio S_Dilation S_Search S_Term S_GatesText S_Main
  P_Heap P_Heapq P_SatSolver P_GatesText P_TermNorms T_PathGen T_Dilation T_Search.
From Coq Require Import Reals.
From Coq Require String.
Local Open Scope nat_scope.

(** Fractions are read exactly as their text form says. *)
Theorem C48_fraction : forall t q, frac_parse t = Some q <-> denotes t q.
Proof. exact frac_parse_ok. Qed.
Print Assumptions C48_fraction.
(** Points and gates are read as their text form says, and their str() is such a text form. *)
Theorem C48_point : forall p, (forall t, denotes_point t p -> point_parse t = Some p) /\ (p <> [] -> denotes_point (point_str p) p).
Proof. intros p. split; [intros t; apply point_parse_ok|apply point_str_denotes]. Qed.
Print Assumptions C48_point.
Theorem C48_gates : forall l, (forall t, denotes_gates t l -> parse_gates t = Some l) /\ (entrance l <> [] -> exit l <> [] -> parse_gates (plink_str l) = Some l).
Proof.
  intros l. split; [intros t; apply parse_gates_ok|]. intros H1 H2. apply parse_gates_ok. pose proof (plink_str_denotes [] l [] (conj H1 H2) (Forall_nil _) (Forall_nil _)) as H. cbn [app] in H. rewrite app_nil_r in H. exact H.
Qed.
Print Assumptions C48_gates.
(** What --output-gates prints is read back by --gates-file. *)
Theorem C48_file : forall gl, Forall (fun gs => gs <> [] /\ Forall (fun l => entrance l <> [] /\ exit l <> []) gs) gl -> parse_gates_file (gates_output gl) = Some gl.
Proof. exact parse_gates_file_ok. Qed.
Print Assumptions C48_file.
(** A point without coordinates is not read back. *)
Theorem C48_empty_point_refuted : point_parse (point_str []) = None.
Proof. reflexivity. Qed.
Print Assumptions C48_empty_point_refuted.

Definition tx (s : String.string) : text := String.list_ascii_of_string s.
Import String.StringSyntax.
Arguments tx _%string_scope.
Example C48_example :
  option_map (map this) (point_parse (tx " ( 0, 1/2 ,-3/6) ")) = Some [0; 1 # 2; -1 # 2]%Q /\ point_parse (tx "(0,1/0)") = None /\ point_parse (tx "(0,,1)") = None /\
  parse_gates (tx "(0,0)->(1,1/2)") = Some (Lk [Zq 0; Zq 0] [Zq 1; Q2Qc (1 # 2)]) /\ parse_gates (tx "(0,0)") = None /\
  gates_output [[Lk [Zq 0; Zq 0] [Zq 1; Q2Qc (1 # 2)]; Lk [Zq 0; Zq 0] [Zq 0; Zq 1]]] = tx "(0,0) -> (1,1/2) | (0,0) -> (0,1)" ++ [newline].
Proof. repeat split; vm_compute; reflexivity. Qed.

(** * C49 *)
Lemma metric_ok m d : 1 <= d -> (m = M_l2 -> Nat.even d = true) -> ratio_ok d (metric_ratio m d) (metric_fun m d).
Proof. intros Hd He. destruct (C35_norms d Hd) as (A & B & C & D). destruct m; cbn; auto. Qed.
Lemma metric_power m d : exists pw, ratio_power pw (metric_fun m d).
Proof. destruct (norms_power d) as (A & B & C & D). destruct m; cbn; eauto. Qed.
Lemma even_guard d (m : metric) : (m = M_l2 -> Nat.even d = true) -> (Nat.odd d && match Some m with Some M_l2 => true | _ => false end) = false.
Proof. intros H. destruct m; rewrite ?andb_false_r; auto. rewrite <- Nat.negb_even, H; auto. Qed.

Lemma given_main a gate_list : given_gates a gate_list -> main_gates a = Some gate_list.
Proof.
  intros [HF H]. unfold main_gates. destruct (a_gates_file a) as [tf|].
  - destruct (HF tf eq_refl) as [gl E]. rewrite E. cbn [option_map obind]. destruct (a_gates a) as [t|]; [destruct H as (gates & -> & ->); reflexivity|].
    destruct H as (gl' & E' & ->). congruence.
  - cbn [obind]. destruct (a_gates a) as [t|]; [destruct H as (gates & -> & ->); reflexivity|]. congruence.
Qed.
Section Main.
Context (hash : future_t (link (list Qc)) -> Z) (fhash : future_t (link facet_set) -> Z) (solver : sat_solver) (sched : Z -> Z).
Context (HH : hash_ok hash) (HF : hash_ok fhash) (HS : sat_ok solver).

(** The program with good options ends with a list of reports; each is correct for the metric and the class of curves asked for;
    it stops early only at a generator without curves below the bound. *)
Theorem C49_main : forall a gate_list upper m, good_args a gate_list upper m ->
  let d := a_dim a in let N := a_div a in let mu := a_mult a in
  exists fuel0 gl reports crashed, (forall fuel, fuel0 <= fuel ->
      search_main hash fhash fuel solver sched (with_output a true) = Some (Gates_printed gl) /\
      search_main hash fhash fuel solver sched (with_output a false) = Some (Reports reports crashed)) /\
    let gens := if a_group_by_gates a then map Some gl else [None] in
    map fst reports = firstn (length reports) gens /\
    (forall gen_id lo up examples idxs, In (gen_id, (lo, up, examples, idxs)) reports ->
       report_ok d N mu (a_max_cdist a) gate_list (a_facet_gated a) (metric_fun m d) (rel_tol_of a) upper gen_id lo up examples) /\
    (crashed = false -> length reports = length gens) /\
    (crashed = true -> exists gen_id, nth_error gens (length reports) = Some gen_id /\
       nothing_found d N mu (a_max_cdist a) gate_list (a_facet_gated a) (metric_fun m d) upper gen_id).
Proof.
  intros a gate_list upper m [G1 G2 G3 G4 G5 G6 G7 G8 G9 G10] d N mu. apply given_main in G8. assert (Hd : 1 <= d) by (unfold d; destruct (a_facet_gated a); lia).
  set (fin := Some (match a_finish_max_count a with Some n => n | None => million end)). set (rel := match a_rel_tol_inv a with Some r => r | None => 1000%Z end). set (mult := match a_rel_tol_inv_mult a with Some r => r | None => 4%Z end).
  assert (Hmult : (2 <= mult)%Z) by (unfold mult; destruct (a_rel_tol_inv_mult a) as [r|] eqn:Er; [apply G5; auto|lia]).
  pose proof (metric_ok m d Hd G7) as RO. destruct (metric_power m d) as (pw & RP).
  destruct (C46_returns d N mu (a_max_cdist a) gate_list (a_facet_gated a) G1 G2 G3 G9 fhash hash default_start (Some million) 1000 (Some million) hash default_start fin HF HH HH (metric_ratio m) cpython_heapq cpython_heapq _ pw
     (cpython_heapq_ok) (cpython_heapq_ok) RO RP solver sched rel mult upper (a_group_by_gates a) false HS G4 Hmult) as (F1 & out & E1).
  pose proof (C46_search d N mu (a_max_cdist a) gate_list (a_facet_gated a) G1 G2 G3 G9 fhash hash default_start (Some million) 1000 (Some million) hash default_start fin HF HH HH) as E2.
  destruct (C46_gates d N mu (a_max_cdist a) gate_list (a_facet_gated a) G1 G2 G3 G9 fhash hash default_start (Some million) 1000 (Some million) HF HH) as (F3 & gl & E3 & _).
  assert (ER : forall fuel b, search_main hash fhash fuel solver sched (with_output a b) =
     run_search d N mu (a_max_cdist a) (M_Gates.SP hash fuel default_start fin) (metric_ratio m) cpython_heapq cpython_heapq fuel solver sched
       (M_Gates.SP fhash fuel default_start (Some million)) (M_Gates.SP hash fuel 1000 (Some million)) rel mult gate_list (a_facet_gated a) upper (a_group_by_gates a) b).
  { intros fuel b. unfold search_main. cbn [a_dim a_metric with_output a_output_gates]. rewrite G6, (even_guard (a_dim a) m G7). rewrite andb_false_r. change (main_gates (with_output a b)) with (main_gates a). rewrite G8. cbn [obind].
    cbn [a_upper_bound with_output]. destruct (a_upper_bound a) as [t|]; [|injection G10 as <-; reflexivity]. destruct (frac_parse t); [|discriminate]. cbn in G10. injection G10 as <-. reflexivity. }
  set (F := Nat.max F1 F3). assert (Eout : exists reports crashed, out = Reports reports crashed).
  { pose proof (E1 F ltac:(unfold F; lia)) as E. unfold run_search in E. destruct (search_gates _ _ _ _ _ _ _); [|discriminate]. cbn [obind] in E. destruct (search_loop _ _ _ _ _ _) as [rc|]; [|discriminate]. cbn in E. injection E as <-. eauto. }
  destruct Eout as (reports & crashed & ->). exists F, gl, reports, crashed.
  destruct (E2 F (metric_ratio m) cpython_heapq cpython_heapq _ (cpython_heapq_ok) (cpython_heapq_ok) RO F solver sched rel mult upper (a_group_by_gates a) reports crashed HS (E1 F ltac:(unfold F; lia))) as (gl' & R1 & R2 & R3 & R4 & R5).
  rewrite (E3 F) in R1 by (unfold F; lia). injection R1 as <-.
  split; [intros fuel Hf; rewrite !ER; split; [apply E3|apply E1]; unfold F in Hf; lia|]. split; auto.
Qed.

(** Two runs instead of one: the gates printed by a first run with --output-gates are put into a file; a second run with
    --gates-file gives the same result as a single run. *)
Theorem C49_two_runs : forall a gate_list upper m, good_args a gate_list upper m ->
  exists fuel0 gl, forall fuel, fuel0 <= fuel ->
    search_main hash fhash fuel solver sched (with_output a true) = Some (Gates_printed gl) /\
    search_main hash fhash fuel solver sched (with_file a (gates_output gl)) = search_main hash fhash fuel solver sched a.
Proof.
  intros a gate_list upper m [G1 G2 G3 G4 G5 G6 G7 G8 G9 G10]. apply given_main in G8. set (d := a_dim a) in *. assert (Hd : 1 <= d) by (destruct (a_facet_gated a); lia).
  destruct (gates_exist d (a_div a) (a_mult a) gate_list (a_facet_gated a) fhash default_start (Some million) hash 1000 (Some million) G1 G2 G3 HF HH G9) as (F & gl & E & U & _). exists F, gl. intros fuel Hf. specialize (E fuel Hf).
  assert (EP : parse_gates_file (gates_output gl) = Some gl).
  { apply C48_file. eapply Forall_impl; [|exact U]. cbn. intros gs (L & Hu). split; [destruct gs; [cbn in L; lia|discriminate]|]. eapply Forall_impl; [|exact Hu]. cbn. intros l ((L1 & _) & (L2 & _)). split; intros X; rewrite X in *; cbn in *; lia. }
  assert (EL : forallb (fun gates : list plink => Nat.eqb (length gates) (a_mult a)) gl = true) by (apply forallb_forall; intros gs Hg; rewrite Forall_forall in U; apply Nat.eqb_eq, U; auto).
  assert (EU : exists u, match a_upper_bound a with Some t => option_map Some (frac_parse t) | None => Some None end = Some u) by eauto. destruct EU as (u & EU).
  unfold search_main. cbn [a_dim a_metric with_output with_file a_output_gates]. fold d. rewrite G6, (even_guard d m G7). rewrite !andb_false_r.
  change (main_gates (with_output a true)) with (main_gates a). unfold main_gates at 2. cbn [a_gates_file a_gates with_file]. rewrite EP, G8. cbn [obind option_map a_upper_bound with_output with_file]. rewrite EU. cbn [obind].
  unfold run_search. cbn [a_div a_mult a_facet_gated with_output with_file]. fold d. rewrite E. cbn [obind]. split; [reflexivity|]. unfold search_gates at 1. rewrite EL. reflexivity.
Qed.
End Main.
Print Assumptions C49_main.
Print Assumptions C49_two_runs.

(** An instance: search.py --dim 2 --mult 1 --div 2 --gates "(0,0)->(0,1)" --max-cdist 1 --metric linf --upper-bound 13/2 --rel-tol-inv 2 --rel-tol-inv_mult 2 *)
Definition ex_args : args := Args 2 1 2 false (Some (tx "(0,0)->(0,1)")) None (Some 1%Z) None (Some M_linf) (Some (tx "13/2")) (Some 2%Z) (Some 2%Z) false false.
Example C49_example : good_args ex_args (Some [[Lk [Zq 0; Zq 0] [Zq 0; Zq 1]]]) (Some (Q2Qc (13 # 2))) M_linf /\
  search_main (fun _ => 0%Z) (fun _ => 0%Z) 400 simple_solver (fun z => (z + z / 3 + 1)%Z) (with_output ex_args true) = Some (Gates_printed [[Lk [Zq 0; Zq 0] [Zq 0; Zq 1]]]) /\
  report_between (Zq 4) (Zq 7) (search_main (fun _ => 0%Z) (fun _ => 0%Z) 400 simple_solver (fun z => (z + z / 3 + 1)%Z) ex_args) = true.
Proof.
  split; [|split; vm_compute; reflexivity]. constructor; cbn; try lia; try discriminate; try (vm_compute; reflexivity).
  - intros r X. injection X as <-. lia.
  - split; [intros t X; discriminate|]. cbn. eexists. split; [vm_compute; reflexivity|]. reflexivity.
  - intros gl X. injection X as <-. repeat constructor; vm_compute; discriminate.
Qed.
