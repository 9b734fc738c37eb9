(** The main program of YE-proof.py. *)
From Verif Require Import Py L_Py L_Qc L_BaseMaps M_BaseMaps M_Subsets M_Paths M_Curves M_PathTree M_PathGen M_Gates M_Utils M_Heap M_Sat M_Dilation M_Search M_Zoo
  S_BaseMaps S_Subsets S_Paths S_Utils S_Curves S_Fuzzy S_PathGen S_PathTree S_Gates S_Heap S_Sat S_Ratio S_Dilation S_Search
  P_Valid P_Heap P_SatSolver P_PathTuples P_GateLoop T_PathGen T_Gates T_SeqEst S_Term P_TermNorms P_TermSeq P_SeqEst T_Dilation M_Heapq P_Heapq P_Search P_SearchMono T_Search M_YE S_YE S_YECurves P_YE P_Subsets.
From Coq Require Import Reals Permutation.
Local Open Scope nat_scope.

Definition gate_test (c : curve) (l : plink) : bool :=
  match get_entrance c (Some 0), get_exit c (Some 0) with Some e, Some x => pt_eqb e (entrance l) && pt_eqb x (exit l) | _, _ => false end.
Lemma gate_test_ok d c l : cv_mult c = 1 -> pl_dim d l -> gate_test c l = true -> curve_gates_are c [l] /\ has_gates d c [l].
Proof.
  intros M [L1 L2] H. unfold gate_test in H. destruct (get_entrance c (Some 0)) as [e|] eqn:E1, (get_exit c (Some 0)) as [x|] eqn:E2; try discriminate. apply andb_prop in H. destruct H as [H1 H2]. apply pt_eqb_ok in H1, H2. subst e x.
  assert (G : curve_gates_are c [l]). { split; [rewrite M; reflexivity|]. intros p l' Hp. destruct p as [|[|p]]; try discriminate. injection Hp as <-. auto. }
  split; auto. exists [l], [l]. split; auto. split; [|apply Permutation_refl]. constructor; [|constructor]. exists (id_map d). split; [apply wf_id|]. symmetry. apply (P_Subsets.pl_mul_id d); auto.
Qed.
Definition links_eqb (ol : option plink) (l : plink) : bool := match ol with Some l' => pt_eqb (entrance l') (entrance l) && pt_eqb (exit l') (exit l) | None => false end.
Lemma links_eqb_ok ol l : links_eqb ol l = true -> ol = Some l.
Proof. destruct ol as [[e x]|]; [|discriminate]. destruct l as [e' x']. cbn. intros H. apply andb_prop in H. destruct H as [H1 H2]. apply pt_eqb_ok in H1, H2. subst. reflexivity. Qed.
Lemma side_is : side_link = Some side_gates. Proof. apply links_eqb_ok. vm_compute. reflexivity. Qed.
Lemma diag_is : diag_link = Some diag_gates. Proof. apply links_eqb_ok. vm_compute. reflexivity. Qed.
Lemma median_is : median_link = Some median_gates. Proof. apply links_eqb_ok. vm_compute. reflexivity. Qed.
Lemma unit3 : unit_links 2 [side_gates] /\ unit_links 2 [diag_gates] /\ unit_links 2 [median_gates].
Proof. repeat constructor; vm_compute; discriminate. Qed.
Lemma dim3 : pl_dim 2 side_gates /\ pl_dim 2 diag_gates /\ pl_dim 2 median_gates. Proof. repeat constructor. Qed.

Section Run.
Context (hq : heap_impl bpair) (Hhq : heapq_ok hq) (hs : heap_impl citem) (Hhs : heapq_ok hs) (solver : sat_solver) (Hsat : sat_ok solver) (sched : Z -> Z).
Notation l2R := (norm_ratio norm_l2 2).
Lemma l2R_ok : ratio_ok 2 (ratio_l2 2) l2R. Proof. apply (C35_norms 2); auto. Qed.
Context (hash : future_t (link (list Qc)) -> Z) (HH : hash_ok hash) (sm : nat) (fm : option nat) (ghash : future_t (link (list Qc)) -> Z) (GH : hash_ok ghash) (gsm : nat) (gfm : option nat)
  (fhash : future_t (link facet_set) -> Z) (FH : hash_ok fhash) (fsm : nat) (ffm : option nat).
Notation lo_of := (fun f1 f2 => printed_lo (M_Gates.SP hash f1 sm fm) (M_Gates.SP fhash f1 fsm ffm) (M_Gates.SP ghash f1 gsm gfm) hq hs f2 solver sched).
Definition good_gates (gl : option (list (list plink))) : Prop := forall l, gl = Some l -> Forall (fun gs => length gs = 1 /\ unit_links 2 gs) l.
Lemma good_one l : unit_links 2 [l] -> good_gates (Some [[l]]). Proof. intros H gl E. injection E as <-. constructor; auto. Qed.
Lemma printed_spec f1 f2 N gl mc rel lo : 2 <= N -> good_gates gl -> lo_of f1 f2 N gl mc rel = Some lo -> forall c, searched 2 N 1 mc gl false None c -> dilation_ge l2R c (qR lo).
Proof.
  intros HN HG E c HC. unfold printed_lo in E. destruct (run_search _ _ _ _ _ _ _ _ _ _ _ _ _ _ _ _ _ _ _ _) as [out|] eqn:ER in E; [|discriminate]. cbn [obind] in E. destruct out as [|[|[gid [[[lo' up] exs] idxs]] [|? ?]] [|]]; try discriminate. injection E as ->.
  destruct (C46_search 2 N 1 mc gl false ltac:(cbn; lia) HN ltac:(lia) HG fhash ghash fsm ffm gsm gfm hash sm fm FH GH HH f1 ratio_l2 hq hs l2R Hhq Hhs l2R_ok f2 solver sched rel 4%Z None false _ _ Hsat ER) as (gl' & _ & M & R & _).
  cbn in M. injection M as ->. specialize (R None lo up exs idxs (or_introl eq_refl)). apply R. exact HC.
Qed.
Lemma printed_returns N gl mc rel c : 2 <= N -> good_gates gl -> (0 < rel)%Z -> searched 2 N 1 mc gl false None c -> exists F lo, forall fuel, F <= fuel -> lo_of fuel fuel N gl mc rel = Some lo.
Proof.
  intros HN HG Hrel HC. destruct (C46_returns 2 N 1 mc gl false ltac:(cbn; lia) HN ltac:(lia) HG fhash ghash fsm ffm gsm gfm hash sm fm FH GH HH ratio_l2 hq hs l2R 1 Hhq Hhs l2R_ok) with (sched := sched) (solver := solver) (rel_tol_inv := rel) (mult := 4%Z) (upper_bound := @None Qc) (group_by_gates := false) (output_gates := false) as (F & out & E); [apply norms_power|auto|auto|lia|].
  pose proof (E F ltac:(lia)) as E0. destruct out as [gl'|reports crashed].
  - exfalso. unfold run_search in E0. destruct (search_gates _ _ _ _ _ _ _); [|discriminate]. cbn [obind] in E0. destruct (search_loop _ _ _ _ _ _); discriminate.
  - destruct (C46_search 2 N 1 mc gl false ltac:(cbn; lia) HN ltac:(lia) HG fhash ghash fsm ffm gsm gfm hash sm fm FH GH HH F ratio_l2 hq hs l2R Hhq Hhs l2R_ok F solver sched rel 4%Z None false _ _ Hsat E0) as (gl' & _ & M & R & C1 & C2).
    destruct crashed; [destruct (C2 eq_refl) as (gid & G1 & G2); destruct G2 as [G2|(u & G2 & _)]; [|discriminate]|].
    + cbn [map] in G1. apply nth_error_In in G1. destruct G1 as [<-|[]]. destruct (G2 c HC).
    + specialize (C1 eq_refl). cbn in C1. destruct reports as [|[gid [[[lo up] exs] idxs]] [|? ?]]; try discriminate. exists F, lo. intros fuel Hf. unfold printed_lo. rewrite (E fuel Hf). reflexivity.
Qed.
End Run.
