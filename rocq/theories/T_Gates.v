(** C41: generation of gates (gates.py). *)
From Verif Require Import Py L_Py L_Qc L_BaseMaps M_BaseMaps M_Subsets M_Paths M_Curves M_PathTree M_PathGen M_Gates S_BaseMaps S_Subsets S_Paths S_Curves S_Gates S_PathGen S_PathTree
  P_Valid M_Zoo P_GateMain P_GateGen P_GateFacet.
From Coq Require Import Permutation.
Local Open Scope nat_scope.

(** The general mode: GatesGenerator(dim, div, mult).gen_gates() terminates; it yields exactly the nondecreasing tuples of
    standard gates of continuous curves with all gates on the boundary, each once. *)
Theorem C41_general : forall (d N m : nat), 1 <= d -> 2 <= N -> 1 <= m ->
  forall fpar hash start_max finish_max, hash_ok hash ->
  exists fuel0 res, (forall fuel, fuel0 <= fuel -> gen_gates d N m false fpar (SP hash fuel start_max finish_max) = Some res) /\
    NoDup res /\ forall gs, In gs res <-> (exists c, gated d N m false c gs) /\ Forall (standard d) gs /\ nondecreasing gs.
Proof.
  intros d N m Hd HN Hm fpar hash sm fm HH. destruct (all_groups_eq d N m Hd HN Hm) as (groups & E & _).
  destruct (main d N m false Hd HN Hm hash HH sm fm (candidates groups) (gen_valid d N m Hd HN Hm groups E) (gen_cover d N m Hd HN Hm groups E)) as (F & res & A & B & C & _).
  exists F, res. split; [|split; auto]. intros fuel Hf. unfold gen_gates. rewrite E. cbn [obind]. apply A; auto.
Qed.
Print Assumptions C41_general.

(** The gates of every such curve become a generated tuple by a change of each of them by a base map and a reordering. *)
Theorem C41_general_complete : forall (d N m : nat) c gs, 1 <= d -> 2 <= N -> 1 <= m -> gated d N m false c gs ->
  forall fpar hash start_max finish_max, hash_ok hash ->
  exists fuel0 res, (forall fuel, fuel0 <= fuel -> gen_gates d N m false fpar (SP hash fuel start_max finish_max) = Some res) /\
    exists gs1 gs2, Forall2 (fun l l' => exists b, wf_bm d b /\ l' = pl_mul b l) gs gs1 /\ Permutation gs1 gs2 /\ In gs2 res.
Proof.
  intros d N m c gs Hd HN Hm HG fpar hash sm fm HH. destruct (all_groups_eq d N m Hd HN Hm) as (groups & E & _).
  destruct (main d N m false Hd HN Hm hash HH sm fm (candidates groups) (gen_valid d N m Hd HN Hm groups E) (gen_cover d N m Hd HN Hm groups E)) as (F & res & A & B & _ & C).
  exists F, res. split; [|eauto]. intros fuel Hf. unfold gen_gates. rewrite E. cbn [obind]. apply A; auto.
Qed.
Print Assumptions C41_general_complete.

(** The facet mode, only_facet=True: the same with all gates strictly inside facets. [fuel] bounds the searches of facet
    paths and of point paths. *)
Lemma facet_main d N m fhash hash sm fm sm' fm' : 2 <= d -> 2 <= N -> 1 <= m -> hash_ok fhash -> hash_ok hash ->
  exists F res, (forall fuel, F <= fuel -> gen_gates d N m true (SP fhash fuel sm fm) (SP hash fuel sm' fm') = Some res) /\ NoDup res /\
    (forall gs, In gs res <-> (exists c, gated d N m true c gs) /\ Forall (standard d) gs /\ nondecreasing gs) /\
    (forall c gs, gated d N m true c gs -> exists gs1 gs2, Forall2 (fun l l' => exists b, wf_bm d b /\ l' = pl_mul b l) gs gs1 /\ Permutation gs1 gs2 /\ In gs2 res).
Proof.
  intros Hd HN Hm HF HH. destruct (facet_groups_eq d N m Hd HN Hm fhash HF sm fm) as (groups & (F1 & E) & HS & HC).
  assert (HV : Forall (valid_cand d N m) (candidates groups)).
  { apply Forall_forall. intros c Hc. destruct (HS c Hc) as (links & paths & A & B & C). exact (group_valid d N m Hd HN Hm links paths c A B C). }
  destruct (main d N m true ltac:(lia) HN Hm hash HH sm' fm' (candidates groups) HV (facet_cover d N m Hd HN Hm (candidates groups) HC)) as (F2 & res & A & B & C & D).
  exists (Nat.max F1 F2), res. split; [|auto]. intros fuel Hf. unfold gen_gates. rewrite E by lia. cbn [obind]. apply A. lia.
Qed.
Theorem C41_facet : forall (d N m : nat), 2 <= d -> 2 <= N -> 1 <= m ->
  forall facet_hash hash facet_start facet_finish start_max finish_max, hash_ok facet_hash -> hash_ok hash ->
  exists fuel0 res, (forall fuel, fuel0 <= fuel -> gen_gates d N m true (SP facet_hash fuel facet_start facet_finish) (SP hash fuel start_max finish_max) = Some res) /\
    NoDup res /\ forall gs, In gs res <-> (exists c, gated d N m true c gs) /\ Forall (standard d) gs /\ nondecreasing gs.
Proof.
  intros d N m Hd HN Hm fh h sm fm sm' fm' HF HH. destruct (facet_main d N m fh h sm fm sm' fm' Hd HN Hm HF HH) as (F & res & A & B & C & _). exists F, res. auto.
Qed.
Print Assumptions C41_facet.
Theorem C41_facet_complete : forall (d N m : nat) c gs, 2 <= d -> 2 <= N -> 1 <= m -> gated d N m true c gs ->
  forall facet_hash hash facet_start facet_finish start_max finish_max, hash_ok facet_hash -> hash_ok hash ->
  exists fuel0 res, (forall fuel, fuel0 <= fuel -> gen_gates d N m true (SP facet_hash fuel facet_start facet_finish) (SP hash fuel start_max finish_max) = Some res) /\
    exists gs1 gs2, Forall2 (fun l l' => exists b, wf_bm d b /\ l' = pl_mul b l) gs gs1 /\ Permutation gs1 gs2 /\ In gs2 res.
Proof.
  intros d N m c gs Hd HN Hm HG fh h sm fm sm' fm' HF HH. destruct (facet_main d N m fh h sm fm sm' fm' Hd HN Hm HF HH) as (F & res & A & B & _ & C). exists F, res. split; auto. eauto.
Qed.
Print Assumptions C41_facet_complete.

(** The two modes agree: whenever both finish, the facet mode yields the tuples of the general mode with all gates strictly
    inside facets. *)
Theorem C41_modes_agree : forall (d N m : nat), 2 <= d -> 2 <= N -> 1 <= m ->
  forall facet_hash hash facet_start facet_finish start_max finish_max, hash_ok facet_hash -> hash_ok hash ->
  exists fuel0 res_f res, (forall fuel, fuel0 <= fuel ->
      gen_gates d N m true (SP facet_hash fuel facet_start facet_finish) (SP hash fuel start_max finish_max) = Some res_f /\
      gen_gates d N m false (SP facet_hash fuel facet_start facet_finish) (SP hash fuel start_max finish_max) = Some res) /\
    forall gs, In gs res_f <-> In gs res /\ Forall (fun l => inside_facet (entrance l) /\ inside_facet (exit l)) gs.
Proof.
  intros d N m Hd HN Hm fh h sm fm sm' fm' HF HH. destruct (C41_facet d N m Hd HN Hm fh h sm fm sm' fm' HF HH) as (F1 & r1 & A1 & _ & C1).
  destruct (all_groups_eq d N m ltac:(lia) HN Hm) as (groups & E & _).
  destruct (main d N m false ltac:(lia) HN Hm h HH sm' fm' (candidates groups) (gen_valid d N m ltac:(lia) HN Hm groups E) (gen_cover d N m ltac:(lia) HN Hm groups E)) as (F2 & r2 & A2 & _ & C2 & _).
  exists (Nat.max F1 F2), r1, r2. split.
  - intros fuel Hf. split; [apply A1; lia|]. unfold gen_gates. rewrite E. cbn [obind]. apply A2. lia.
  - intros gs. rewrite C1, C2. assert (HX : forall l : plink, inside_facet (entrance l) /\ inside_facet (exit l) -> on_boundary (entrance l) /\ on_boundary (exit l)).
    { intros l [(j & J & _) (k & K & _)]. split; [exists j|exists k]; auto. }
    split.
    + intros ((c & [G1 G2 G3 G4 G5 G6 G7 G8]) & HS & HN'). split; [split; [|auto]|exact G8]. exists c. constructor; auto. eapply Forall_impl; [|exact G8]. cbn. auto.
    + intros (((c & [G1 G2 G3 G4 G5 G6 G7 G8]) & HS & HN') & HI). split; [|auto]. exists c. constructor; auto.
Qed.
Print Assumptions C41_modes_agree.

(** The Hilbert curve has gates on the boundary, the beta-Omega curve strictly inside facets; and some results. *)
Definition gates_of (c : curve) : list plink :=
  map (fun p => match get_entrance c (Some p), get_exit c (Some p) with Some e, Some x => Lk e x | _, _ => Lk [] [] end) (range (cv_mult c)).
Lemma gated_check d N m of c : valid_curveb c = true -> cv_dim c = d -> cv_div c = N -> cv_mult c = m -> check c = Some true ->
  forallb (fun p => match get_entrance c (Some p), get_exit c (Some p) with
                    | Some e, Some x => Nat.eqb (length e) d && Nat.eqb (length x) d && negb (bad_face d of e) && negb (bad_face d of x) | _, _ => false end) (range m) = true -> gated d N m of c (gates_of c).
Proof.
  intros V D1 D2 D3 K HF. rewrite forallb_forall in HF. constructor; auto.
  - apply valid_curveb_ok; auto.
  - unfold gates_of. rewrite map_length. unfold range. rewrite seq_length. auto.
  - intros p l E. unfold gates_of in E. rewrite D3 in E. assert (Hp : p < m).
    { match type of E with nth_error ?L p = _ => assert (HL : p < length L) by (apply nth_error_Some; intros X; pose proof (eq_trans (eq_sym E) X); discriminate) end. rewrite map_length in HL. unfold range in HL. rewrite seq_length in HL. auto. }
    rewrite nth_map_range in E by auto. specialize (HF p ltac:(apply in_seq; lia)). destruct (get_entrance c (Some p)); [|discriminate]. destruct (get_exit c (Some p)); [|discriminate]. injection E as <-. auto.
  - unfold gates_of. rewrite D3, Forall_map, Forall_forall. intros p Hp. specialize (HF p Hp). destruct (get_entrance c (Some p)) as [e|]; [|discriminate]. destruct (get_exit c (Some p)) as [x|]; [|discriminate].
    rewrite !andb_true_iff, !negb_true_iff, !Nat.eqb_eq in HF. destruct HF as (((L1 & L2) & B1) & B2). cbn [entrance exit]. assert (1 <= d) by (apply valid_curveb_ok in V; destruct V as (V1 & _); lia). split; apply (bad_face_spec d); auto.
Qed.
Definition ex_par {T} : search_par T := SP (fun _ => 0%Z) 200 10 (Some 10).
Example C41_example : gated 2 2 1 false (curve_or zoo_hilbert) (gates_of (curve_or zoo_hilbert)) /\
  gated 2 2 2 true (curve_or zoo_beta_omega) (gates_of (curve_or zoo_beta_omega)) /\
  option_map (map (gates_eqb [Lk [0%Qc; 0%Qc] [0%Qc; 1%Qc]])) (gen_gates 2 2 1 false ex_par ex_par) = Some [true] /\
  option_map (@length _) (gen_gates 2 2 2 true ex_par ex_par) = Some 1.
Proof.
  split; [apply gated_check; vm_compute; reflexivity|]. split; [apply gated_check; vm_compute; reflexivity|]. split; vm_compute; reflexivity.
Qed.
