(** A boolean test of validity of curves, used to show that concrete curves satisfy the hypotheses of theorems. *)
From Verif Require Import Py L_Py M_BaseMaps S_BaseMaps L_BaseMaps M_Subsets S_Subsets P_Facets M_Paths M_Curves S_Curves P_CurveAct P_Bridge.
Local Open Scope nat_scope.

Fixpoint nodupb {A} (eqb : A -> A -> bool) (l : list A) : bool :=
  match l with [] => true | x :: l' => negb (memb eqb x l') && nodupb eqb l' end.
Lemma nodupb_ok {A} eqb (H : @eqb_ok A eqb) l : nodupb eqb l = true -> NoDup l.
Proof.
  induction l as [|x l IH]; cbn; intros E; [constructor|]. apply andb_prop in E as [E1 E2]. constructor; auto.
  apply negb_true_iff in E1. apply memb_false in E1; auto.
Qed.
Definition wf_bmb (d : nat) (b : base_map) : bool :=
  Nat.eqb (length (coords b)) d && forallb (fun k => Nat.ltb k d) (map fst (coords b)) && nodupb Nat.eqb (map fst (coords b)).
Lemma wf_bmb_ok d b : wf_bmb d b = true -> wf_bm d b.
Proof.
  unfold wf_bmb, wf_bm. intros E. apply andb_prop in E as [E E3]. apply andb_prop in E as [E1 E2].
  apply Nat.eqb_eq in E1. apply nodupb_ok in E3; [|intros x y; apply Nat.eqb_eq].
  apply NoDup_Permutation_bis; auto; [rewrite seq_length, map_length; lia|]. intros x Hx. apply in_seq.
  rewrite forallb_forall in E2. apply E2 in Hx. apply Nat.ltb_lt in Hx. lia.
Qed.
Definition valid_protob (d N : nat) (p : proto) : bool :=
  Nat.eqb (pr_dim p) d && Nat.eqb (pr_div p) N &&
  match omap (fun oc => oc) (pr_cubes p) with
  | Some cs => Nat.eqb (length cs) (N ^ d) && nodupb z_list_eqb cs &&
               forallb (fun q => Nat.eqb (length q) d && forallb (fun z => (0 <=? z)%Z && (z <? Z.of_nat N)%Z) q) cs
  | None => false
  end.
Lemma omap_id {A} (l : list (option A)) r : omap (fun oc => oc) l = Some r -> l = map Some r.
Proof.
  revert r. induction l as [|a l IH]; intros r E; cbn in E; [inversion E; auto|].
  destruct a as [a|]; cbn in E; [|discriminate]. destruct (omap _ l) eqn:E'; [|discriminate]. cbn in E. inversion E; subst. cbn. f_equal. auto.
Qed.
Lemma valid_protob_ok d N p : valid_protob d N p = true -> valid_proto d N p.
Proof.
  unfold valid_protob. intros E. apply andb_prop in E as [E E3]. apply andb_prop in E as [E1 E2]. apply Nat.eqb_eq in E1, E2.
  split; auto. split; auto. destruct (omap _ (pr_cubes p)) as [cs|] eqn:Ec; [|discriminate]. apply omap_id in Ec.
  exists cs. split; auto. apply andb_prop in E3 as [E3 E5]. apply andb_prop in E3 as [E3 E4]. apply Nat.eqb_eq in E3.
  apply nodupb_ok in E4; [|apply z_list_eqb_ok]. split; auto.
  assert (Hg : forall q, In q cs -> grid_cube d N q).
  { intros q Hq. rewrite forallb_forall in E5. apply E5 in Hq. apply andb_prop in Hq as [H1 H2]. apply Nat.eqb_eq in H1. split; auto.
    apply Forall_forall. intros z Hz. rewrite forallb_forall in H2. apply H2 in Hz. apply andb_prop in Hz as [H3 H4]. apply Z.leb_le in H3. apply Z.ltb_lt in H4. lia. }
  assert (P : Permutation cs (lprod_rep (zrange N) d)).
  { apply NoDup_Permutation_bis; auto; [rewrite length_lprod_rep; unfold zrange; rewrite map_length, seq_length; lia|].
    intros q Hq. apply In_grid. auto. }
  intros q. split; auto. intros Hq. apply (Permutation_in q (Permutation_sym P)). apply In_grid. auto.
Qed.
Definition valid_patternb (d N m : nat) (p : pattern) : bool :=
  valid_protob d N (pat_proto p) && Nat.eqb (length (pat_specs p)) (N ^ d) &&
  forallb (fun os => match os with Some s => wf_bmb d (sp_bm s) && Nat.ltb (sp_pnum s) m | None => false end) (pat_specs p).
Lemma valid_patternb_ok d N m p : valid_patternb d N m p = true -> valid_pattern d N m p.
Proof.
  unfold valid_patternb. intros E. apply andb_prop in E as [E E3]. apply andb_prop in E as [E1 E2].
  split; [apply valid_protob_ok; auto|]. split; [apply Nat.eqb_eq; auto|]. apply Forall_forall. intros os Hos.
  rewrite forallb_forall in E3. apply E3 in Hos. destruct os as [s|]; [|discriminate]. exists s. split; auto.
  apply andb_prop in Hos as [H1 H2]. split; [apply wf_bmb_ok; auto|apply Nat.ltb_lt; auto].
Qed.
Definition valid_curveb (c : curve) : bool :=
  Nat.leb 1 (cv_dim c) && Nat.leb 2 (cv_div c) && Nat.ltb (cv_pnum c) (cv_mult c) &&
  match cv_kind c with KCurve => true | _ => false end && forallb (valid_patternb (cv_dim c) (cv_div c) (cv_mult c)) (cv_pats c).
Lemma valid_curveb_ok c : valid_curveb c = true -> valid_curve c.
Proof.
  unfold valid_curveb. intros E. apply andb_prop in E as [E E5]. apply andb_prop in E as [E E4]. apply andb_prop in E as [E E3].
  apply andb_prop in E as [E1 E2]. apply Nat.leb_le in E1, E2. apply Nat.ltb_lt in E3.
  split; auto. split; auto. split; auto. split; [destruct (cv_kind c); congruence|]. apply Forall_forall. intros p Hp.
  rewrite forallb_forall in E5. apply valid_patternb_ok; auto.
Qed.
Definition is_valid (oc : option curve) : bool := match oc with Some c => valid_curveb c | None => false end.
Definition curve_or (oc : option curve) : curve := match oc with Some c => c | None => Cv 0 0 [] 0 KFuzzy end.
