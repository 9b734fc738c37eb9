(** Candidates: the curve of a candidate, its gates. *)
From Verif Require Import Py L_Py L_Qc L_BaseMaps M_BaseMaps M_Subsets M_Paths M_Curves M_PathTree M_PathGen M_Utils M_Gates S_BaseMaps S_Subsets S_Paths S_Utils S_Curves S_PathGen S_PathTree
  P_GenMaps P_Actions P_Points P_Subsets P_Paths P_Core P_Bridge P_Entrance P_FuzzyCurves P_PathGen P_PathAll P_PathLaws P_PathTuples T_PathGen P_GateEqs P_GateLoop P_GateSys.
From Coq Require Import Permutation FinFun.
Local Open Scope nat_scope.

Lemma perm_index {A} m (f : nat -> A) c : Permutation (map f (range m)) c ->
  exists s t, perm_on m s t /\ forall i, i < m -> nth_error c i = Some (f (s i)).
Proof.
  intros HP. destruct (Nat.eq_dec m 0) as [->|Hm].
  { exists (fun i => i), (fun i => i). split; [split; intros; lia|intros; lia]. }
  pose proof (proj1 (Permutation_nth _ _ (f 0)) HP) as (HL & s & B1 & B2 & B3). rewrite map_length in HL, B1, B2, B3. unfold range in *. rewrite seq_length in *.
  destruct (bSurjective_bBijective B1 (proj1 (bInjective_bSurjective B1) B2)) as (t & T1 & T2). exists s, t. split.
  - split; intros i Hi; (split; [auto|]); apply T2; auto.
  - intros i Hi. rewrite (nth_error_nth' c (f 0)) by lia. rewrite B3 by auto. f_equal. rewrite map_nth, seq_nth by (apply B1; auto). auto.
Qed.
Lemma nth_error_eq_map {A} m (f : nat -> A) c : length c = m -> (forall i, i < m -> nth_error c i = Some (f i)) -> c = map f (range m).
Proof.
  intros HL H. apply nth_error_ext. intros i. destruct (lt_dec i m) as [Hi|Hi].
  - rewrite H by auto. rewrite nth_error_map. unfold range. rewrite nth_error_seq by auto. auto.
  - rewrite !(proj2 (nth_error_None _ _)); auto; try rewrite map_length; unfold range; try rewrite seq_length; lia.
Qed.

Lemma nth_error_combine {A B} (l : list A) (r : list B) i a b : nth_error l i = Some a -> nth_error r i = Some b -> nth_error (combine l r) i = Some (a, b).
Proof. revert r i. induction l as [|x l IH]; intros [|y r] [|i] E1 E2; cbn in *; try discriminate; auto. congruence. Qed.
Definition cn (w : bool) : Z := if w then (-1)%Z else 0%Z.
Definition spec_seq (sp : nat -> bool -> spec) (l : list nat) : list spec := flat_map (fun p => [sp p false; sp p true]) l.
Lemma boundary_cons (p : nat) l : list_prod (p :: l) [0%Z; (-1)%Z] = (p, cn false) :: (p, cn true) :: list_prod l [0%Z; (-1)%Z]. Proof. reflexivity. Qed.
Lemma boundary_specs (R : nat * Z -> spec -> Prop) n : forall k specs, Forall2 R (list_prod (seq k n) [0%Z; (-1)%Z]) specs <->
  exists sp, specs = spec_seq sp (seq k n) /\ forall p w, k <= p < k + n -> R (p, cn w) (sp p w).
Proof.
  induction n as [|n IH]; intros k specs.
  { cbn. split; [intros H; inversion H; exists (fun _ _ => Sp (id_map 0) 0); split; [auto|intros; lia]|intros (sp & -> & _); constructor]. }
  cbn [seq]. rewrite boundary_cons. split.
  - intros H. inversion H as [|? s0 ? r R0 H']; subst. inversion H' as [|? s1 ? r' R1 H'']; subst. apply IH in H''. destruct H'' as (sp & -> & HS).
    exists (fun p (w : bool) => if Nat.eqb p k then (if w then s1 else s0) else sp p w). split.
    + unfold spec_seq. cbn [flat_map]. rewrite Nat.eqb_refl. cbn [app]. f_equal. f_equal. rewrite !flat_map_concat_map. f_equal. apply map_ext_in. intros p Hp. apply in_seq in Hp. replace (Nat.eqb p k) with false; auto. symmetry. apply Nat.eqb_neq. lia.
    + intros p w Hp. destruct (Nat.eqb_spec p k) as [->|NE]; [destruct w; auto|]. apply HS. lia.
  - intros (sp & -> & HS). cbn [spec_seq flat_map app]. constructor; [apply (HS k false); lia|]. constructor; [apply (HS k true); lia|]. apply IH. exists sp. split; auto. intros p w Hp. apply HS. lia.
Qed.
Lemma omap_rel {A B} (f : A -> option B) (l : list A) r : omap f l = Some r <-> Forall2 (fun a b => f a = Some b) l r.
Proof. split; [|apply omap_Forall2]. revert r. induction l as [|a l IH]; intros r H; cbn in H; [injection H as <-; constructor|]. destruct (f a) eqn:E; [|discriminate]. destruct (omap f l) eqn:E'; [|discriminate]. injection H as <-. constructor; auto. Qed.
(** the products of variants *)
Lemma In_variants (f : nat * Z -> option (list spec)) m lists specs : omap f (boundary m) = Some lists ->
  (In specs (lprod lists) <-> exists sp, specs = spec_seq sp (range m) /\ forall p w, p < m -> exists l, f (p, cn w) = Some l /\ In (sp p w) l).
Proof.
  intros H. rewrite In_lprod. apply omap_rel in H. assert (Forall2 (fun a l => In a l) specs lists <-> Forall2 (fun pc s => exists l, f pc = Some l /\ In s l) (boundary m) specs) as ->.
  { clear - H. revert specs. induction H as [|a b l r E H IH]; intros specs; split; intros HF; inversion HF; subst; constructor; try (apply IH; auto); eauto.
    match goal with H : exists _, _ |- _ => destruct H as (l0 & E0 & I0) end. congruence. }
  unfold boundary, range. rewrite boundary_specs. split; intros (sp & E & HS); exists sp; (split; [exact E|]); intros p w Hp; apply HS; lia.
Qed.

Section Cand.
Context (d N m : nat) (Hd : 1 <= d) (HN : 2 <= N) (Hm : 1 <= m).
Notation G := (N ^ d).
Definition bspecs (s0 s1 : spec) : list (option spec) := Some s0 :: repeat None (G - 2) ++ [Some s1].
Lemma pyset_ends (s0 s1 : spec) : pyset (pyset (repeat None G) 0 (Some s0)) (-1) (Some s1) = bspecs s0 s1.
Proof.
  pose proof (G_ge2 d N m Hd HN Hm) as HG. unfold pyset. replace (0 <=? 0)%Z with true by auto. replace (0 <=? -1)%Z with false by auto. rewrite length_upd, repeat_length.
  replace (Z.to_nat (Z.of_nat G + -1)) with (G - 1) by lia. cbn [Z.to_nat]. apply nth_error_ext. intros i. unfold bspecs. rewrite !nth_error_upd, length_upd, repeat_length.
  replace (Nat.ltb (G - 1) G) with true by (symmetry; apply Nat.ltb_lt; lia). replace (Nat.ltb 0 G) with true by (symmetry; apply Nat.ltb_lt; lia).
  destruct (Nat.eqb_spec (G - 1) i) as [<-|NE].
  - replace (G - 1) with (S (G - 2)) at 1 by lia. cbn [nth_error]. rewrite nth_error_app2; rewrite repeat_length; [|lia]. rewrite Nat.sub_diag. auto.
  - destruct (Nat.eqb_spec 0 i) as [<-|NE']; [reflexivity|]. destruct i as [|i]; [lia|]. destruct (lt_dec (S i) G) as [Hi|Hi].
    + rewrite nth_error_repeat by lia. cbn [nth_error]. rewrite nth_error_app1 by (rewrite repeat_length; lia). rewrite nth_error_repeat by lia. auto.
    + rewrite !(proj2 (nth_error_None _ _)); auto; cbn [length]; rewrite ?app_length, ?repeat_length; cbn [length]; lia.
Qed.
Lemma pattern_specs_loop sp n : forall k, k + n = m -> forall st, length st = k ->
  fold_left (fun ps x => upd (fst (fst x)) (pyset (nth (fst (fst x)) ps []) (snd (fst x)) (Some (snd x))) ps)
            (combine (list_prod (seq k n) [0%Z; (-1)%Z]) (spec_seq sp (seq k n))) (st ++ repeat (repeat None G) n)
  = st ++ map (fun p => bspecs (sp p false) (sp p true)) (seq k n).
Proof.
  induction n as [|n IH]; intros k Hk st HL; [reflexivity|]. cbn [seq]. rewrite boundary_cons. cbn [spec_seq flat_map app combine fold_left fst snd cn].
  assert (E : forall v w u, upd k v (st ++ u :: w) = st ++ v :: w).
  { intros v w u. clear - HL. revert k HL. induction st as [|a st IHs]; intros k HL; cbn in HL; subst k; cbn; auto. f_equal. apply IHs; auto. }
  cbn [repeat]. rewrite !E. rewrite !app_nth2 by lia. replace (k - length st) with 0 by lia. cbn [nth]. rewrite pyset_ends.
  replace (st ++ bspecs (sp k false) (sp k true) :: repeat (repeat None G) n) with ((st ++ [bspecs (sp k false) (sp k true)]) ++ repeat (repeat None G) n) by (rewrite <- app_assoc; auto).
  rewrite (IH (S k)); [|lia|rewrite app_length; cbn; lia]. rewrite <- app_assoc. auto.
Qed.
Lemma pattern_specs_eq sp : pattern_specs d N m (spec_seq sp (range m)) = map (fun p => bspecs (sp p false) (sp p true)) (range m).
Proof. apply (pattern_specs_loop sp m 0 ltac:(lia) []); auto. Qed.

Context (cu : nat -> bool -> list Z) (sp : nat -> bool -> spec).
Context (HC : forall p w, p < m -> grid_cube d N (cu p w)) (HS : forall p w, p < m -> wf_spec d m (sp p w)) (HNE : forall p, p < m -> cu p false <> cu p true).
(** the prototype of pattern p has these first and last cubes *)
Definition proto_bnd (protos : list proto) : Prop := length protos = m /\ forall p, p < m -> exists pr, nth_error protos p = Some pr /\ pr_div pr = N /\
  length (pr_cubes pr) = G /\ forall w, nth_error (pr_cubes pr) (endn d N w) = Some (Some (cu p w)).
Lemma cand_bnd protos : proto_bnd protos -> has_bnd d N m cu sp (cand_curve d N m protos (spec_seq sp (range m))).
Proof.
  intros [HL HP]. pose proof (G_ge2 d N m Hd HN Hm) as HG. unfold cand_curve. rewrite pattern_specs_eq. constructor; auto.
  - unfold cv_mult. cbn [cv_pats]. rewrite map_length, combine_length, map_length. unfold range. rewrite seq_length. lia.
  - intros p Hp. destruct (HP p Hp) as (pr & E & D & L & W). cbn [cv_pats]. exists (Pat pr (bspecs (sp p false) (sp p true))).
    rewrite nth_error_map. assert (EC : nth_error (combine protos (map (fun p => bspecs (sp p false) (sp p true)) (range m))) p = Some (pr, bspecs (sp p false) (sp p true))).
    { apply nth_error_combine; auto. rewrite nth_error_map. unfold range. rewrite nth_error_seq by auto. auto. }
    rewrite EC. split; auto. cbn [pat_proto pat_specs]. split; auto. split; auto. split; [unfold bspecs; cbn; rewrite app_length, repeat_length; cbn; lia|].
    intros w. split; auto. destruct w; unfold endn, bspecs; [|reflexivity]. replace (G - 1) with (S (G - 2)) by lia. cbn [nth_error]. rewrite nth_error_app2; rewrite repeat_length; [|lia]. rewrite Nat.sub_diag. auto.
Qed.
Lemma curve_gates_eq of c g l : (forall p, In p l -> is_link c p (g p)) ->
  curve_gates d of c l = Some (if existsb (fun p => bad_face d of (entrance (g p)) || bad_face d of (exit (g p))) l then None else Some (map g l)).
Proof.
  induction l as [|p l IH]; intros H; [reflexivity|]. cbn [curve_gates existsb map]. destruct (H p ltac:(left; auto)) as (E & X). rewrite E, X. rewrite IH by (intros; apply H; right; auto).
  destruct (bad_face d of (entrance (g p))); [reflexivity|]. destruct (bad_face d of (exit (g p))); [reflexivity|]. cbn [orb]. destruct (existsb _ l); cbn; auto. destruct (g p); auto.
Qed.
(** a candidate's gates: the solution of the boundary equations *)
Lemma cand_result of protos : proto_bnd protos -> exists g, gate_eqs d N m cu sp g /\ (forall p, p < m -> unit_point d (entrance (g p)) /\ unit_point d (exit (g p))) /\
  curve_gates d of (cand_curve d N m protos (spec_seq sp (range m))) (range m) =
    Some (if existsb (fun p => bad_face d of (entrance (g p)) || bad_face d of (exit (g p))) (range m) then None else Some (map g (range m))).
Proof.
  intros HP. destruct (bnd_gates d N m Hd HN Hm cu sp HC HS HNE _ (cand_bnd protos HP)) as (g & E & HG). exists g. split; auto. split.
  - intros p Hp. destruct (HG p Hp) as (_ & U1 & U2). destruct (E p false Hp) as ((D1 & D2) & _). repeat split; auto.
  - apply curve_gates_eq. intros p Hp. apply in_seq in Hp. apply HG. lia.
Qed.
End Cand.
