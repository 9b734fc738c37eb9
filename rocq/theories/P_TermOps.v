(** Trees of pairs with exact bounds: what division does, and a measure that it decreases. *)
From Verif Require Import Py L_Py L_Qc L_R M_BaseMaps S_BaseMaps L_BaseMaps P_Actions M_Subsets S_Subsets P_Subsets P_Facets
  M_Paths M_Curves M_Utils M_Heap M_Sat M_Dilation S_Heap P_Heap S_Utils S_Curves S_Fuzzy P_CurveAct L_Digits P_Core P_Bridge P_Cont P_Subdiv P_Faces P_FuzzyInit P_FuzzyOps P_FuzzyBuilt
  S_Ratio S_Term S_Dilation P_Junctions P_DilGeo P_DilRatio P_DilBounds P_DilPieces P_DilTree P_DilOps P_DilCreate P_Conv.
From Coq Require Import Reals Lra Lia Permutation.
Local Open Scope nat_scope.

Definition psum (P : piece_pair) : nat := po_depth (pp_pos1 P) + po_depth (pp_pos2 P).
(** Number of pairs in the tree of divisions of P, [n] levels deep. *)
Fixpoint tsize (n : nat) (P : piece_pair) : nat :=
  match n with
  | 0 => 1
  | S n => S (match divide_balanced P with Some l => list_sum (map (tsize n) l) | None => 0 end)
  end.
Definition weight (B : nat) (P : piece_pair) : nat := tsize (B - psum P) P.
Definition mass (B : nat) (t : tree) : nat := list_sum (map (fun i => weight B (bp_pair i)) (bh_items t)).
Lemma list_sum_cons a l : list_sum (a :: l) = a + list_sum l. Proof. reflexivity. Qed.
Lemma list_sum_perm l l' : Permutation l l' -> list_sum l = list_sum l'.
Proof. induction 1; rewrite ?list_sum_cons; lia. Qed.
Lemma list_sum_filter {A} (w : A -> nat) f l : list_sum (map w (filter f l)) <= list_sum (map w l).
Proof. induction l as [|a l IH]; auto. cbn [filter]. destruct (f a); cbn [map]; rewrite ?list_sum_cons; lia. Qed.
Lemma mass_perm B t l : Permutation (bh_items t) l -> mass B t = list_sum (map (fun i => weight B (bp_pair i)) l).
Proof. intros H. unfold mass. apply list_sum_perm, Permutation_map, H. Qed.

Section TermOps.
Context (ratio : ratio_func) (rR : list R -> R -> R) (c0 : curve) (HD : dcls c0) (RO : ratio_ok (cv_dim c0) (ratio (cv_dim c0)) rR).
Context (JP : junction -> Prop) (HJ : forall j, JP j -> wft (core_of c0) (jt j)) (st : stash) (HST : points_ok c0 st).
Context (hq : heap_impl bpair) (is_heap : list (node bpair) -> Prop) (HH : IH_ok hq is_heap) (b : option Qc) (keep : bool).
Notation pair_ok := (pair_ok c0 JP).
Notation item_ok := (item_ok rR c0 JP).
Notation tree_ok := (tree_ok rR c0 JP is_heap b keep).
Notation act := (activeb bp_lo bp_up).
Definition exact_item (i : bpair) : Prop := get_bounds ratio (bp_pair i) st = Some (bp_lo i, bp_up i, bp_argmax i).
Definition tree_x (t : tree) : Prop := tree_ok t /\ forall i, In i (bh_items t) \/ In i (bh_bad t) \/ bh_max t = Some i -> exact_item i.

Lemma push_x t P : tree_x t -> pair_ok P -> exists t' i, push_tree ratio hq st t P = Some t' /\ tree_x t' /\ bh_good_thr t' = bh_good_thr t /\ bp_pair i = P /\ exact_item i /\
  Permutation (bh_items t') ((if act (bh_good_thr t) b i then [i] else []) ++ bh_items t) /\ (bh_max t' = bh_max t \/ bh_max t' = Some i) /\ bh_max t' = new_max bp_lo keep (bh_max t) i.
Proof.
  intros [Ht HX] HP. destruct (bounds_ok ratio rR c0 HD RO JP HJ st P HST HP) as (lo & up & am & E & HB). exists (bh_push bp_lo bp_up hq t (BP lo up P am)), (BP lo up P am).
  assert (Hi : item_ok (BP lo up P am)) by (split; auto). assert (Ei : exact_item (BP lo up P am)) by exact E.
  destruct (push_item rR c0 JP hq is_heap HH b keep t _ Ht Hi) as (A1 & A2 & _). destruct (push_ok bp_lo bp_up hq is_heap HH b keep t (BP lo up P am) (proj1 Ht)) as (B1 & B2 & B3 & B4 & B5).
  cbv zeta in *. set (i := BP lo up P am) in *. set (t' := bh_push bp_lo bp_up hq t i) in *.
  assert (M : bh_max t' = bh_max t \/ bh_max t' = Some i). { rewrite B3. unfold new_max. destruct keep; auto. destruct (bh_max t) as [m|]; auto. destruct (qltb (bp_lo m) (bp_lo i)); auto. }
  split; [unfold push_tree; rewrite E; reflexivity|]. split; [|repeat (split; auto)]. split; auto. intros k [Hk|[Hk|Hk]].
  - apply (Permutation_in _ B5) in Hk. apply in_app_or in Hk as [Hk|Hk]; [|apply HX; auto]. destruct (act (bh_good_thr t) b i); [|destruct Hk]. destruct Hk as [<-|[]]. auto.
  - rewrite B4 in Hk. apply in_app_or in Hk as [Hk|Hk]; [apply HX; auto|]. destruct (_ && _); [|destruct Hk]. destruct Hk as [<-|[]]. auto.
  - destruct M as [M|M]; [apply HX; right; right; congruence|]. assert (k = i) by congruence. subst k. auto.
Qed.
(** what a sequence of pushes does *)
Definition pushed (t : tree) (ps : list piece_pair) (t' : tree) : Prop :=
  tree_x t' /\ bh_good_thr t' = bh_good_thr t /\
  (forall P, In P ps -> exists i, bp_pair i = P /\ exact_item i /\ (act (bh_good_thr t) b i = true -> In i (bh_items t'))) /\
  (forall k, In k (bh_items t) -> In k (bh_items t')) /\
  (bh_max t' = bh_max t \/ exists i, bh_max t' = Some i /\ exact_item i /\ In (bp_pair i) ps /\ (act (bh_good_thr t) b i = true -> In i (bh_items t'))) /\
  (keep = true -> ps <> [] -> exists m, bh_max t' = Some m) /\
  (forall B, mass B t' <= mass B t + list_sum (map (weight B) ps)).
Lemma push_list_x {A} (f : A -> option piece_pair) (l : list A) : forall t, tree_x t -> (forall a, In a l -> exists P, f a = Some P /\ pair_ok P) ->
  exists t' ps, fold_left (fun acc a => obind acc (fun t => match f a with Some p => push_tree ratio hq st t p | None => None end)) l (Some t) = Some t' /\ omap f l = Some ps /\ pushed t ps t'.
Proof.
  induction l as [|a l IH]; intros t Ht HP; cbn [fold_left omap].
  - exists t, []. split; auto. split; auto. split; auto. split; auto. split; [intros P []|]. split; auto. split; auto. split; [congruence|]. intros B. cbn. lia.
  - destruct (HP a (or_introl eq_refl)) as (P & EP & HPP). destruct (push_x t P Ht HPP) as (t1 & i & E1 & X1 & G1 & Ei & Xi & PM & M1 & N1). unfold obind at 2. rewrite EP, E1.
    destruct (IH t1 X1) as (t' & ps & C1 & C2 & C3 & C4 & C5 & C6 & C7 & C8 & C9); [intros a' Ha'; apply HP; right; auto|]. exists t', (P :: ps). split; auto. split; [cbn; rewrite C2; auto|].
    assert (SUB : forall k, In k (bh_items t) -> In k (bh_items t1)) by (intros k Hk; apply (Permutation_in _ (Permutation_sym PM)), in_or_app; auto).
    assert (SELF : act (bh_good_thr t) b i = true -> In i (bh_items t')). { intros Ha. apply C6. apply (Permutation_in _ (Permutation_sym PM)). rewrite Ha. left. auto. }
    split; auto. split; [congruence|]. split; [|split; [auto|split; [|split]]].
    + intros Q [<-|HQ]; [exists i; auto|]. destruct (C5 Q HQ) as (k & K1 & K2 & K3). exists k. rewrite <- G1. auto.
    + destruct C7 as [C7|(k & K1 & K2 & K3 & K4)].
      * destruct M1 as [M1|M1]; [left; congruence|]. right. exists i. split; [congruence|]. split; auto. split; auto. left. auto.
      * right. exists k. split; auto. split; auto. split; [right; auto|]. rewrite <- G1. auto.
    + intros EK _. unfold new_max in N1. rewrite EK in N1. assert (exists m, bh_max t1 = Some m) as (m & Em). { destruct (bh_max t) as [m|]; [destruct (qltb _ _)|]; eauto. }
      destruct C7 as [C7|(k & K1 & _)]; [exists m; congruence|eauto].
    + intros B. specialize (C9 B). cbn [map]. rewrite list_sum_cons.
      rewrite (mass_perm B t1 _ PM) in C9. rewrite map_app in C9. rewrite list_sum_app in C9. fold (mass B t) in C9. destruct (act (bh_good_thr t) b i); cbn [map] in C9; rewrite ?list_sum_cons, ?Ei in C9; change (list_sum []) with 0 in C9; lia.
Qed.
Lemma omap_Some {A} (l : list A) : omap Some l = Some l. Proof. induction l as [|a l IH]; cbn; auto. rewrite IH. auto. Qed.
Lemma push_all_x t ps : tree_x t -> Forall pair_ok ps -> exists t', push_all ratio hq st t ps = Some t' /\ pushed t ps t'.
Proof.
  intros Ht HP. destruct (push_list_x Some ps t Ht) as (t' & ps' & C1 & C2 & C3). { intros a Ha. exists a. split; auto. rewrite Forall_forall in HP. auto. }
  rewrite omap_Some in C2. injection C2 as <-. exists t'. split; auto.
Qed.
Lemma pop_x t : tree_x t -> bh_items t <> [] -> exists i t1, bh_pop hq t = Some (i, t1) /\ tree_x t1 /\ item_ok i /\ exact_item i /\ bh_good_thr t1 = bh_good_thr t /\ bh_bad t1 = bh_bad t /\ bh_max t1 = bh_max t /\
  Permutation (bh_items t) (i :: bh_items t1) /\ bh_top t = Some i /\ (forall k, In k (bh_items t) -> (bp_up k <= bp_up i)%Qc).
Proof.
  intros [Ht HX] NE. destruct (pop_item rR c0 JP hq is_heap HH b keep t Ht NE) as (i & t1 & A1 & A2 & A3 & A4 & A5 & A6 & A7 & A8 & A9). exists i, t1. split; auto.
  assert (SUB : forall k, In k (i :: bh_items t1) -> In k (bh_items t)) by (intros k Hk; apply (Permutation_in _ (Permutation_sym A7)); auto).
  split; [split; auto|repeat (split; auto)]. { intros k [Hk|[Hk|Hk]]; apply HX; [left; apply SUB; right; auto|right; left; congruence|right; right; congruence]. } apply HX. left. apply SUB. left. auto.
Qed.
Lemma weight_divide B P l : psum P < B -> divide_balanced P = Some l -> (forall P', In P' l -> psum P' = S (psum P)) -> weight B P = S (list_sum (map (weight B) l)).
Proof.
  intros HB E HL. unfold weight. destruct (B - psum P) as [|n] eqn:En; [lia|]. cbn [tsize]. rewrite E. f_equal. f_equal. apply map_ext_in. intros P' HP'. rewrite (HL P' HP'). f_equal. lia.
Qed.
Lemma divide_x t : tree_x t -> bh_items t <> [] -> exists i l t1 t', bh_top t = Some i /\ In i (bh_items t) /\ (forall k, In k (bh_items t) -> (bp_up k <= bp_up i)%Qc) /\ exact_item i /\ pair_ok (bp_pair i) /\
  divide_balanced (bp_pair i) = Some l /\ divide_tree ratio hq st t = Some t' /\ pushed t1 l t' /\ Permutation (bh_items t) (i :: bh_items t1) /\ bh_good_thr t1 = bh_good_thr t /\ bh_max t1 = bh_max t /\ tree_x t' /\
  (forall B, psum (bp_pair i) < B -> mass B t' < mass B t).
Proof.
  intros Ht NE. destruct (pop_x t Ht NE) as (i & t1 & A1 & A2 & A3 & A4 & A5 & A6 & A7 & A8 & A9 & A10). destruct (divide_pair c0 HD JP HJ (bp_pair i) (proj1 A3)) as (l & El & F & FJ & FX).
  destruct (push_all_x t1 l A2 F) as (t' & C1 & C2). exists i, l, t1, t'. split; auto. split; [apply (Permutation_in _ (Permutation_sym A8)); left; auto|]. split; auto. split; auto. split; [apply A3|]. split; auto.
  split; [unfold divide_tree; rewrite A1, El; exact C1|]. split; auto. split; auto. split; auto. split; auto. split; [apply C2|]. intros B HB.
  destruct C2 as (_ & _ & _ & _ & _ & _ & CM). specialize (CM B). rewrite (mass_perm B t _ A8). cbn [map]. rewrite list_sum_cons. fold (mass B t1).
  rewrite (weight_divide B (bp_pair i) l HB El); [unfold mass in *; lia|]. intros P' HP'. unfold psum. apply FJ; auto.
Qed.
Lemma update_x t g : tree_x t -> match bh_good_thr t with Some g0 => (g0 <= g)%Qc | None => True end -> exists t', bh_update bp_lo bp_up hq t g = Some t' /\
  tree_x t' /\ bh_good_thr t' = Some g /\ bh_max t' = bh_max t /\ bh_bad t' = bh_bad t /\ (forall i, In i (bh_items t') <-> In i (bh_items t) /\ act (Some g) b i = true) /\ forall B, mass B t' <= mass B t.
Proof.
  intros [Ht HX] Hg. destruct (update_tree_ok rR c0 JP hq is_heap HH b keep t g Ht Hg) as (t' & A1 & A2 & A3 & A4 & A5 & A6 & _). exists t'. split; auto.
  split. { split; auto. intros i [Hi|[Hi|Hi]]; apply HX; [left; apply A6; auto|right; left; congruence|right; right; congruence]. }
  split; auto. split; auto. split; auto. split; auto. intros B. destruct Ht as (H1 & H2 & H3 & _). destruct (update_ok bp_lo bp_up hq is_heap HH b keep t g H1 H2 H3 Hg) as (t2 & E2 & _ & _ & _ & _ & PM).
  assert (t2 = t') by congruence. subst t2. rewrite (mass_perm B t' _ PM). apply list_sum_filter.
Qed.
Lemma new_x g : tree_x (bh_new g b keep).
Proof. split; [apply (new_ok rR c0 JP hq is_heap HH b keep g)|]. intros i [[]|[[]|H]]. cbn in H. discriminate. Qed.
End TermOps.
