(** generate_paths: tuples of paths. *)
From Verif Require Import Py L_Py L_Qc L_BaseMaps M_BaseMaps M_Subsets M_Paths M_PathTree M_PathGen M_Utils S_BaseMaps S_Subsets S_PathGen S_PathTree S_Utils
  P_GenMaps P_Actions P_Subsets P_Points P_Facets P_Paths P_PathTree P_PathGlue P_PathGrow P_PathGen P_PathNext P_PathChain P_PathYield P_PathAll P_Combi.
From Coq Require Import Permutation.
Local Open Scope nat_scope.

Lemma dec_of_eqb {A} (eqb : A -> A -> bool) : eqb_ok eqb -> forall x y : A, {x = y} + {x <> y}.
Proof. intros H x y. destruct (eqb x y) eqn:E; [left; apply H; auto|right; intros ->; rewrite (proj2 (H y y) eq_refl) in E; discriminate]. Qed.
Lemma path_dec {T} (eqb : T -> T -> bool) : eqb_ok eqb -> forall x y : path T, {x = y} + {x <> y}.
Proof.
  intros H. pose proof (dec_of_eqb eqb H) as D. repeat decide equality.
Defined.
Lemma omap_Forall2 {A B} (f : A -> option B) l r : Forall2 (fun x y => f x = Some y) l r -> omap f l = Some r.
Proof. intros H. apply omap_Some. auto. Qed.
Lemma first_index_lt {A} (eqb : A -> A -> bool) (H : eqb_ok eqb) l x : In x l -> nth_error l (first_index eqb l x) = Some x.
Proof.
  induction l as [|y l IH]; [intros []|]. cbn [first_index]. intros Hin. destruct (eqb y x) eqn:E.
  - apply H in E. subst y. auto.
  - cbn. apply IH. destruct Hin as [->|]; auto. rewrite (proj2 (H x x) eq_refl) in E. discriminate.
Qed.
Lemma first_index_inj {A} (eqb : A -> A -> bool) (H : eqb_ok eqb) l x y : In x l -> In y l -> first_index eqb l x = first_index eqb l y -> x = y.
Proof. intros Hx Hy E. apply (first_index_lt _ H) in Hx, Hy. rewrite E in Hx. congruence. Qed.
Lemma items_of_combine {A B} (f : A -> nat) i (ls : list A) (t : list B) : length ls = length t ->
  items_of i (map f ls) t = map snd (filter (fun ab => Nat.eqb (f (fst ab)) i) (combine ls t)).
Proof.
  revert t. induction ls as [|a ls IH]; intros [|b t] HL; try discriminate; auto. cbn. injection HL as HL. rewrite IH by auto. destruct (Nat.eqb (f a) i); auto.
Qed.
Lemma perm_filter {A} (p : A -> bool) l l' : Permutation l l' -> Permutation (filter p l) (filter p l').
Proof.
  induction 1; cbn; auto.
  - destruct (p x); auto.
  - destruct (p x), (p y); auto. constructor.
  - eapply perm_trans; eauto.
Qed.
Lemma perm_of_classes {A B} (f : A -> nat) (l l' : list (A * B)) :
  (forall a a', In a (map fst l ++ map fst l') -> In a' (map fst l ++ map fst l') -> f a = f a' -> a = a') ->
  (forall i, Permutation (map snd (filter (fun ab => Nat.eqb (f (fst ab)) i) l)) (map snd (filter (fun ab => Nat.eqb (f (fst ab)) i) l'))) -> Permutation l l'.
Proof.
  revert l'. induction l as [|[a b] l IH]; intros l' HI HP.
  - destruct l' as [|[a b] l']; auto. exfalso. specialize (HP (f a)). cbn in HP. rewrite Nat.eqb_refl in HP. apply Permutation_nil in HP. discriminate.
  - pose proof (HP (f a)) as HPa. cbn [filter fst] in HPa. rewrite Nat.eqb_refl in HPa. cbn [map snd] in HPa.
    assert (Hin : In b (map snd (filter (fun ab => Nat.eqb (f (fst ab)) (f a)) l'))) by (apply (Permutation_in _ HPa); left; auto).
    apply in_map_iff in Hin. destruct Hin as ([a' b'] & E & Hin). cbn in E. subst b'. apply filter_In in Hin. destruct Hin as (Hin & E). apply Nat.eqb_eq in E. cbn in E.
    assert (a' = a). { apply HI; auto; apply in_or_app; [right; apply in_map_iff; exists (a', b); auto|left; left; auto]. } subst a'.
    apply in_split in Hin. destruct Hin as (l1 & l2 & ->). apply Permutation_cons_app. apply IH.
    + intros x x' H1 H2. apply HI; cbn; rewrite map_app in *; cbn in *; rewrite !in_app_iff in *; cbn; tauto.
    + intros i. specialize (HP i). rewrite filter_app in HP |- *. rewrite map_app in HP |- *. cbn [filter fst] in HP. destruct (Nat.eqb (f a) i); auto.
      cbn [map snd] in HP. apply Permutation_cons_app_inv in HP. auto.
Qed.
Lemma same_choice_perm {A B} (f : A -> nat) (ls : list A) (t t' : list B) : (forall a a', In a ls -> In a' ls -> f a = f a' -> a = a') ->
  length ls = length t -> length ls = length t' -> (same_choice (map f ls) t t' <-> Permutation (combine ls t) (combine ls t')).
Proof.
  intros HI H1 H2. unfold same_choice. split.
  - intros H. apply (perm_of_classes f).
    + intros a a' Ha Ha'. assert (forall x, In x (map fst (combine ls t) ++ map fst (combine ls t')) -> In x ls).
      { intros x Hx. apply in_app_or in Hx. destruct Hx as [Hx|Hx]; apply in_map_iff in Hx; destruct Hx as ([u v] & <- & Hx); apply in_combine_l in Hx; auto. }
      auto.
    + intros i. rewrite <- !items_of_combine by auto. auto.
  - intros H i. rewrite !items_of_combine by auto. apply Permutation_map. apply perm_filter. auto.
Qed.

Section Tuples.
Context {T : Type} (O : subset_ops T) (pt : bool) (d N : nat) (V : T -> Prop) (mem : T -> list Qc -> Prop) (L : laws O pt d N V mem).
Context (links : list (link T)) (HV : Forall (fun l => V (entrance l) /\ V (exit l)) links).
Context (mc : option Z) (H2 : 2 <= N ^ d).
Context (g : @paths_generator T) (HG : mk_generator O pt d N links mc = Some g) (hash : future_t (link T) -> Z) (HH : hash_ok hash) (smax : nat) (fmax : option nat).
Notation want := (wanted O d N mem links mc).
Notation gen fuel := (pg_generic O pt g hash fuel smax fmax).

Lemma all_results (std : bool) (P : link T -> list (path T) -> Prop) (ls : list (link T)) :
  (forall lk, In lk ls -> exists F res, (forall fuel, F <= fuel -> gen fuel std (Some lk) None = Some res) /\ P lk res) ->
  exists F lists, (forall fuel, F <= fuel -> Forall2 (fun lk res => gen fuel std (Some lk) None = Some res) ls lists) /\ Forall2 P ls lists.
Proof.
  induction ls as [|l ls IH]; intros H.
  - exists 0, []. split; auto.
  - destruct (H l ltac:(left; auto)) as (F1 & res & A1 & A2). destruct IH as (F2 & lists & B1 & B2); [intros; apply H; right; auto|].
    exists (F1 + F2), (res :: lists). split; constructor; auto; [apply A1; lia|apply B1; lia].
Qed.
Lemma restr_omap fuel (std : bool) ls lists : Forall2 (fun lk res => gen fuel std (Some lk) None = Some res) ls lists ->
  omap (fun r => gen fuel std (fst r) (snd r)) (map (fun l => (Some l, None)) ls) = Some lists.
Proof. intros H. apply omap_Forall2. apply Forall2_map_l. exact H. Qed.

Lemma tuples_product ls : Forall (fun l => V (entrance l) /\ V (exit l)) ls ->
  exists F res, (forall fuel, F <= fuel -> generate_paths O pt g hash fuel smax fmax (Some ls) None false = Some res) /\ NoDup res /\
    forall ps, In ps res <-> Forall2 want ls ps.
Proof.
  intros HL. rewrite Forall_forall in HL.
  destruct (all_results false (fun lk res => NoDup res /\ forall p, In p res <-> want lk p) ls) as (F & lists & A & B).
  { intros lk Hlk. destruct (HL lk Hlk). apply (generic_link O pt d N V mem L links HV mc H2 lk); auto. }
  set (r := lprod lists).
  assert (HR : NoDup r /\ forall ps, In ps r <-> Forall2 want ls ps).
  { unfold r. split.
    - apply NoDup_lprod. clear - B. induction B; constructor; tauto.
    - intros ps. rewrite In_lprod. clear - B. split.
      + intros H. revert ls B. induction H as [|p l ps lists Hp H IH]; intros ls B; inversion B as [|lk ? ls' ? BB B' E1 E2]; subst; constructor; [apply BB; auto|auto].
      + intros H. revert lists B. induction H as [|lk p ls ps Hp H IH]; intros lists B; inversion B as [|? l ? lists' BB B' E1 E2]; subst; constructor; [apply BB; auto|auto]. }
  destruct lists as [|l1 [|l2 lists]].
  - exists F, r. split; auto. intros fuel Hf. unfold generate_paths, restrictions. rewrite (restr_omap fuel false ls []) by auto. reflexivity.
  - exists F, (map (fun p => [p]) l1). split; [intros fuel Hf; unfold generate_paths, restrictions; rewrite (restr_omap fuel false ls [l1]) by auto; reflexivity|].
    assert (E : map (fun p => [p]) l1 = r). { unfold r. cbn. auto. } rewrite E. auto.
  - exists F, r. split; auto. intros fuel Hf. unfold generate_paths, restrictions. rewrite (restr_omap fuel false ls (l1 :: l2 :: lists)) by auto. reflexivity.
Qed.

(** std = True *)
Notation keep := (keeps O d).
Lemma first_index_restr (ls : list (link T)) x : first_index (restr_eqb O) (map (fun l => (Some l, None)) ls) (Some x, None) = first_index (lk_eqb (so_eqb O)) ls x.
Proof. induction ls as [|l ls IH]; auto. cbn [map first_index]. rewrite IH. unfold restr_eqb. cbn. rewrite andb_true_r. auto. Qed.
Definition same_tuple (ls : list (link T)) (qs ps : list (path T)) : Prop :=
  exists rs, length rs = length ls /\ Forall2 (fun lq r => exists b, keep (fst lq) b /\ pa_mul O b (snd lq) = Some r) (combine ls qs) rs /\
             Permutation (combine ls rs) (combine ls ps).
Definition choice_of (ls : list (link T)) (lists res : list (list (path T))) : Prop :=
  NoDup res /\ (forall t, In t res -> Forall2 (fun x l => In x l) t lists) /\
  (forall t, Forall2 (fun x l => In x l) t lists -> exists! r, In r res /\ Permutation (combine ls t) (combine ls r)).
Lemma combi_choice fuel ls lists : Forall2 (fun lk res => gen fuel true (Some lk) None = Some res) ls lists -> Forall (@NoDup _) lists ->
  exists res, combinations_product (map (first_index (restr_eqb O) (map (fun l => (Some l, None)) ls)) (map (fun l => (Some l, None)) ls)) (fun i => nth_error lists i) = Some res /\
    choice_of ls lists res.
Proof.
  intros HF HND. rewrite map_map. set (f := fun l => first_index (restr_eqb O) (map (fun l0 => (Some l0, None)) ls) (Some l, None)).
  pose proof (lk_eqb_ok _ (lw_eqb _ _ _ _ _ _ L)) as HE.
  assert (Hf : forall l, In l ls -> nth_error ls (f l) = Some l) by (intros l Hl; unfold f; rewrite first_index_restr; apply (first_index_lt _ HE); auto).
  assert (HI : forall a a', In a ls -> In a' ls -> f a = f a' -> a = a') by (intros a a' H1 H3 E; apply Hf in H1, H3; congruence).
  assert (HD : forall l r, In (l, r) (combine ls lists) -> nth_error lists (f l) = Some r).
  { intros l r Hin. pose proof (in_combine_l _ _ _ _ Hin) as Hl. apply Hf in Hl.
    assert (A : forall k l r, nth_error ls k = Some l -> nth_error lists k = Some r -> gen fuel true (Some l) None = Some r).
    { clear - HF. induction HF as [|l r ls lists H HF IH]; intros k l' r' E1 E2; [destruct k; discriminate|]. destruct k; cbn in E1, E2; [congruence|eauto]. }
    assert (B : gen fuel true (Some l) None = Some r). { apply In_nth_error in Hin. destruct Hin as (k & Hk). apply (A k).
      - clear - Hk. revert lists k Hk. induction ls as [|a ls IH]; intros [|b lists] [|k] Hk; cbn in *; try discriminate; [congruence|eauto].
      - clear - Hk. revert lists k Hk. induction ls as [|a ls IH]; intros [|b lists] [|k] Hk; cbn in *; try discriminate; [congruence|eauto]. }
    destruct (nth_error lists (f l)) as [r'|] eqn:E; [rewrite (A _ _ _ Hl E) in B; congruence|]. exfalso. apply nth_error_None in E.
    assert (f l < length ls) by (apply nth_error_Some; congruence). rewrite (Forall2_length HF) in H. lia. }
  assert (HVT : forall t, valid_tuple (map f ls) (fun i => nth_error lists i) t <-> Forall2 (fun x l => In x l) t lists).
  { intros t. unfold valid_tuple. rewrite Forall2_map_l.
    assert (G : forall l0 r0, incl (combine l0 r0) (combine ls lists) -> length l0 = length r0 -> forall t0,
      Forall2 (fun (a : link T) (b : path T) => exists l1, nth_error lists (f a) = Some l1 /\ In b l1) l0 t0 <-> Forall2 (fun x l => In x l) t0 r0).
    { clear t. induction l0 as [|a l0 IH]; intros [|r r0] HC HL t0; try discriminate.
      - split; intros H; inversion H; constructor.
      - injection HL as HL. cbn in HC. assert (HC' : incl (combine l0 r0) (combine ls lists)) by (intros x Hx; apply HC; right; auto).
        specialize (HD a r (HC _ (or_introl eq_refl))). split; intros H.
        + inversion H as [|? x ? t' (l1 & E1 & E2) H']; subst. constructor; [congruence|]. apply (IH r0 HC' HL t'); auto.
        + inversion H as [|x ? t' ? E H']; subst. constructor; [eauto|]. apply (IH r0 HC' HL t'); auto. }
    apply (G ls lists); [intros x Hx; auto|apply (Forall2_length HF)]. }
  destruct (combinations_product_exact (path_dec _ (lw_eqb _ _ _ _ _ _ L)) (map f ls) (fun i => nth_error lists i)) as (res & ER & R1 & R2 & R3).
  { intros i Hi. apply in_map_iff in Hi. destruct Hi as (l & <- & Hl). destruct (nth_error lists (f l)) as [r|] eqn:E.
    - exists r. split; auto. rewrite Forall_forall in HND. apply HND. eapply nth_error_In; eauto.
    - exfalso. apply nth_error_None in E. apply Hf in Hl. assert (f l < length ls) by (apply nth_error_Some; congruence). rewrite (Forall2_length HF) in H. lia. }
  exists res. split; auto. split; auto. split; [intros t Ht; apply HVT, R2; auto|].
  assert (HLt : forall t, Forall2 (fun (x : path T) l => In x l) t lists -> length ls = length t) by (intros t Ht; rewrite (Forall2_length HF), (Forall2_length Ht); auto).
  intros t Ht. destruct (R3 t (proj2 (HVT t) Ht)) as (r & (Q1 & Q2) & Q3). exists r. pose proof (proj1 (HVT r) (R2 r Q1)) as Hr. split.
  - split; auto. apply (same_choice_perm f); auto.
  - intros r' (S1 & S2). apply Q3. split; auto. apply (same_choice_perm f); auto. apply HLt. apply HVT. auto.
Qed.
Lemma single_choice lk (l : list (path T)) : NoDup l -> choice_of [lk] [l] (map (fun p => [p]) l).
Proof.
  intros ND. split; [|split].
  - apply NoDup_map_inj; auto. intros; congruence.
  - intros t Ht. apply in_map_iff in Ht. destruct Ht as (p & <- & Hp). repeat constructor; auto.
  - intros t Ht. inversion Ht as [|x ? t' ? Hx Ht']; subst. inversion Ht'; subst. exists [x]. split.
    + split; [apply in_map_iff; eauto|]. auto.
    + intros r (Hr & HP). apply in_map_iff in Hr. destruct Hr as (p & <- & Hp). cbn in HP. apply Permutation_length_1 in HP. congruence.
Qed.
Lemma tuples_std ls : Forall (fun l => V (entrance l) /\ V (exit l)) ls ->
  exists F res, (forall fuel, F <= fuel -> generate_paths O pt g hash fuel smax fmax (Some ls) None true = Some res) /\ NoDup res /\
    (forall ps, In ps res -> Forall2 want ls ps) /\
    forall qs, Forall2 want ls qs -> exists ps, (In ps res /\ same_tuple ls qs ps) /\ forall ps', In ps' res -> same_tuple ls qs ps' -> ps' = ps.
Proof.
  intros HL. rewrite Forall_forall in HL.
  destruct (all_results true (fun lk res => NoDup res /\ (forall p, In p res -> want lk p) /\
    forall p, want lk p -> exists q, (In q res /\ exists b, keep lk b /\ pa_mul O b p = Some q) /\
                             forall q', In q' res -> (exists b, keep lk b /\ pa_mul O b p = Some q') -> q' = q) ls) as (F & lists & A & B).
  { intros lk Hlk. destruct (HL lk Hlk). apply (generic_std O pt d N V mem L links HV mc H2 lk); auto. }
  assert (HND : Forall (@NoDup _) lists) by (clear - B; induction B; constructor; tauto).
  assert (HR : exists res, (forall fuel, F <= fuel -> generate_paths O pt g hash fuel smax fmax (Some ls) None true = Some res) /\ choice_of ls lists res).
  { unfold generate_paths, restrictions. destruct (combi_choice F ls lists (A F ltac:(lia)) HND) as (res & ER & HC).
    destruct lists as [|l1 [|l2 lists]].
    - exists res. split; auto. intros fuel Hf. rewrite (restr_omap fuel true ls []) by auto. exact ER.
    - exists (map (fun p => [p]) l1). split; [intros fuel Hf; rewrite (restr_omap fuel true ls [l1]) by auto; reflexivity|].
      pose proof (Forall2_length B) as HB. destruct ls as [|lk [|? ?]]; try discriminate. apply single_choice. inversion HND; auto.
    - exists res. split; auto. intros fuel Hf. rewrite (restr_omap fuel true ls (l1 :: l2 :: lists)) by auto. exact ER. }
  destruct HR as (res & R0 & R1 & R2 & R3). exists F, res. split; auto. split; auto. split.
  - intros ps Hps. apply R2 in Hps. clear - Hps B. revert ls B. induction Hps as [|p l ps lists Hp H IH]; intros ls B;
      inversion B as [|lk ? ls' ? BB B' E1 E2]; subst; constructor; [apply BB; auto|auto].
  - intros qs Hqs.
    assert (HRS : exists rs, Forall2 (fun x l => In x l) rs lists /\ length rs = length ls /\
       Forall2 (fun lq r => exists b, keep (fst lq) b /\ pa_mul O b (snd lq) = Some r) (combine ls qs) rs /\
       forall rs', Forall2 (fun x l => In x l) rs' lists -> Forall2 (fun lq r => exists b, keep (fst lq) b /\ pa_mul O b (snd lq) = Some r) (combine ls qs) rs' -> rs' = rs).
    { clear - B Hqs. revert qs Hqs. induction B as [|lk l ls lists (_ & _ & B) BF IH]; intros qs Hqs; inversion Hqs as [|? q ? qs' Hq Hqs' E1 E2]; subst.
      - exists []. cbn. repeat split; auto. intros rs' H _. inversion H; auto.
      - destruct (IH _ Hqs') as (rs & I1 & I2 & I3 & I4). destruct (B q Hq) as (r & (Q1 & Q2) & Q3). exists (r :: rs). cbn [combine length].
        split; [constructor; auto|]. split; [congruence|]. split; [constructor; auto|]. intros rs' K1 K2. inversion K1 as [|x ? rs'' ? X1 X2]; subst.
        inversion K2 as [|? ? ? ? Y1 Y2]; subst. f_equal; [apply Q3; auto|apply I4; auto]. }
    destruct HRS as (rs & S1 & S2 & S3 & S4). destruct (R3 rs S1) as (ps & (P1 & P2) & P3). exists ps. split; [split; auto; exists rs; auto|].
    intros ps' Hps' (rs' & K1 & K2 & K3). symmetry. apply P3. split; auto.
    assert (Forall2 (fun x l => In x l) rs' lists).
    { apply R2 in Hps'. pose proof (A F ltac:(lia)) as AF.
      assert (G : forall l x, In (l, x) (combine ls rs') -> exists r, gen F true (Some l) None = Some r /\ In x r).
      { intros l x Hin. apply (Permutation_in _ K3) in Hin. clear - Hin AF Hps'. revert ps' Hps' Hin. induction AF as [|a r ls lists H AF IH]; intros ps' Hps' Hin; [destruct Hin|].
        inversion Hps' as [|y ? t' ? Hy Ht']; subst. destruct Hin as [Hin|Hin]; [|eauto]. injection Hin as <- <-. eauto. }
      clear - G AF K1. revert rs' G K1. induction AF as [|a r ls lists H AF IH]; intros rs' G K1; destruct rs' as [|x rs']; try discriminate; constructor.
      - destruct (G a x (or_introl eq_refl)) as (r' & E & Hx). congruence.
      - injection K1 as K1. apply IH; auto. intros l x' Hin. apply G. right. auto. }
    rewrite <- (S4 rs'); auto.
Qed.
End Tuples.
