(** Proofs about the text formats of base maps and specs. *)
From Verif Require Import Py L_Py L_Qc M_BaseMaps S_BaseMaps L_BaseMaps M_Text.
Local Open Scope nat_scope.

Definition letter (i : nat) (f : bool) : ascii :=
  let c := nth i basis_letters "?"%char in if f then upper c else c.

Local Arguments l2i : simpl never.
Local Arguments letter : simpl never.
Local Arguments lower : simpl never.
Ltac six i := do 6 (try (destruct i as [|i])); try lia.

Lemma letter_l2i i f : i < 6 -> l2i (lower (letter i f)) = Some i.
Proof. intros; six i; destruct f; reflexivity. Qed.
Lemma letter_case i f : i < 6 -> negb (Ascii.eqb (letter i f) (lower (letter i f))) = f.
Proof. intros; six i; destruct f; reflexivity. Qed.
Lemma letter_nospace i f : i < 6 -> is_space (letter i f) = false.
Proof. intros; six i; destruct f; reflexivity. Qed.
Lemma letter_notilde i f : i < 6 -> letter i f <> "~"%char.
Proof. intros; six i; destruct f; discriminate. Qed.
Lemma letter_nodigit i f : i < 6 -> is_digit (letter i f) = false.
Proof. intros; six i; destruct f; reflexivity. Qed.
Lemma nth_error_letters i : i < 6 -> nth_error basis_letters i = Some (nth i basis_letters "?"%char).
Proof. intros; six i; reflexivity. Qed.

Lemma lstrip_id p t : Forall (fun c => p c = false) t -> lstrip p t = t.
Proof. destruct 1; cbn; auto. rewrite H; auto. Qed.
Lemma strip_id p t : Forall (fun c => p c = false) t -> strip p t = t.
Proof.
  intros H. unfold strip. rewrite (lstrip_id p t H), lstrip_id, rev_involutive; auto.
  apply Forall_rev; auto.
Qed.

(** str *)
Lemma str_fold es : forall bs, (forall e, In e es -> fst e < 6) ->
  fold_left (fun (acc : option (list (option ascii))) (ikb : nat * coord) =>
     match acc, nth_error basis_letters (fst ikb) with
     | Some bs, Some img => Some (upd (fst (snd ikb)) (Some (if snd (snd ikb) then upper img else img)) bs)
     | _, _ => None
     end) es (Some bs) =
  Some (fold_left (fun acc (ikb : nat * coord) => upd (fst (snd ikb)) (Some (letter (fst ikb) (snd (snd ikb)))) acc) es bs).
Proof.
  induction es as [|[i [k f]] es IH]; intros bs H; cbn [fold_left fst snd]; auto.
  rewrite nth_error_letters by (apply (H (i, (k, f))); cbn; auto). rewrite IH; auto.
  intros e He; apply H; cbn; auto.
Qed.

Lemma bm_str_basis_eq d b : wf_bm d b -> d <= 6 ->
  bm_str_basis b = Some (map (fun kf => Some (letter (fst kf) (snd kf))) (coords (bm_inv b))).
Proof.
  intros Hw Hd. pose proof (wf_length _ _ Hw) as HL.
  unfold bm_str_basis. rewrite str_fold.
  2:{ intros [i kf] Hin. apply In_enumerate in Hin. cbn. assert (i < length (coords b)) by (apply nth_error_Some; congruence). lia. }
  f_equal. apply nth_ext_lt with None.
  - rewrite (fold_upd_length (fun ikb : nat * coord => fst (snd ikb)) (fun ikb => Some (letter (fst ikb) (snd (snd ikb))))).
    rewrite repeat_length, map_length, length_inv. auto.
  - rewrite (fold_upd_length (fun ikb : nat * coord => fst (snd ikb)) (fun ikb => Some (letter (fst ikb) (snd (snd ikb))))).
    rewrite repeat_length. unfold bm_dim. rewrite HL. intros k Hk.
    rewrite map_nth_lt with (d := (0, false)) by (rewrite length_inv; lia).
    destruct (wf_nth_surj d b k Hw Hk) as (i & Hi & <-). rewrite (nth_inv d) by auto. cbn [fst snd].
    set (e := (i, nth i (coords b) (0, false))).
    refine (fold_upd_in (fun ikb : nat * coord => fst (snd ikb)) (fun ikb => Some (letter (fst ikb) (snd (snd ikb))))
              (enumerate (coords b)) _ e None _ _ _).
    + rewrite <- (map_map snd fst). rewrite enumerate_snd. eapply Permutation_seq_NoDup; eauto.
    + apply In_enumerate. apply nth_error_nth'. lia.
    + rewrite repeat_length. cbn. apply wf_nth_lt; auto.
Qed.

Lemma omap_id_some {A B} (g : A -> B) l : omap (fun x => x) (map (fun a => Some (g a)) l) = Some (map g l).
Proof. induction l; cbn; auto. rewrite IHl; auto. Qed.

Definition letters_of (cs : list coord) : text := map (fun kf => letter (fst kf) (snd kf)) cs.
Lemma bm_str_eq d b : wf_bm d b -> d <= 6 ->
  bm_str b = Some (letters_of (coords (bm_inv b)) ++ if time_rev b then ["~"%char] else []).
Proof. intros Hw Hd. unfold bm_str. rewrite (bm_str_basis_eq d) by auto. rewrite omap_id_some. auto. Qed.

(** parse *)
Lemma dset_fresh {V} (cm : list (nat * V)) i v : ~ In i (map fst cm) -> dset Nat.eqb cm i v = cm ++ [(i, v)].
Proof.
  induction cm as [|[j w] cm IH]; cbn; intros H; auto.
  destruct (Nat.eqb_spec i j); [subst; tauto|]. rewrite IH; tauto.
Qed.

Lemma parse_loop_letters cs : forall s cm,
  NoDup (map fst cs) -> (forall kf, In kf cs -> fst kf < 6) ->
  (forall kf, In kf cs -> ~ In (fst kf) (map fst cm)) ->
  bm_parse_loop (combine (seq s (length (letters_of cs))) (letters_of cs)) cm =
  Some (cm ++ map (fun e => (fst (snd e), (fst e, snd (snd e)))) (combine (seq s (length cs)) cs)).
Proof.
  induction cs as [|[i f] cs IH]; intros s cm HN Hlt Hd; cbn.
  - rewrite app_nil_r; auto.
  - assert (i < 6) by (apply (Hlt (i, f)); cbn; auto).
    rewrite letter_l2i, letter_case by auto.
    inversion HN; subst. rewrite dset_fresh by (apply (Hd (i, f)); cbn; auto).
    fold (letters_of cs). rewrite IH; auto.
    + rewrite <- app_assoc. auto.
    + intros kf Hk; apply Hlt; cbn; auto.
    + intros kf Hk. rewrite map_app, in_app_iff; cbn. intros [Hin|[E|[]]].
      * apply (Hd kf); cbn; auto.
      * apply H2. rewrite E. apply in_map; auto.
Qed.

Lemma nat_eqb_ok : eqb_ok Nat.eqb. Proof. intros x y; apply Nat.eqb_eq. Qed.

Lemma letters_prop (P : ascii -> Prop) d b : wf_bm d b -> d <= 6 -> (forall i f, i < 6 -> P (letter i f)) ->
  Forall P (letters_of (coords b)).
Proof.
  intros Hw Hd H. apply Forall_map, Forall_forall. intros [i f] Hin. apply H. cbn. pose proof (wf_In_lt d b i f Hw Hin). lia.
Qed.

Lemma bm_split_letters d b tr : wf_bm d b -> 1 <= d <= 6 ->
  bm_split (letters_of (coords b) ++ if tr : bool then ["~"%char] else []) = Some (letters_of (coords b), tr).
Proof.
  intros Hw Hd. unfold bm_split.
  assert (HS : Forall (fun c => is_space c = false) (letters_of (coords b) ++ if tr then ["~"%char] else [])).
  { apply Forall_app. split.
    - apply letters_prop with d; auto; try lia. apply letter_nospace.
    - destruct tr; repeat constructor. }
  rewrite strip_id by auto. destruct tr.
  - rewrite rev_app_distr. cbn. rewrite rev_involutive. auto.
  - rewrite app_nil_r. assert (HT : Forall (fun c => c <> "~"%char) (letters_of (coords b))).
    { apply letters_prop with d; auto; try lia. intros; apply letter_notilde; auto. }
    apply Forall_rev in HT. destruct (rev (letters_of (coords b))) as [|c r] eqn:E.
    + apply (f_equal (@length _)) in E. unfold letters_of in E. rewrite rev_length, map_length, (wf_length d) in E by auto.
      cbn in E; lia.
    + inversion HT; subst. destruct (Ascii.eqb_spec c "~"%char); [congruence|]. auto.
Qed.

Lemma bm_parse_str d b : wf_bm d b -> 1 <= d <= 6 ->
  exists t, bm_str b = Some t /\ bm_parse t = Some b.
Proof.
  intros Hw Hd. pose proof (wf_length _ _ Hw) as HL. pose proof (wf_inv _ _ Hw) as Hwi.
  eexists; split; [apply (bm_str_eq d); auto; lia|].
  unfold bm_parse. rewrite (bm_split_letters d) by auto.
  assert (HLc : length (coords (bm_inv b)) = d) by (rewrite length_inv; auto).
  assert (HLl : length (letters_of (coords (bm_inv b))) = d) by (unfold letters_of; rewrite map_length; auto).
  destruct (Nat.leb_spec (length (letters_of (coords (bm_inv b)))) (length basis_letters)) as [_|Hgt];
    [|change (length basis_letters) with 6 in Hgt; lia].
  unfold enumerate. rewrite parse_loop_letters.
  2:{ eapply Permutation_seq_NoDup; eauto. }
  2:{ intros [i f] Hin; cbn. pose proof (wf_In_lt d _ i f Hwi Hin). lia. }
  2:{ intros; cbn; auto. }
  cbn [app]. set (cm := map _ _).
  assert (HN : map fst cm = map fst (coords (bm_inv b))).
  { unfold cm. rewrite map_map. cbn. rewrite <- (map_map snd fst). rewrite combine_map_r; auto. rewrite seq_length; auto. }
  assert (HLm : length cm = d) by (rewrite <- (map_length fst), HN, map_length; auto).
  rewrite HLm. replace (omap (dget Nat.eqb cm) (range d)) with (Some (coords b)); [destruct b; auto|].
  symmetry. apply omap_Some. apply (Forall2_nth _ _ _ 0 (0, false)). unfold range. rewrite seq_length.
  split; auto. intros i Hi. rewrite seq_nth by auto. cbn [plus].
  apply In_dget; [apply nat_eqb_ok|rewrite HN; eapply Permutation_seq_NoDup; eauto|].
  unfold cm. apply in_map_iff. exists (fst (nth i (coords b) (0, false)), (i, snd (nth i (coords b) (0, false)))).
  cbn. split; [destruct (nth i (coords b) (0, false)); auto|].
  rewrite <- (nth_inv d b i Hw Hi). apply In_enumerate. apply nth_error_nth'. rewrite HLc. apply wf_nth_lt; auto.
Qed.

(** which texts give valid maps *)
Definition basis_of (t : text) : text := match bm_split t with Some (bs, _) => bs | None => [] end.

Lemma index_of_inj c c' t i : index_of c t = Some i -> index_of c' t = Some i -> c = c'.
Proof.
  revert i; induction t as [|x t IH]; intros i; cbn; [discriminate|].
  destruct (Ascii.eqb_spec c x), (Ascii.eqb_spec c' x); subst; auto.
  - intros E; inversion E; subst. destruct (index_of c' t); discriminate.
  - intros E E'; inversion E'; subst. destruct (index_of c t); discriminate.
  - destruct (index_of c t) eqn:E1, (index_of c' t) eqn:E2; cbn; try discriminate.
    intros F G. inversion F; inversion G; subst. eapply IH; eauto.
Qed.

Record cm_inv (basis : text) (cm : list (nat * coord)) : Prop := {
  ci_keys : NoDup (map fst cm);
  ci_let : forall i, In i (map fst cm) <-> exists l, In l basis /\ l2i (lower l) = Some i;
  ci_len : length cm <= length basis;
  ci_nd : length cm = length basis <-> NoDup (map lower basis);
  ci_ks : NoDup (map (fun e => fst (snd e)) cm);
  ci_lt : forall e, In e cm -> fst (snd e) < length basis;
  ci_last : basis <> [] -> In (length basis - 1) (map (fun e => fst (snd e)) cm) }.

Lemma dset_keys {V} (cm : list (nat * V)) i v : In i (map fst cm) -> map fst (dset Nat.eqb cm i v) = map fst cm.
Proof.
  induction cm as [|[j w] cm IH]; cbn; [tauto|]. destruct (Nat.eqb_spec i j); cbn; auto.
  intros [->|H]; [congruence|]. f_equal; auto.
Qed.
Lemma dset_length_in {V} (cm : list (nat * V)) i v : In i (map fst cm) -> length (dset Nat.eqb cm i v) = length cm.
Proof. intros H. rewrite <- (map_length fst), dset_keys, map_length; auto. Qed.
Lemma In_dset {V} (cm : list (nat * V)) i v e : In e (dset Nat.eqb cm i v) -> e = (i, v) \/ In e cm.
Proof.
  induction cm as [|[j w] cm IH]; cbn; [intros [<-|[]]; auto|].
  destruct (Nat.eqb_spec i j); subst; cbn; intros [<-|H]; auto. destruct (IH H); auto.
Qed.
Lemma dset_In {V} (cm : list (nat * V)) i v : In (i, v) (dset Nat.eqb cm i v).
Proof. induction cm as [|[j w] cm IH]; cbn; auto. destruct (Nat.eqb_spec i j); subst; cbn; auto. Qed.
Lemma dset_ks_NoDup (cm : list (nat * coord)) i k f :
  NoDup (map (fun e => fst (snd e)) cm) -> ~ In k (map (fun e => fst (snd e)) cm) ->
  NoDup (map (fun e => fst (snd e)) (dset Nat.eqb cm i (k, f))).
Proof.
  induction cm as [|[j [k' f']] cm IH]; cbn; intros HN Hk.
  - repeat constructor; auto.
  - inversion HN; subst. destruct (Nat.eqb_spec i j); cbn.
    + constructor; tauto.
    + constructor; [|apply IH; tauto]. intros Hin. apply in_map_iff in Hin as (e & E & He).
      apply In_dset in He as [->|He]; cbn in E; [subst; tauto|]. apply H1. rewrite <- E.
      apply in_map_iff. exists e; auto.
Qed.

Lemma cm_inv_step basis cm l i f : cm_inv basis cm -> l2i (lower l) = Some i ->
  cm_inv (basis ++ [l]) (dset Nat.eqb cm i (length basis, f)).
Proof.
  intros [C1 C2 C3 C4 C5 C6 C7] Hi.
  assert (Hnk : ~ In (length basis) (map (fun e => fst (snd e)) cm)).
  { intros H. apply in_map_iff in H as (e & E & He). apply C6 in He. lia. }
  assert (HLb : length (basis ++ [l]) = S (length basis)) by (rewrite app_length; cbn; lia).
  destruct (in_dec Nat.eq_dec i (map fst cm)) as [Hin|Hni].
  - constructor.
    + rewrite dset_keys; auto.
    + intros i'. rewrite dset_keys by auto. rewrite C2. split.
      * intros (l' & Hl' & E). exists l'. rewrite in_app_iff; auto.
      * intros (l' & Hl' & E). apply in_app_iff in Hl' as [Hl'|[<-|[]]]; eauto.
        rewrite Hi in E; inversion E; subst. apply C2; auto.
    + rewrite dset_length_in by auto. lia.
    + rewrite dset_length_in, HLb by auto. split; [lia|]. intros HN. exfalso.
      apply C2 in Hin as (l' & Hl' & E). rewrite map_app in HN; cbn in HN.
      apply NoDup_remove_2 in HN. rewrite app_nil_r in HN. apply HN.
      assert (lower l = lower l') as -> by (eapply index_of_inj; eauto). apply in_map; auto.
    + apply dset_ks_NoDup; auto.
    + intros e He. rewrite HLb. apply In_dset in He as [->|He]; cbn; [lia|]. apply C6 in He. lia.
    + intros _. rewrite HLb. replace (S (length basis) - 1) with (length basis) by lia.
      apply in_map_iff. exists (i, (length basis, f)). split; auto. apply dset_In.
  - rewrite dset_fresh by auto. constructor.
    + rewrite map_app. cbn. apply NoDup_app_intro; auto. repeat constructor; auto. intros z Hz [<-|[]]; auto.
    + intros i'. rewrite map_app, in_app_iff, C2. cbn. split.
      * intros [(l' & Hl' & E)|[<-|[]]]; [exists l'|exists l]; rewrite in_app_iff; cbn; auto.
      * intros (l' & Hl' & E). apply in_app_iff in Hl' as [Hl'|[<-|[]]]; eauto. right; left; congruence.
    + rewrite app_length; cbn. lia.
    + rewrite app_length, HLb; cbn. rewrite map_app; cbn. split.
      * intros E. apply NoDup_app_intro; [apply C4; lia|repeat constructor; auto|].
        intros z Hz [<-|[]]. apply Hni. apply C2. apply in_map_iff in Hz as (l' & E' & Hl'). exists l'. split; auto. congruence.
      * intros HN. assert (NoDup (map lower basis)) as HN'.
        { apply NoDup_remove_1 in HN. rewrite app_nil_r in HN; auto. }
        apply C4 in HN'. lia.
    + rewrite map_app; cbn. apply NoDup_app_intro; auto. repeat constructor; auto. intros z Hz [<-|[]]; auto.
    + intros e He. rewrite HLb. apply in_app_iff in He as [He|[<-|[]]]; cbn; [|lia]. apply C6 in He. lia.
    + intros _. rewrite HLb. replace (S (length basis) - 1) with (length basis) by lia.
      rewrite map_app, in_app_iff. cbn; auto.
Qed.

Lemma parse_loop_app a b cm :
  bm_parse_loop (a ++ b) cm = match bm_parse_loop a cm with Some cm' => bm_parse_loop b cm' | None => None end.
Proof.
  revert cm; induction a as [|[k l] a IH]; intros cm; cbn; auto. destruct (l2i (lower l)); auto.
Qed.

Lemma cm_inv_loop basis cm : bm_parse_loop (enumerate basis) [] = Some cm -> cm_inv basis cm.
Proof.
  revert cm; induction basis as [|l basis IH] using rev_ind; intros cm.
  - cbn. intros E; inversion E; subst. constructor; cbn; auto; try constructor; try tauto.
    + intros (l & [] & _).
    + intros _; constructor.
  - rewrite enumerate_app, parse_loop_app. destruct (bm_parse_loop (enumerate basis) []) as [cm0|]; [|discriminate].
    cbn. destruct (l2i (lower l)) as [i|] eqn:E; [|discriminate]. intros E'; inversion E'; subst.
    apply cm_inv_step; auto.
Qed.

Lemma bm_parse_valid_iff t b : bm_parse t = Some b ->
  ((exists d, wf_bm d b) <-> NoDup (map lower (basis_of t))).
Proof.
  unfold bm_parse, basis_of. destruct (bm_split t) as [[basis tr]|]; [|discriminate].
  destruct (Nat.leb _ _); [|discriminate].
  destruct (bm_parse_loop _ _) as [cm|] eqn:E; [|discriminate]. apply cm_inv_loop in E as [C1 C2 C3 C4 C5 C6 C7].
  destruct (omap _ _) as [cs|] eqn:Ecs; [|discriminate]. intros Eb; inversion Eb; subst b; clear Eb.
  apply omap_Some in Ecs. apply (Forall2_nth _ _ _ 0 (0, false)) in Ecs as [HL HF]. unfold range in *. rewrite seq_length in *.
  assert (HF' : forall i, i < length cm -> dget Nat.eqb cm i = Some (nth i cs (0, false))).
  { intros i Hi. rewrite <- HF by auto. rewrite seq_nth; auto. }
  assert (HP : Permutation (seq 0 (length cm)) (map fst cm)).
  { apply NoDup_Permutation_bis; [apply seq_NoDup|rewrite map_length, seq_length; auto|].
    intros i Hi. apply in_seq in Hi. specialize (HF' i ltac:(lia)). apply dget_In in HF'; [|apply nat_eqb_ok].
    apply (in_map fst) in HF'; auto. }
  rewrite <- C4. split.
  - intros (d & Hw). assert (Hd : length cs = d) by apply (wf_length d _ Hw).
    destruct basis as [|l basis]; [cbn in *; lia|].
    specialize (C7 ltac:(discriminate)). apply in_map_iff in C7 as ([i [k f]] & E & He). cbn [fst snd] in E. subst k.
    assert (Hi : i < length cm).
    { assert (In i (seq 0 (length cm))); [|apply in_seq in H; lia].
      eapply Permutation_in; [apply Permutation_sym; eauto|]. apply (in_map fst) in He; auto. }
    specialize (HF' i Hi). rewrite (In_dget Nat.eqb nat_eqb_ok cm i _ C1 He) in HF'.
    assert (Hlt : fst (nth i cs (0, false)) < d) by (apply (wf_nth_lt d (BM cs tr)); auto; lia).
    inversion HF' as [HF'']. rewrite <- HF'' in Hlt. cbn in Hlt. cbn in C3 |- *. lia.
  - intros E. exists (length cm). apply wf_of_nth; cbn [coords]; auto.
    + intros i Hi. specialize (HF' i Hi). apply dget_In in HF'; [|apply nat_eqb_ok]. apply C6 in HF'. cbn in HF'. lia.
    + intros i j Hi Hj Eij. pose proof (HF' i Hi) as Fi. pose proof (HF' j Hj) as Fj.
      apply dget_In in Fi; [|apply nat_eqb_ok]. apply dget_In in Fj; [|apply nat_eqb_ok].
      apply In_nth with (d := (0, (0, false))) in Fi as (a & Ha & Ea).
      apply In_nth with (d := (0, (0, false))) in Fj as (a' & Ha' & Ea').
      assert (a = a').
      { eapply NoDup_nth_lt with (l := map (fun e : nat * coord => fst (snd e)) cm) (d := 0); rewrite ?map_length; auto.
        rewrite !map_nth_lt with (d := (0, (0, false))) by auto. rewrite Ea, Ea'. auto. }
      subst. congruence.
Qed.

(** specs *)
Lemma dec_small n : n < 10 -> dec n = [digit n].
Proof. intros H. unfold dec; cbn [dec_aux]. apply Nat.ltb_lt in H; rewrite H; auto. Qed.
Lemma dec_aux_app fuel : forall n acc, n < fuel -> exists c r, dec_aux fuel n acc = c :: r ++ acc /\ is_digit c = true /\ Forall (fun x => is_digit x = true) r.
Proof.
  assert (HD : forall n, n < 10 -> is_digit (digit n) = true).
  { intros n Hn. do 10 (try (destruct n as [|n]; [reflexivity|])). lia. }
  induction fuel as [|fuel IH]; intros n acc Hn; [lia|]. cbn [dec_aux].
  destruct (Nat.ltb_spec n 10) as [H|H].
  - exists (digit n), []. auto.
  - destruct (IH (n / 10) (digit (n mod 10) :: acc)) as (c & r & E & H1 & H2).
    { apply Nat.lt_le_trans with n; [|lia]. apply Nat.div_lt; lia. }
    exists c, (r ++ [digit (n mod 10)]). rewrite E, <- app_assoc. split; auto. split; auto.
    apply Forall_app; split; auto. repeat constructor. apply HD. apply Nat.mod_upper_bound; lia.
Qed.
Lemma dec_big n : 10 <= n -> exists c c' r, dec n = c :: c' :: r /\ is_digit c = true /\ is_digit c' = true /\ Forall (fun x => is_digit x = true) r.
Proof.
  intros H. unfold dec. cbn [dec_aux]. destruct (Nat.ltb_spec n 10); [lia|].
  destruct (dec_aux_app n (n / 10) [digit (n mod 10)]) as (c & r & E & H1 & H2).
  { apply Nat.div_lt; lia. }
  rewrite E. destruct r as [|c' r]; cbn.
  - exists c, (digit (n mod 10)), []. repeat split; auto.
    assert (Hm : n mod 10 < 10) by (apply Nat.mod_upper_bound; lia). revert Hm. generalize (n mod 10).
    intros k Hk. do 10 (try (destruct k as [|k]; [reflexivity|])). lia.
  - inversion H2; subst. exists c, c', (r ++ [digit (n mod 10)]). repeat split; auto.
    apply Forall_app; split; auto. repeat constructor.
    assert (Hm : n mod 10 < 10) by (apply Nat.mod_upper_bound; lia). revert Hm. generalize (n mod 10).
    intros k Hk. do 10 (try (destruct k as [|k]; [reflexivity|])). lia.
Qed.

Lemma spec_parse_str d s : wf_bm d (sp_bm s) -> 1 <= d <= 6 -> sp_pnum s < 10 ->
  exists t, spec_str s = Some t /\ spec_parse t = Some s.
Proof.
  intros Hw Hd Hp. destruct (bm_parse_str d _ Hw Hd) as (t & Ht & Hparse).
  unfold spec_str. rewrite Ht. cbn [option_map]. eexists; split; eauto. rewrite dec_small by auto. cbn [app spec_parse].
  rewrite Hparse.
  assert (HD : is_digit (digit (sp_pnum s)) = true /\ nat_of_ascii (digit (sp_pnum s)) - 48 = sp_pnum s).
  { generalize dependent (sp_pnum s). intros n Hn. do 10 (try (destruct n as [|n]; [split; reflexivity|])). lia. }
  destruct HD as [-> ->]. cbn [option_map]. destruct s; auto.
Qed.

Lemma digit_l2i c : is_digit c = true -> l2i (lower c) = None.
Proof.
  intros H. destruct c as [[] [] [] [] [] [] [] []]; try (cbn in H; discriminate); reflexivity.
Qed.
Lemma digit_nospace c : is_digit c = true -> is_space c = false.
Proof.
  intros H. destruct c as [[] [] [] [] [] [] [] []]; try (cbn in H; discriminate); reflexivity.
Qed.

Lemma bm_parse_digit c t : is_digit c = true -> Forall (fun x => is_space x = false) t -> bm_parse (c :: t) = None.
Proof.
  intros Hc Ht. unfold bm_parse, bm_split. rewrite strip_id by (constructor; auto using digit_nospace).
  destruct (rev (c :: t)) as [|x r] eqn:E; auto.
  assert (Hb : forall basis tr, (if Ascii.eqb x "~" then Some (rev r, true) else Some (c :: t, false)) = Some (basis, tr) ->
     exists t', basis = c :: t').
  { intros basis tr. destruct (Ascii.eqb_spec x "~"%char).
    - intros E'; inversion E'; subst. apply (f_equal (@rev _)) in E. rewrite rev_involutive in E. cbn in E.
      destruct (rev r) as [|y r']; cbn in E; inversion E; subst; eauto. discriminate.
    - intros E'; inversion E'; subst; eauto. }
  destruct (if Ascii.eqb x "~" then _ else _) as [[basis tr]|]; auto.
  destruct (Hb basis tr eq_refl) as (t' & ->). destruct (Nat.leb _ _); auto.
  cbn. rewrite digit_l2i by auto. auto.
Qed.

Lemma spec_parse_str_big d s : wf_bm d (sp_bm s) -> 1 <= d <= 6 -> 10 <= sp_pnum s ->
  exists t, spec_str s = Some t /\ spec_parse t = None.
Proof.
  intros Hw Hd Hp. unfold spec_str. rewrite (bm_str_eq d) by (auto; lia). cbn [option_map].
  eexists; split; eauto. destruct (dec_big _ Hp) as (c & c' & r & -> & H1 & H2 & H3).
  cbn [app spec_parse]. rewrite H1. rewrite bm_parse_digit; auto.
  apply Forall_app; split.
  - eapply Forall_impl; [|eauto]. intros; apply digit_nospace; auto.
  - apply Forall_app; split.
    + apply (letters_prop _ d); [apply wf_inv; auto|lia|apply letter_nospace].
    + destruct (time_rev (sp_bm s)); repeat constructor.
Qed.

(** the meaning of the text: letter number k is the image of the k-th basis vector *)
Lemma apply_vec_basis d b k : wf_bm d b -> k < d ->
  let i := fst (nth k (coords (bm_inv b)) (0, false)) in
  let f := snd (nth k (coords (bm_inv b)) (0, false)) in
  i < d /\ apply_vec b (basis_vec d k 1) = basis_vec d i (if f then -1 else 1)%Z.
Proof.
  intros Hb Hk i f. pose proof (wf_inv _ _ Hb) as Hbi.
  assert (Hi : i < d) by (apply wf_nth_lt; auto).
  split; auto.
  pose proof (nth_inv d (bm_inv b) k Hbi Hk) as HN. rewrite (inv_inv d) in HN by auto. cbn zeta in HN.
  apply nth_ext_lt with (d := 0%Z).
  { unfold apply_vec. rewrite length_act, (wf_length d) by auto. unfold basis_vec. rewrite map_length, seq_length; auto. }
  unfold apply_vec at 1. rewrite length_act, (wf_length d) by auto. intros j Hj.
  unfold apply_vec. rewrite nth_act by (rewrite (wf_length d); auto). unfold basis_vec.
  set (kb := nth j (coords b) (0, false)).
  assert (Hkb : fst kb < d) by (apply wf_nth_lt; auto).
  rewrite !map_nth_lt with (d := 0) by (rewrite seq_length; auto).
  rewrite !seq_nth by auto. cbn [plus].
  destruct (Nat.eqb_spec (fst kb) k) as [E|E]; destruct (Nat.eqb_spec j i) as [E2|E2].
  - subst j. unfold kb, i. rewrite HN. cbn [snd]. fold f. destruct f; auto.
  - exfalso. apply E2. apply (wf_nth_inj d b); auto. fold kb. rewrite E. unfold i. rewrite HN. auto.
  - exfalso. apply E. unfold kb. subst j. unfold i. rewrite HN. auto.
  - destruct (snd kb); auto.
Qed.
Lemma bm_str_meaning d b k : wf_bm d b -> 1 <= d <= 6 -> k < d ->
  exists t i f l, bm_str b = Some t /\ nth_error basis_letters i = Some l /\
    nth_error t k = Some (if f : bool then upper l else l) /\
    apply_vec b (basis_vec d k 1) = basis_vec d i (if f then -1 else 1)%Z /\
    length t = (if time_rev b then S d else d) /\ (nth_error t d = Some "~"%char <-> time_rev b = true).
Proof.
  intros Hb Hd Hk. destruct (apply_vec_basis d b k Hb Hk) as [Hi HA].
  pose proof (wf_inv _ _ Hb) as Hbi. pose proof (wf_length _ _ Hbi) as HLi.
  eexists _, _, _, _. split; [apply (bm_str_eq d); auto; lia|].
  assert (Hl6 : fst (nth k (coords (bm_inv b)) (0, false)) < 6) by lia.
  split; [apply nth_error_letters; eauto|].
  split; [|split; [exact HA|]].
  - rewrite nth_error_app1 by (unfold letters_of; rewrite map_length; lia).
    unfold letters_of. rewrite nth_error_map. rewrite (nth_error_nth' _ (0, false)) by lia. cbn. unfold letter. reflexivity.
  - assert (HLL : length (letters_of (coords (bm_inv b))) = d) by (unfold letters_of; rewrite map_length; auto).
    split.
    + rewrite app_length, HLL. destruct (time_rev b); cbn; lia.
    + rewrite nth_error_app2 by lia. rewrite HLL, Nat.sub_diag. destruct (time_rev b); cbn; split; auto; discriminate.
Qed.

Lemma parse_ii : exists t b, bm_parse t = Some b /\ forall d, ~ wf_bm d b.
Proof.
  exists ["i"; "i"]%char. destruct (bm_parse ["i"; "i"]%char) as [b|] eqn:E; [|discriminate E].
  exists b. split; auto. intros d Hd. assert (exists d, wf_bm d b) as HH by eauto. apply (bm_parse_valid_iff _ _ E) in HH.
  cbn in HH. inversion HH; subst. cbn in *; tauto.
Qed.
