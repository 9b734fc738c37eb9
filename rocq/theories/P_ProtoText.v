(** The chain code of a prototype. *)
From Verif Require Import Py L_Py L_Qc M_BaseMaps M_Subsets M_Paths M_Text M_ProtoText S_BaseMaps S_Subsets P_Text.
From Coq Require Import Permutation.
Local Open Scope nat_scope.
Local Arguments l2i : simpl never.
Local Arguments letter : simpl never.
Local Arguments lower : simpl never.

Lemma letter_word i f : i < 6 -> is_word (letter i f) = true.
Proof. intros; six i; destruct f; reflexivity. Qed.
Lemma letter_islower i f : i < 6 -> is_lower (letter i f) = negb f.
Proof. intros; six i; destruct f; reflexivity. Qed.
Lemma letter_lower i f : i < 6 -> lower (letter i f) = letter i false.
Proof. intros; six i; destruct f; reflexivity. Qed.
Lemma letter_inj i j : i < 6 -> j < 6 -> letter i false = letter j false -> i = j.
Proof. intros Hi Hj. six i; six j; auto; intros E; discriminate E. Qed.
Lemma skip_letters s : s < 6 -> skipn s basis_letters = letter s false :: skipn (S s) basis_letters.
Proof. intros; six s; reflexivity. Qed.
Lemma upper_letter s : upper (letter s false) = letter s true. Proof. reflexivity. Qed.

(** the regular expression *)
Lemma take_word_spec t : fst (take_word t) ++ snd (take_word t) = t.
Proof. induction t as [|c t IH]; cbn; auto. destruct (is_word c); auto. destruct (take_word t) as [w r]. cbn in *. f_equal. auto. Qed.
Lemma take_word_app w r : Forall (fun c => is_word c = true) w -> take_word (w ++ ")"%char :: r) = (w, ")"%char :: r).
Proof. induction 1 as [|c w H F IH]; cbn; [reflexivity|]. rewrite H, IH. auto. Qed.
Lemma findall_irrel n : forall m t, length t <= n -> length t <= m -> findall_fuel n t = findall_fuel m t.
Proof.
  induction n as [|n IH]; intros m t Hn Hm.
  - destruct t; [|cbn in Hn; lia]. destruct m; auto.
  - destruct m as [|m]; [destruct t; [auto|cbn in Hm; lia]|]. destruct t as [|c t]; auto. cbn [findall_fuel length] in *.
    rewrite (IH m t) by lia. destruct (is_word c); auto. destruct (Ascii.eqb c "("); auto.
    pose proof (take_word_spec t) as HT. destruct (take_word t) as [w r]. cbn in HT. destruct w as [|x w]; auto. destruct r as [|y r]; auto.
    assert (length r <= n /\ length r <= m) as (L1 & L2) by (rewrite <- HT in Hn, Hm; rewrite app_length in Hn, Hm; cbn in Hn, Hm; lia). rewrite (IH m r L1 L2). auto.
Qed.
Definition enc (w : text) : text := match w with [x] => [x] | bs => "("%char :: bs ++ [")"%char] end.
Lemma groups_enc w r : w <> [] -> Forall (fun c => is_word c = true) w -> chain_groups (enc w ++ r) = w :: chain_groups r.
Proof.
  intros NE HW. assert (HP : forall r', chain_groups ("("%char :: w ++ ")"%char :: r') = w :: chain_groups r').
  { intros r'. unfold chain_groups. cbn [length findall_fuel]. assert (is_word "("%char = false) as -> by reflexivity.
    assert (Ascii.eqb "("%char "("%char = true) as -> by reflexivity. rewrite (take_word_app w r' HW). destruct w as [|x w]; [congruence|].
    assert (Ascii.eqb ")"%char ")"%char = true) as -> by reflexivity. f_equal. apply findall_irrel; rewrite ?app_length; cbn; rewrite ?app_length; cbn; lia. }
  destruct w as [|x [|y w]]; [congruence| |].
  - cbn [enc app]. unfold chain_groups. cbn [length findall_fuel]. inversion HW as [|? ? H _]; subst. rewrite H. auto.
  - change (enc (x :: y :: w) ++ r) with ("("%char :: ((x :: y :: w) ++ [")"%char]) ++ r). rewrite <- app_assoc. apply HP.
Qed.

(** the letters of a step *)
Definition unit_step (dl : list Z) : Prop := Forall (fun x => x = 0 \/ x = 1 \/ x = -1)%Z dl.
Definition from (s : nat) (dl : list Z) : text :=
  flat_map (fun xl => if (fst xl =? 1)%Z then [snd xl] else if (fst xl =? -1)%Z then [upper (snd xl)] else []) (combine dl (skipn s basis_letters)).
Lemma from_cons s x dl : s < 6 -> from s (x :: dl) = (if (x =? 1)%Z then [letter s false] else if (x =? -1)%Z then [letter s true] else []) ++ from (S s) dl.
Proof. intros H. unfold from. rewrite (skip_letters s H). reflexivity. Qed.
Lemma delta_bases_from dl : delta_bases dl = from 0 dl. Proof. reflexivity. Qed.
Lemma from_In dl : forall s, s + length dl <= 6 -> unit_step dl -> forall c, In c (from s dl) <->
  exists i, i < length dl /\ ((nth_error dl i = Some 1%Z /\ c = letter (s + i) false) \/ (nth_error dl i = Some (-1)%Z /\ c = letter (s + i) true)).
Proof.
  induction dl as [|x dl IH]; intros s Hs HU c.
  - cbn. split; [intros []|intros (i & H & _); lia].
  - cbn [length] in *. inversion HU as [|? ? HX HU']; subst. rewrite from_cons by lia. rewrite in_app_iff, (IH (S s)) by (auto; lia). split.
    + intros [H|(i & Hi & H)].
      * exists 0. split; [lia|]. rewrite Nat.add_0_r. cbn [nth_error]. destruct HX as [->|[->| ->]]; cbn in H; destruct H as [<-|[]] || destruct H; auto.
      * exists (S i). split; [lia|]. cbn [nth_error]. replace (s + S i) with (S s + i) by lia. auto.
    + intros ([|i] & Hi & H); cbn [nth_error] in H.
      * left. rewrite Nat.add_0_r in H. destruct H as [([= ->] & ->)|([= ->] & ->)]; cbn; auto.
      * right. exists i. split; [lia|]. replace (S s + i) with (s + S i) by lia. auto.
Qed.
Lemma upd_app {A} (a b : list A) x v : upd (length a) v (a ++ x :: b) = a ++ v :: b.
Proof. induction a as [|y a IH]; cbn; auto. rewrite IH. auto. Qed.
Lemma delta_of_from dl : forall pre, length pre + length dl <= 6 -> unit_step dl ->
  delta_of (length pre + length dl) (from (length pre) dl) (pre ++ repeat 0%Z (length dl)) = Some (pre ++ dl).
Proof.
  induction dl as [|x dl IH]; intros pre Hs HU; cbn [length] in *.
  - unfold from. cbn. auto.
  - inversion HU as [|? ? HX HU']; subst. rewrite from_cons by lia. cbn [repeat].
    specialize (IH (pre ++ [x])). rewrite app_length in IH. cbn [length] in IH. rewrite <- !app_assoc in IH. cbn [app] in IH.
    replace (length pre + S (length dl)) with (length pre + 1 + length dl) by lia. replace (length pre + 1) with (S (length pre)) in IH by lia.
    assert (HL : Nat.ltb (length pre) (S (length pre) + length dl) = true) by (apply Nat.ltb_lt; lia).
    replace (length pre + 1 + length dl) with (S (length pre) + length dl) by lia.
    destruct HX as [->|[->| ->]]; cbn [Z.eqb Pos.eqb app].
    + apply IH; auto. lia.
    + cbn [delta_of]. rewrite letter_l2i by lia. rewrite HL, letter_islower by lia. cbn [negb]. rewrite upd_app. apply IH; auto. lia.
    + cbn [delta_of]. rewrite letter_l2i by lia. rewrite HL, letter_islower by lia. cbn [negb]. rewrite upd_app. apply IH; auto. lia.
Qed.

(** vectors *)
Lemma vsub_length x y : length x = length y -> length (vsub x y) = length x.
Proof. intros H. unfold vsub. rewrite map_length, combine_length. lia. Qed.
Lemma vsub_cons a x b y : vsub (a :: x) (b :: y) = (a - b)%Z :: vsub x y. Proof. reflexivity. Qed.
Lemma vadd_vsub c c' c0 : length c = length c0 -> length c' = length c0 -> vadd (vsub c c0) (vsub c' c) = vsub c' c0.
Proof.
  revert c c'. induction c0 as [|a c0 IH]; intros [|b c] [|e c']; cbn; try discriminate; auto. intros H1 H2. f_equal; [lia|]. apply IH; lia.
Qed.
Lemma vsub_self c : vsub c c = repeat 0%Z (length c).
Proof. induction c as [|a c IH]; auto. rewrite vsub_cons, IH. cbn. f_equal. lia. Qed.
Lemma vsub_back c c0 : length c = length c0 -> vsub (vsub c c0) (vsub (repeat 0%Z (length c0)) c0) = c.
Proof. revert c. induction c0 as [|a c0 IH]; intros [|b c]; cbn [length]; try discriminate; auto. intros H. cbn [repeat]. rewrite !vsub_cons, IH by lia. f_equal. lia. Qed.
Lemma vsub_inj c c' c0 : length c = length c0 -> length c' = length c0 -> vsub c c0 = vsub c' c0 -> c = c'.
Proof. intros H1 H2 E. rewrite <- (vsub_back c c0 H1), <- (vsub_back c' c0 H2), E. auto. Qed.
Lemma lex_zero c c0 : length c = length c0 -> Forall (fun x => (0 <= x)%Z) c -> leq_of (lex Z.compare) (vsub (repeat 0%Z (length c0)) c0) (vsub c c0).
Proof.
  revert c. induction c0 as [|a c0 IH]; intros [|b c]; cbn [length]; try discriminate. intros H HF. inversion HF as [|? ? HB HF']; subst.
  cbn [repeat]. rewrite !vsub_cons. specialize (IH c ltac:(lia) HF'). unfold leq_of in *. cbn [lex]. destruct (Z.compare_spec (0 - a) (b - a)); try congruence; lia.
Qed.

(** the maximum *)
Lemma fold_max xs : forall x, (In (fold_left Z.max xs x) (x :: xs)) /\ forall y, In y (x :: xs) -> (y <= fold_left Z.max xs x)%Z.
Proof.
  induction xs as [|a xs IH]; intros x; cbn [fold_left].
  - split; [left; auto|]. intros y [->|[]]. lia.
  - destruct (IH (Z.max x a)) as (I1 & I2). split.
    + destruct I1 as [E|I1]; [|right; right; auto]. rewrite <- E. destruct (Z.max_spec x a) as [(_ & ->)|(_ & ->)]; [right; left|left]; auto.
    + intros y [->|[->|H]]; [specialize (I2 (Z.max y a) (or_introl eq_refl)); lia|specialize (I2 (Z.max x y) (or_introl eq_refl)); lia|apply I2; right; auto].
Qed.

(** the steps of a sequence of cubes *)
Fixpoint deltas (cs : list (list Z)) : list (list Z) := match cs with c :: ((c' :: _) as r) => vsub c' c :: deltas r | _ => [] end.
Lemma deltas_cons c c' l : deltas (c :: c' :: l) = vsub c' c :: deltas (c' :: l). Proof. reflexivity. Qed.
Lemma step_enc c c' : step_str c c' = enc (delta_bases (vsub c' c)). Proof. unfold step_str, enc. destruct (delta_bases (vsub c' c)) as [|x [|y w]]; auto. Qed.
Lemma str_cons c c' l : proto_str (c :: c' :: l) = enc (delta_bases (vsub c' c)) ++ proto_str (c' :: l). Proof. rewrite <- step_enc. reflexivity. Qed.
Section Round.
Context (d N : nat) (HD : 1 <= d <= 6) (HN : 2 <= N) (cs : list (list Z)).
Context (HG : forall c, grid_cube d N c <-> In c cs).
Context (HS : Forall (fun dl => unit_step dl /\ ~ Forall (fun x => x = 0%Z) dl) (deltas cs)).

Lemma cs_len c : In c cs -> length c = d. Proof. intros H. apply HG in H. apply H. Qed.
Lemma deltas_len l : Forall (fun c => length c = d) l -> Forall (fun dl => length dl = d) (deltas l).
Proof.
  induction l as [|c l IH]; intros H; [constructor|]. apply Forall_cons_iff in H. destruct H as (H1 & H2). destruct l as [|c' l]; [constructor|]. rewrite deltas_cons. constructor; [|apply IH; auto].
  apply Forall_cons_iff in H2. destruct H2 as (H2 & _). rewrite vsub_length; congruence.
Qed.
Lemma deltas_d : Forall (fun dl => length dl = d) (deltas cs). Proof. apply deltas_len. apply Forall_forall. apply cs_len. Qed.
Lemma from_words dl : length dl = d -> unit_step dl -> Forall (fun c => is_word c = true) (delta_bases dl).
Proof.
  intros HL HU. apply Forall_forall. intros c Hc. rewrite delta_bases_from in Hc. apply from_In in Hc; auto; [|lia]. destruct Hc as (i & Hi & [(_ & ->)|(_ & ->)]); apply letter_word; lia.
Qed.
Lemma from_ne dl : length dl = d -> unit_step dl -> ~ Forall (fun x => x = 0%Z) dl -> delta_bases dl <> [].
Proof.
  intros HL HU NZ E. apply NZ. apply Forall_forall. intros x Hx. apply In_nth_error in Hx. destruct Hx as (i & Hi). assert (Hlt : i < length dl) by (apply nth_error_Some; congruence).
  pose proof (nth_error_In _ _ Hi) as Hin. unfold unit_step in HU. rewrite Forall_forall in HU. destruct (HU x Hin) as [?|[->| ->]]; auto; exfalso.
  - assert (In (letter (0 + i) false) (from 0 dl)) by (apply from_In; [lia|apply Forall_forall; auto|]; exists i; auto). rewrite <- delta_bases_from, E in H. destruct H.
  - assert (In (letter (0 + i) true) (from 0 dl)) by (apply from_In; [lia|apply Forall_forall; auto|]; exists i; auto). rewrite <- delta_bases_from, E in H. destruct H.
Qed.
Lemma groups_str l : Forall (fun dl => length dl = d) (deltas l) -> Forall (fun dl => unit_step dl /\ ~ Forall (fun x => x = 0%Z) dl) (deltas l) ->
  chain_groups (proto_str l) = map delta_bases (deltas l).
Proof.
  induction l as [|c l IH]; intros H1 H2; auto. destruct l as [|c' l]; auto. rewrite deltas_cons in *. apply Forall_cons_iff in H1, H2. destruct H1 as (A1 & A2), H2 as ((B1 & B2) & B3).
  rewrite str_cons. rewrite groups_enc; [|apply from_ne; auto|apply from_words; auto].
  rewrite IH by auto. auto.
Qed.
Lemma chain_str c0 l : forall c, length c0 = d -> Forall (fun c => length c = d) (c :: l) -> Forall (fun dl => unit_step dl /\ ~ Forall (fun x => x = 0%Z) dl) (deltas (c :: l)) ->
  chain_cubes d (vsub c c0) (map delta_bases (deltas (c :: l))) = Some (map (fun x => vsub x c0) (c :: l)).
Proof.
  induction l as [|c' l IH]; intros c H0 H1 H2; auto. rewrite deltas_cons in *. cbn [map chain_cubes] in *. apply Forall_cons_iff in H1, H2. destruct H1 as (A1 & A2), H2 as ((B1 & B2) & B3). pose proof A2 as A3. apply Forall_cons_iff in A3. destruct A3 as (A3 & A4).
  rewrite delta_bases_from. pose proof (delta_of_from (vsub c' c) [] ) as HD'. cbn [length app] in HD'. rewrite vsub_length in HD' by congruence. rewrite Nat.add_0_l, A3 in HD'.
  rewrite HD' by (auto; lia). rewrite vadd_vsub by congruence. rewrite IH; auto.
Qed.
(** every coordinate changes *)
Lemma const_coord j l : forall c, Forall (fun c => length c = d) (c :: l) -> j < d -> Forall (fun dl => nth_error dl j = Some 0%Z) (deltas (c :: l)) ->
  Forall (fun x => nth_error x j = nth_error c j) (c :: l).
Proof.
  induction l as [|c' l IH]; intros c H1 Hj H2; [repeat constructor|]. rewrite deltas_cons in H2. apply Forall_cons_iff in H1, H2. destruct H1 as (A1 & A2), H2 as (B1 & B2). constructor; auto.
  pose proof A2 as A3. apply Forall_cons_iff in A3. destruct A3 as (A3 & A4).
  assert (E : nth_error c' j = nth_error c j).
  { unfold vsub in B1. rewrite nth_error_map in B1. destruct (nth_error c' j) as [u|] eqn:E1; [|apply nth_error_None in E1; lia].
    destruct (nth_error c j) as [v|] eqn:E2; [|apply nth_error_None in E2; lia]. 
    assert (EC : nth_error (combine c' c) j = Some (u, v)).
    { clear - E1 E2. revert c c' E1 E2. induction j as [|j IHj]; intros [|a c] [|b c'] E1 E2; try discriminate; cbn in *; [congruence|auto]. }
    rewrite EC in B1. cbn in B1. injection B1 as B1. f_equal. lia. }
  rewrite <- E. apply IH; auto.
Qed.
Lemma coord_changes j : j < d -> exists dl x, In dl (deltas cs) /\ nth_error dl j = Some x /\ x <> 0%Z.
Proof.
  intros Hj. pose proof deltas_d as HLd. pose proof cs_len as HCl. destruct cs as [|c l].
  { exfalso. apply (HG (repeat 0%Z d)). split; [apply repeat_length|]. apply Forall_forall. intros x Hx. apply repeat_spec in Hx. subst. lia. }
  destruct (Exists_dec (fun dl => exists x, nth_error dl j = Some x /\ x <> 0%Z) (deltas (c :: l))) as [H|H].
  - intros dl. destruct (nth_error dl j) as [x|]; [|right; intros (x & E & _); discriminate]. destruct (Z.eq_dec x 0); [right; intros (y & [= <-] & Hy); auto|left; eauto].
  - apply Exists_exists in H. destruct H as (dl & H1 & x & H2 & H3). exists dl, x. auto.
  - exfalso. assert (HC : Forall (fun dl => nth_error dl j = Some 0%Z) (deltas (c :: l))).
    { apply Forall_forall. intros dl Hdl. rewrite Forall_forall in HLd. specialize (HLd dl Hdl). destruct (nth_error dl j) as [x|] eqn:E; [|apply nth_error_None in E; lia].
      destruct (Z.eq_dec x 0) as [->|NZ]; auto. exfalso. apply H. apply Exists_exists. exists dl. eauto. }
    assert (HL : Forall (fun c => length c = d) (c :: l)) by (apply Forall_forall; intros x Hx; apply HCl; auto).
    pose proof (const_coord j l c HL Hj HC) as HK. rewrite Forall_forall in HK.
    assert (G0 : In (repeat 0%Z d) (c :: l)). { apply HG. split; [apply repeat_length|]. apply Forall_forall. intros x Hx. apply repeat_spec in Hx. subst. lia. }
    assert (G1 : In (repeat 1%Z d) (c :: l)). { apply HG. split; [apply repeat_length|]. apply Forall_forall. intros x Hx. apply repeat_spec in Hx. subst. lia. }
    apply HK in G0, G1. rewrite (nth_error_repeat _ Hj) in G0. rewrite (nth_error_repeat _ Hj) in G1. congruence.
Qed.
Lemma dim_ok : length (dedup Ascii.eqb (map lower (concat (map delta_bases (deltas cs))))) = d.
Proof.
  assert (HE : eqb_ok Ascii.eqb) by (intros x y; apply Ascii.eqb_eq).
  transitivity (length (map (fun i => letter i false) (seq 0 d))); [|rewrite map_length, seq_length; auto].
  apply Permutation_length. apply NoDup_Permutation.
  - apply NoDup_dedup; auto.
  - apply NoDup_map_inj; [|apply seq_NoDup]. intros x y Hx Hy. apply in_seq in Hx, Hy. apply letter_inj; lia.
  - intros c. rewrite In_dedup by auto. rewrite !in_map_iff. setoid_rewrite in_concat. setoid_rewrite in_map_iff.
    pose proof deltas_d as HL. pose proof HS as HS'. rewrite Forall_forall in HL, HS'. split.
    + intros (x & <- & (w & (dl & <- & Hdl) & Hx)). rewrite delta_bases_from in Hx. pose proof (HL dl Hdl). apply from_In in Hx; [|lia|apply HS'; auto].
      destruct Hx as (i & Hi & Hx). exists i. split; [|apply in_seq; lia]. destruct Hx as [(_ & ->)|(_ & ->)]; rewrite letter_lower by lia; auto.
    + intros (i & <- & Hi). apply in_seq in Hi. destruct (coord_changes i ltac:(lia)) as (dl & x & Hdl & Hx & NZ). pose proof (HL dl Hdl). destruct (HS' dl Hdl) as (HU & _).
      pose proof HU as HU'. unfold unit_step in HU'. rewrite Forall_forall in HU'. destruct (HU' x (nth_error_In _ _ Hx)) as [?|HX]; [congruence|].
      exists (letter i (x =? -1)%Z). split; [apply letter_lower; lia|]. exists (delta_bases dl). split; [exists dl; auto|]. rewrite delta_bases_from. apply from_In; [lia|auto|].
      exists i. split; [lia|]. destruct HX as [->| ->]; [left|right]; auto.
Qed.
Lemma round_trip : proto_parse (proto_str cs) = Some (d, Z.of_nat N, cs).
Proof.
  pose proof dim_ok as HDim. pose proof cs_len as HCl. destruct cs as [|c0 l].
  { exfalso. apply (HG (repeat 0%Z d)). split; [apply repeat_length|]. apply Forall_forall. intros x Hx. apply repeat_spec in Hx. subst. lia. }
  assert (HL : Forall (fun c => length c = d) (c0 :: l)) by (apply Forall_forall; intros x Hx; apply HCl; auto).
  unfold proto_parse. rewrite groups_str by (auto; apply deltas_len; auto). rewrite HDim.
  assert (Nat.leb d (length basis_letters) = true) as -> by (apply Nat.leb_le; cbn; lia).
  assert (L0 : length c0 = d) by (inversion HL; auto).
  rewrite <- L0 at 2. rewrite <- vsub_self. rewrite chain_str by auto.
  rewrite Forall_forall in HL. set (cs' := c0 :: l) in *.
  assert (G0 : In (repeat 0%Z d) cs'). { apply HG. split; [apply repeat_length|]. apply Forall_forall. intros x Hx. apply repeat_spec in Hx. subst. lia. }
  assert (EM : min_list (lex Z.compare) (map (fun x => vsub x c0) cs') = Some (vsub (repeat 0%Z (length c0)) c0)).
  { destruct (min_list_some (lex Z.compare) (map (fun x => vsub x c0) cs')) as (m & Em); [discriminate|]. rewrite Em. f_equal.
    destruct (min_list_spec (lex Z.compare) (lex_ok _ Z_cmp_ok) _ _ Em) as (I1 & I2). apply in_map_iff in I1. destruct I1 as (x & <- & Hx).
    apply (leq_of_antisym _ (lex_ok _ Z_cmp_ok)).
    - apply I2. apply in_map_iff. exists (repeat 0%Z d). rewrite L0. auto.
    - apply lex_zero; [rewrite (HL x Hx); auto|]. apply HG in Hx. destruct Hx as (_ & Hx). eapply Forall_impl; [|exact Hx]. cbn. intros; lia. }
  rewrite EM. assert (EB : map (fun c => vsub c (vsub (repeat 0%Z (length c0)) c0)) (map (fun x => vsub x c0) cs') = cs').
  { rewrite map_map. rewrite <- (map_id cs') at 2. apply map_ext_in. intros c Hc. apply vsub_back. rewrite (HL c Hc). auto. }
  cbv zeta. rewrite EB. clear EM EB.
  assert (G1 : In (repeat (Z.of_nat N - 1)%Z d) cs'). { apply HG. split; [apply repeat_length|]. apply Forall_forall. intros x Hx. apply repeat_spec in Hx. subst. lia. }
  assert (I1 : In (Z.of_nat N - 1)%Z (concat cs')). { apply in_concat. exists (repeat (Z.of_nat N - 1)%Z d). split; auto. destruct d; [lia|]. left; auto. }
  assert (I2 : forall y, In y (concat cs') -> (y <= Z.of_nat N - 1)%Z). { intros y Hy. apply in_concat in Hy. destruct Hy as (c & Hc & Hy). apply HG in Hc. destruct Hc as (_ & Hc). rewrite Forall_forall in Hc. apply Hc in Hy. lia. }
  destruct (concat cs') as [|x xs]; [destruct I1|]. destruct (fold_max xs x) as (F1 & F2). apply F2 in I1. apply I2 in F1. do 3 f_equal. lia.
Qed.
End Round.
