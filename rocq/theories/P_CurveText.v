(** The text of a curve (C56). *)
From Verif Require Import Py L_Py L_Qc M_BaseMaps S_BaseMaps L_BaseMaps M_Subsets S_Subsets P_Facets M_Paths M_Curves S_Curves S_Paths P_CurveAct P_Core P_Bridge P_Cont P_Check
  M_Text P_Text M_ProtoText P_ProtoText T_ProtoText M_GatesText P_GatesText M_Zoo M_CurveText S_CurveText.
From Coq Require Import Reals Lra Lia.
Local Open Scope nat_scope.

Lemma split_zoo c t : M_Zoo.split_on c t = M_GatesText.split_on c t.
Proof. induction t as [|x t IH]; cbn; rewrite ?IH; auto. Qed.
Lemma omap_ok {A B} (f : A -> option B) l (g : A -> B) : (forall x, In x l -> f x = Some (g x)) -> omap f l = Some (map g l).
Proof. induction l as [|x l IH]; cbn; intros H; auto. rewrite (H x) by auto. rewrite IH; auto. Qed.

Lemma omap_bad {A B} (f : A -> option B) l x : In x l -> f x = None -> omap f l = None.
Proof. induction l as [|y l IH]; cbn; intros [] E; [subst; rewrite E; auto|]. rewrite IH by auto. destruct (f y); auto. Qed.

(** characters of the texts *)
Definition okc (a : ascii) : bool := is_word a || Ascii.eqb a "~"%char || Ascii.eqb a "("%char || Ascii.eqb a ")"%char.
Definition okt (t : text) : Prop := Forall (fun a => okc a = true) t.
Lemma okt_not t a : okt t -> okc a = false -> ~ In a t.
Proof. intros H E Hi. unfold okt in H. rewrite Forall_forall in H. apply H in Hi. congruence. Qed.
Lemma word_ok a : is_word a = true -> okc a = true. Proof. intros H. unfold okc. rewrite H. auto. Qed.
Lemma digit_ok a : is_digit a = true -> okc a = true.
Proof. intros H. apply word_ok. unfold is_word. rewrite H, !orb_true_r. auto. Qed.
Lemma dec_ok n : okt (dec n).
Proof. eapply Forall_impl; [|apply (proj1 (number_digits _ _ (dec_number n)))]. cbn. apply digit_ok. Qed.
Lemma spec_ok d s t : wf_bm d (sp_bm s) -> d <= 6 -> spec_str s = Some t -> okt t.
Proof.
  intros Hw Hd. unfold spec_str. rewrite (bm_str_eq d) by auto. cbn [option_map]. intros E.
  apply (f_equal (fun o => match o with Some x => x | None => t end)) in E. cbv beta iota in E. rewrite <- E. unfold okt. rewrite !Forall_app. split; [apply dec_ok|]. split.
  - apply (letters_prop (fun a => okc a = true) d); auto using wf_inv. intros i f Hi. apply word_ok, letter_word; auto.
  - destruct (time_rev (sp_bm s)); repeat constructor.
Qed.
Lemma bases_ok dl : okt (delta_bases dl).
Proof.
  apply Forall_forall. intros a Ha. rewrite delta_bases_from in Ha. unfold from in Ha. apply in_flat_map in Ha. destruct Ha as ((x & l) & Hi & Ha). cbn [fst snd] in Ha.
  apply in_combine_r in Hi. cbn [skipn] in Hi. assert (Hl : okc l = true /\ okc (upper l) = true).
  { repeat (destruct Hi as [<-|Hi]; [split; reflexivity|]). destruct Hi. }
  destruct (x =? 1)%Z; [destruct Ha as [<-|[]]; apply Hl|]. destruct (x =? -1)%Z; [destruct Ha as [<-|[]]; apply Hl|destruct Ha].
Qed.
Lemma enc_ok w : okt w -> okt (enc w).
Proof.
  intros H. assert (okt ("("%char :: w ++ [")"%char])) by (constructor; [reflexivity|]; apply Forall_app; split; auto; repeat constructor).
  unfold enc. destruct w as [|x [|y w]]; auto.
Qed.
Lemma proto_ok cs : okt (proto_str cs).
Proof.
  induction cs as [|c cs IH]; [constructor|]. destruct cs as [|c' cs]; [constructor|]. rewrite str_cons. apply Forall_app. split; auto. apply enc_ok, bases_ok.
Qed.
Lemma join_chars (P : ascii -> Prop) sep ws : Forall P sep -> Forall (Forall P) ws -> Forall P (join sep ws).
Proof.
  intros HS. induction ws as [|w ws IH]; intros H; [constructor|]. apply Forall_cons_iff in H as [H1 H2]. destruct ws as [|w' ws]; auto.
  change (join sep (w :: w' :: ws)) with (w ++ sep ++ join sep (w' :: ws)). rewrite !Forall_app. auto.
Qed.
Lemma csv_one ws : Forall okt ws -> one_field (join [","%char] ws).
Proof.
  intros H. assert (F : Forall (fun a => okc a = true \/ a = ","%char) (join [","%char] ws)).
  { apply join_chars; [constructor; auto|]. eapply Forall_impl; [|exact H]. intros w Hw. eapply Forall_impl; [|exact Hw]. auto. }
  rewrite Forall_forall in F. split; intros Hi; apply F in Hi as [Hi|Hi]; discriminate Hi.
Qed.
Lemma ok_one t : okt t -> one_field t.
Proof. intros H. split; apply okt_not; auto. Qed.

Section Curve.
Context (c : curve) (HC : valid_curve c).
Notation K := (core_of c). Notation d := (cv_dim c). Notation N := (cv_div c). Notation G := (cv_genus c). Notation m := (cv_mult c).
Let HV : valid_fuzzy c := valid_curve_fuzzy c HC.
Let HF : core_full K := core_of_full c HV.
Let HK : core_ok K := full_ok K HF.

Lemma cube_len p k : p < m -> k < G -> length (kcube K p k) = d.
Proof. intros. apply (ok_cube K HK); auto. Qed.
Lemma neighbours p k : check c = Some true -> p < m -> k + 1 < G ->
  kcube K p k <> kcube K p (k + 1) /\ Forall2 (fun a b => (Z.abs (b - a) <= 1)%Z) (kcube K p k) (kcube K p (k + 1)).
Proof.
  intros HCh Hp Hk. split.
  - intros E. apply (full_inj K HF) in E; auto; change (kG K) with G; lia.
  - destruct (kgraph_total K HK (kspec K p k) 1) as (x & Hx); [apply (kspec_wf c HC); auto; lia|lra|].
    destruct (kgraph_total K HK (kspec K p (k + 1)) 0) as (x' & Hx'); [apply (kspec_wf c HC); auto; lia|lra|].
    pose proof (check_kcont c HC HCh p k x x' Hp Hk Hx Hx') as E.
    apply P_Core.kgraph_range in Hx as (_ & _ & Hx). apply P_Core.kgraph_range in Hx' as (_ & _ & Hx').
    assert (L : length (kcube K p k) = d) by (apply cube_len; auto; lia). assert (L' : length (kcube K p (k + 1)) = d) by (apply cube_len; auto).
    assert (HN : (2 <= IZR (Z.of_nat N))%R) by (apply (RN_ge2 K HK)).
    assert (H : forall j, j < d -> (Z.abs (nth j (kcube K p (k + 1)) 0 - nth j (kcube K p k) 0) <= 1)%Z).
    { intros j Hj. apply (f_equal (fun l => nth j l 0%R)) in E. rewrite !nth_unzoom in E by auto.
      apply (f_equal (fun r => (r * IZR (Z.of_nat N))%R)) in E. change (kN K) with N in E. unfold Rdiv in E. rewrite !Rmult_assoc, Rinv_l in E by lra.
      specialize (Hx j Hj). specialize (Hx' j Hj). apply Z.abs_le. change (- (1))%Z with (-1)%Z. split; apply le_IZR; rewrite ?minus_IZR; lra. }
    revert L L' H. generalize (kcube K p k) (kcube K p (k + 1)). generalize (cv_dim c). clear. intros n q. revert n.
    induction q as [|a q IH]; intros n [|b q'] L L' H; cbn in L, L'; try lia; constructor.
    + apply (H 0). lia.
    + apply (IH (length q)); try lia. intros j Hj. apply (H (S j)). lia.
Qed.
Definition cubes (p : nat) : list (list Z) := map (kcube K p) (seq 0 G).
Lemma chain p : check c = Some true -> p < m -> chain_proto d N (cubes p).
Proof.
  intros HCh Hp. split.
  - intros q. unfold cubes. rewrite in_map_iff. split.
    + intros Hq. destruct (full_surj K HF p q Hp Hq) as (k & Hk & E). exists k. split; auto. apply in_seq. change (kG K) with G in Hk. lia.
    + intros (k & <- & Hk). apply in_seq in Hk. apply (ok_cube K HK); auto. change (kG K) with G. lia.
  - intros i q q' E E'. unfold cubes in *. assert (Hi : S i < G). { rewrite <- (seq_length G 0), <- (map_length (kcube K p)). apply nth_error_Some. congruence. }
    rewrite nth_error_seq_map in E, E' by lia. assert (Q : q = kcube K p i) by congruence. assert (Q' : q' = kcube K p (S i)) by congruence. rewrite Q, Q'. replace (S i) with (i + 1) by lia. apply neighbours; auto. lia.
Qed.
Definition chain_text (p : nat) : text := proto_str (cubes p).
Definition specs_text (p : nat) : list text := map (fun k => match spec_str (kspec K p k) with Some t => t | None => [] end) (seq 0 G).
Definition fields (p : nat) : text * text := (chain_text p, join [","%char] (specs_text p)).

Context (Hd : d <= 6).
Lemma spec_str_ok p k : p < m -> k < G -> exists t, spec_str (kspec K p k) = Some t /\ okt t.
Proof.
  intros Hp Hk. destruct (kspec_wf c HC p k Hp Hk) as [W _]. assert (E : exists t, spec_str (kspec K p k) = Some t).
  { unfold spec_str. rewrite (bm_str_eq d) by auto. cbn [option_map]. eauto. }
  destruct E as (t & E). exists t. split; auto. apply (spec_ok d _ t W Hd E).
Qed.
Lemma specs_okt p : p < m -> Forall okt (specs_text p).
Proof.
  intros Hp. apply Forall_map, Forall_forall. intros k Hk. apply in_seq in Hk. destruct (spec_str_ok p k Hp ltac:(lia)) as (t & -> & H). auto.
Qed.
Lemma fields_one p : p < m -> one_field (fst (fields p)) /\ one_field (snd (fields p)).
Proof. intros Hp. split; [apply ok_one, proto_ok|apply csv_one, specs_okt; auto]. Qed.
Lemma pattern_str_eq p pat : nth_error (cv_pats c) p = Some pat -> pattern_str pat = Some (chain_text p ++ [" "; "|"; " "]%char ++ join [","%char] (specs_text p)).
Proof.
  intros E. assert (Hp : p < m) by (unfold cv_mult; apply nth_error_Some; congruence). unfold pattern_str. rewrite (pat_proto_eq c HC p pat E), (pat_specs_eq c HC p pat E).
  assert (E1 : pr_str (Pr d N (map (fun k => Some (kcube K p k)) (seq 0 G))) = Some (chain_text p)).
  { unfold pr_str. cbn [pr_cubes]. rewrite <- map_map, omap_Some_id. reflexivity. }
  rewrite E1. rewrite (omap_ok spec_text _ (fun os => match os with Some s => match spec_str s with Some t => t | None => [] end | None => [] end)).
  - rewrite map_map. reflexivity.
  - intros os Hin. apply in_map_iff in Hin as (k & <- & Hk). apply in_seq in Hk. destruct (spec_str_ok p k Hp ltac:(lia)) as (t & Et & _). cbn [spec_text]. rewrite Et. auto.
Qed.
Lemma enumerate_from {A} (l : list A) : forall n i x, nth_error (combine (seq n (length l)) l) i = Some x -> exists y, x = (n + i, y) /\ nth_error l i = Some y.
Proof.
  induction l as [|a l IH]; intros n i x E; [destruct i; discriminate|]. cbn [length seq combine] in E. destruct i as [|i]; cbn in E.
  - injection E as <-. exists a. rewrite Nat.add_0_r. auto.
  - apply IH in E as (y & -> & E). exists y. split; auto. f_equal. lia.
Qed.
Lemma curve_str_eq : curve_str c = Some (join [newline] (map (fun p => printed_line p (fst (fields p)) (snd (fields p))) (seq 0 m))).
Proof.
  unfold curve_str. rewrite (omap_ok _ _ (fun np => printed_line (fst np) (fst (fields (fst np))) (snd (fields (fst np))))).
  - cbn [option_map]. do 2 f_equal. rewrite <- (map_map fst (fun p => printed_line p (fst (fields p)) (snd (fields p)))). f_equal.
    unfold enumerate. unfold cv_mult. generalize 0. induction (cv_pats c) as [|a l IH]; intros n; cbn; auto. f_equal. apply IH.
  - intros np Hin. apply In_nth_error in Hin as (i & E). apply enumerate_from in E as (pat & -> & E). cbn [fst snd Nat.add]. rewrite (pattern_str_eq i pat E). reflexivity.
Qed.
Lemma printed_join n : forall k, 0 < n -> printed k (map fields (seq k n)) (join [newline] (map (fun p => printed_line p (fst (fields p)) (snd (fields p))) (seq k n))).
Proof.
  induction n as [|n IH]; intros k Hn; [lia|]. destruct n as [|n].
  - cbn [seq map join]. constructor.
  - change (seq k (S (S n))) with (k :: seq (S k) (S n)). cbn [map]. specialize (IH (S k) ltac:(lia)).
    assert (E : forall w ws, ws <> [] -> join [newline] (w :: ws) = w ++ newline :: join [newline] ws) by (intros w [|w' ws] Hw; [congruence|auto]).
    rewrite E by (cbn; congruence). destruct (fields k) as [a b] eqn:Ef. cbn [fst snd]. constructor. exact IH.
Qed.
Lemma mult_pos : 0 < m. Proof. pose proof HC as (_ & _ & H & _). lia. Qed.
Lemma printed_ok : exists t, curve_str c = Some t /\ printed 0 (map fields (seq 0 m)) t.
Proof. eexists. split; [apply curve_str_eq|]. apply printed_join, mult_pos. Qed.

Lemma G_ge : 0 < G. Proof. apply (G_pos c HV). Qed.
Lemma specs_split p : p < m -> M_Zoo.split_on ","%char (join [","%char] (specs_text p)) = specs_text p.
Proof.
  intros Hp. rewrite split_zoo. apply split_join.
  - unfold specs_text. intros E. apply (f_equal (@length text)) in E. rewrite map_length, seq_length in E. pose proof G_ge. cbn in E. lia.
  - eapply Forall_impl; [|apply specs_okt; auto]. intros w Hw. apply okt_not; auto.
Qed.
Lemma d_pos : 1 <= d. Proof. apply HC. Qed.
Lemma chain_parse p : check c = Some true -> p < m -> proto_of_text (chain_text p) = Some (Pr d N (map Some (cubes p))).
Proof.
  intros HCh Hp. destruct (C13_round_trip d N (cubes p) (conj d_pos Hd) (proj1 (proj2 HC)) (chain p HCh Hp)) as (t & E & P).
  unfold pr_str in E. cbn [pr_cubes] in E. rewrite omap_Some_id in E. cbn [option_map] in E. fold (chain_text p) in E. injection E as E.
  unfold pr_parse in P. unfold proto_of_text. rewrite <- E in P. destruct (proto_parse (chain_text p)) as [[[d' N'] cs]|]; [|discriminate]. exact P.
Qed.
Lemma pattern_parse_eq p pat : check c = Some true -> m <= 10 -> nth_error (cv_pats c) p = Some pat ->
  pattern_parse (fst (fields p)) (M_Zoo.split_on ","%char (snd (fields p))) = Some pat.
Proof.
  intros HCh Hm E. assert (Hp : p < m) by (unfold cv_mult; apply nth_error_Some; congruence). unfold pattern_parse, fields. cbn [fst snd].
  rewrite specs_split, chain_parse by auto. unfold specs_text.
  assert (E1 : omap spec_parse (map (fun k => match spec_str (kspec K p k) with Some t => t | None => [] end) (seq 0 G)) = Some (map (kspec K p) (seq 0 G))).
  { assert (HA : Forall (fun k => k < G) (seq 0 G)) by (apply Forall_forall; intros k Hk; apply in_seq in Hk; lia).
    induction HA as [|k l Hk _ IH]; [reflexivity|]. cbn [map omap]. destruct (kspec_wf c HC p k Hp Hk) as [W W'].
    destruct (spec_parse_str d (kspec K p k) W (conj d_pos Hd) ltac:(lia)) as (t & Et & Pt). rewrite Et, Pt, IH. reflexivity. }
  rewrite E1. unfold cubes. rewrite !map_map. rewrite <- (pat_proto_eq c HC p pat E), <- (pat_specs_eq c HC p pat E). destruct pat; auto.
Qed.
Lemma curve_parse_eq : check c = Some true -> m <= 10 -> curve_parse (map fields (seq 0 m)) = Some (Cv d N (cv_pats c) 0 KCurve).
Proof.
  intros HCh Hm. unfold curve_parse.
  assert (E : omap (fun cs => pattern_parse (fst cs) (M_Zoo.split_on ","%char (snd cs))) (map fields (seq 0 m)) = Some (cv_pats c)).
  { assert (H : forall l k, (forall i pat, nth_error l i = Some pat -> nth_error (cv_pats c) (k + i) = Some pat) ->
      omap (fun cs => pattern_parse (fst cs) (M_Zoo.split_on ","%char (snd cs))) (map fields (seq k (length l))) = Some l).
    { induction l as [|pat l IH]; intros k H; [reflexivity|]. cbn [length seq map omap].
      rewrite (pattern_parse_eq k pat HCh Hm) by (replace k with (k + 0) by lia; apply H; auto). rewrite (IH (S k)); auto.
      intros i q Hq. replace (S k + i) with (k + S i) by lia. apply H; auto. }
    apply (H (cv_pats c) 0). auto. }
  rewrite E. pose proof mult_pos as HM. unfold cv_mult in HM. destruct (cv_pats c) as [|pat l] eqn:EP; [cbn in HM; lia|].
  rewrite (pat_proto_eq c HC 0 pat) by (rewrite EP; auto). reflexivity.
Qed.
(** a spec with a pattern number of two digits *)
Lemma curve_parse_big p k s : p < m -> get_spec c p k = Some (Some s) -> 10 <= sp_pnum s -> curve_parse (map fields (seq 0 m)) = None.
Proof.
  intros Hp E Hs. assert (Hk : k < G).
  { destruct (le_lt_dec G k) as [L|L]; auto. exfalso. unfold get_spec in E. destruct (nth_error (cv_pats c) p) as [pat|] eqn:EP; [|discriminate].
    rewrite (pat_specs_eq c HC p pat EP) in E. assert (X : nth_error (map (fun k => Some (kspec K p k)) (seq 0 G)) k <> None) by congruence.
    apply nth_error_Some in X. rewrite map_length, seq_length in X. lia. }
  pose proof (defined_kspec c p k (all_defined c HC p k Hp Hk)) as E'. assert (Es : s = kspec K p k) by congruence. subst s.
  destruct (kspec_wf c HC p k Hp Hk) as [W _]. destruct (spec_parse_str_big d (kspec K p k) W (conj d_pos Hd) Hs) as (t & Et & Pt).
  unfold curve_parse. rewrite (omap_bad _ _ (fields p)); auto.
  - apply in_map, in_seq. lia.
  - unfold pattern_parse, fields. cbn [fst snd]. rewrite specs_split by auto. rewrite (omap_bad spec_parse _ t); auto; [destruct (proto_of_text (chain_text p)); auto|].
    unfold specs_text. apply in_map_iff. exists k. rewrite Et. split; auto. apply in_seq. lia.
Qed.
End Curve.

(** the fields are determined by the text *)
Lemma cut_first a (t1 t2 u1 u2 : text) : ~ In a t1 -> ~ In a t2 -> t1 ++ a :: u1 = t2 ++ a :: u2 -> t1 = t2 /\ u1 = u2.
Proof.
  revert t2. induction t1 as [|x t1 IH]; intros [|y t2] H1 H2 E; cbn in E.
  - injection E as <-. auto.
  - injection E as <- _. destruct H2. left; auto.
  - injection E as -> _. destruct H1. left; auto.
  - injection E as <- E. apply IH in E as [-> ->]; auto; intros Hi; [apply H1|apply H2]; right; auto.
Qed.
Lemma line_inj p a b a' b' : one_field a -> one_field a' -> printed_line p a b = printed_line p a' b' -> a = a' /\ b = b'.
Proof.
  intros [_ H] [_ H'] E. unfold printed_line in E. rewrite !app_assoc in E. rewrite <- !(app_assoc _ _ b), <- !(app_assoc _ _ b') in E.
  repeat rewrite <- app_assoc in E. do 3 apply app_inv_head in E.
  assert (X : forall (t u : text), t ++ [" "; "|"; " "]%char ++ u = (t ++ [" "%char]) ++ "|"%char :: " "%char :: u) by (intros; rewrite <- app_assoc; reflexivity).
  rewrite !X in E. apply cut_first in E as [E1 E2].
  - apply app_inj_tail in E1 as [-> _]. injection E2 as ->. auto.
  - rewrite in_app_iff. intros [Hi|[Hi|[]]]; [auto|discriminate Hi].
  - rewrite in_app_iff. intros [Hi|[Hi|[]]]; [auto|discriminate Hi].
Qed.
Lemma line_no_nl p a b : one_field a -> one_field b -> ~ In newline (printed_line p a b).
Proof.
  intros [H _] [H' _] Hi. unfold printed_line in Hi. rewrite !in_app_iff in Hi. destruct Hi as [Hi|[Hi|[Hi|[Hi|[Hi|Hi]]]]]; auto.
  - destruct Hi as [Hi|[]]. discriminate Hi.
  - revert Hi. apply okt_not; [apply dec_ok|reflexivity].
  - destruct Hi as [Hi|[Hi|[]]]; discriminate Hi.
  - destruct Hi as [Hi|[Hi|[Hi|[]]]]; discriminate Hi.
Qed.
Lemma printed_inv p ps t : printed p ps t -> (exists a b, ps = [(a, b)] /\ t = printed_line p a b) \/
  (exists a b ps' t', ps = (a, b) :: ps' /\ t = printed_line p a b ++ newline :: t' /\ printed (S p) ps' t').
Proof. intros [q a b|q a b ps' t' H]; [left|right]; repeat eexists. auto. Qed.
Lemma printed_inj p ps t : printed p ps t -> forall ps', printed p ps' t ->
  Forall (fun f => one_field (fst f) /\ one_field (snd f)) ps -> Forall (fun f => one_field (fst f) /\ one_field (snd f)) ps' -> ps = ps'.
Proof.
  induction 1 as [p a b|p a b ps t H IH]; intros ps' H' F F'; apply Forall_cons_iff in F as [[Fa Fb] F]; cbn [fst snd] in Fa, Fb;
    apply printed_inv in H' as [(a' & b' & -> & E)|(a' & b' & ps'' & t' & -> & E & H')]; apply Forall_cons_iff in F' as [[Fa' Fb'] F']; cbn [fst snd] in Fa', Fb'.
  - apply line_inj in E as [-> ->]; auto.
  - exfalso. apply (line_no_nl p a b Fa Fb). rewrite E. apply in_app_iff. right. left. auto.
  - exfalso. apply (line_no_nl p a' b' Fa' Fb'). rewrite <- E. apply in_app_iff. right. left. auto.
  - apply cut_first in E as [E ->]; try (apply line_no_nl; auto). apply line_inj in E as [-> ->]; auto. f_equal. apply IH; auto.
Qed.
