(** Proofs about the text form of points and gates. *)
From Verif Require Import Py L_Py L_Qc M_Text M_Subsets M_GatesText S_GatesText P_Text.
From Coq Require Import QArith Qcanon NArith.
Local Open Scope nat_scope.

(** * characters *)
Lemma digit_is_digit k : k < 10 -> is_digit (digit k) = true.
Proof. intros H. do 10 (destruct k as [|k]; [reflexivity|]). lia. Qed.
Lemma is_digit_val c : is_digit c = true -> exists k, k < 10 /\ c = digit k /\ digit_val c = N.of_nat k.
Proof.
  intros H. unfold is_digit, ascii_ltb_between in H. apply andb_true_iff in H. destruct H as (H1 & H2). apply Nat.leb_le in H1, H2. exists (nat_of_ascii c - 48).
  split; [lia|]. split; [unfold digit; replace (48 + (nat_of_ascii c - 48)) with (nat_of_ascii c) by lia; rewrite ascii_nat_embedding; auto|]. unfold digit_val. unfold nat_of_ascii in *. lia.
Qed.
Lemma digit_val_digit k : k < 10 -> digit_val (digit k) = N.of_nat k.
Proof. intros H. do 10 (destruct k as [|k]; [reflexivity|]). lia. Qed.
(** a digit is none of the other characters *)
Definition plain (c : ascii) : Prop := is_space c = false /\ is_paren c = false /\ c <> ","%char /\ c <> "/"%char /\ c <> ">"%char /\ c <> "|"%char /\ c <> newline /\ c <> "-"%char /\ c <> "+"%char.
Lemma digit_plain c : is_digit c = true -> plain c.
Proof. intros H. destruct (is_digit_val c H) as (k & Hk & -> & _). do 10 (destruct k as [|k]; [repeat split; solve [reflexivity | discriminate]|]). lia. Qed.

(** * numbers *)
Definition dval (t : text) : N := fold_left (fun acc c => (10 * acc + digit_val c)%N) t 0%N.
Lemma dval_snoc t c : dval (t ++ [c]) = (10 * dval t + digit_val c)%N.
Proof. unfold dval. rewrite fold_left_app. reflexivity. Qed.
Lemma digits_val_ok t n : digits_val t = Some n <-> number t n.
Proof.
  split.
  - intros H. assert (E : t <> [] /\ forallb is_digit t = true /\ n = dval t).
    { unfold digits_val in H. destruct t as [|c t]; [discriminate|]. destruct (forallb is_digit (c :: t)) eqn:E; [|discriminate]. injection H as <-. split; [discriminate|]. split; reflexivity. }
    clear H. revert n E. induction t as [|c t IH] using rev_ind; intros n (H1 & H2 & H3); [congruence|]. rewrite dval_snoc in H3. rewrite forallb_app in H2. apply andb_true_iff in H2. destruct H2 as (H2 & H4).
    cbn in H4. rewrite andb_true_r in H4. destruct (is_digit_val c H4) as (k & Hk & -> & Hv). rewrite Hv in H3. destruct t as [|c' t].
    + cbn in H3. subst n. apply (number_one k Hk).
    + subst n. apply number_more; auto. apply IH. split; [discriminate|]. auto.
  - intros H. assert (E : t <> [] /\ forallb is_digit t = true /\ dval t = n).
    { induction H as [k Hk|t n k H IH Hk]; fold (digit k).
      - split; [discriminate|]. cbn [forallb dval fold_left]. unfold dval. cbn [fold_left]. rewrite digit_is_digit, digit_val_digit by auto. split; auto.
      - destruct IH as (A & B & C). split; [intros X; apply app_eq_nil in X; destruct X; discriminate|]. rewrite forallb_app, B. cbn [forallb]. rewrite digit_is_digit by auto. split; auto. rewrite dval_snoc, C, digit_val_digit; auto. }
    destruct E as (A & B & C). unfold digits_val. destruct t; [congruence|]. rewrite B. f_equal. exact C.
Qed.
Lemma number_digits t n : number t n -> Forall (fun c => is_digit c = true) t /\ t <> [].
Proof.
  intros H. apply digits_val_ok in H. unfold digits_val in H. destruct t; [discriminate|]. destruct (forallb _ _) eqn:E; [|discriminate]. split; [|discriminate]. apply Forall_forall. apply forallb_forall; auto.
Qed.
Lemma dec_aux_ok fuel : forall n acc, n < fuel -> exists t, dec_aux fuel n acc = t ++ acc /\ number t (N.of_nat n).
Proof.
  induction fuel as [|fuel IH]; intros n acc Hn; [lia|]. cbn [dec_aux]. destruct (Nat.ltb_spec n 10) as [H|H].
  - exists [digit n]. split; auto. apply number_one; auto.
  - pose proof (Nat.div_lt n 10 ltac:(lia) ltac:(lia)). destruct (IH (n / 10) (digit (n mod 10) :: acc) ltac:(lia)) as (t & E & Hn'). exists (t ++ [digit (n mod 10)]). split; [rewrite E, <- app_assoc; reflexivity|].
    pose proof (Nat.div_mod n 10 ltac:(lia)). pose proof (Nat.mod_upper_bound n 10 ltac:(lia)). replace (N.of_nat n) with (10 * N.of_nat (n / 10) + N.of_nat (n mod 10))%N by lia. apply number_more; auto.
Qed.
Lemma dec_number n : number (dec n) (N.of_nat n).
Proof. unfold dec. destruct (dec_aux_ok (S n) n [] ltac:(lia)) as (t & E & H). rewrite E, app_nil_r. exact H. Qed.

(** * strip *)
Lemma lstrip_app p s t : Forall (fun c => p c = true) s -> lstrip p (s ++ t) = lstrip p t.
Proof. induction 1 as [|c s H _ IH]; cbn; auto. rewrite H. auto. Qed.
Lemma lstrip_split p t : exists s, t = s ++ lstrip p t /\ Forall (fun c => p c = true) s.
Proof.
  induction t as [|c t (s & E & H)]; [exists []; auto|]. cbn. destruct (p c) eqn:Ec; [exists (c :: s); cbn; split; [congruence|auto]|exists []; auto].
Qed.
Definition outer (p : ascii -> bool) (t : text) : Prop := match t with [] => True | c :: _ => p c = false end.
Lemma lstrip_outer p t : outer p (lstrip p t).
Proof. induction t as [|c t IH]; cbn; auto. destruct (p c) eqn:E; auto. Qed.
Lemma lstrip_id' p t : outer p t -> lstrip p t = t.
Proof. destruct t as [|c t]; cbn; auto. intros ->. reflexivity. Qed.
Lemma lstrip_nil p t : Forall (fun c => p c = true) t -> lstrip p t = [].
Proof. induction 1; cbn; auto. rewrite H. auto. Qed.
(** the strip of spaces around a text without outer spaces *)
Lemma strip_around p s1 t s2 : Forall (fun c => p c = true) s1 -> Forall (fun c => p c = true) s2 -> outer p t -> outer p (rev t) -> strip p (s1 ++ t ++ s2) = t.
Proof.
  intros H1 H2 H3 H4. unfold strip. rewrite lstrip_app by auto. destruct t as [|c t].
  - cbn [app]. rewrite (lstrip_nil p s2) by auto. reflexivity.
  - rewrite (lstrip_id' p ((c :: t) ++ s2)) by exact H3. rewrite rev_app_distr, lstrip_app by (apply Forall_rev; auto). rewrite lstrip_id' by auto. apply rev_involutive.
Qed.
Lemma strip_split p t : exists s1 s2, t = s1 ++ strip p t ++ s2 /\ Forall (fun c => p c = true) s1 /\ Forall (fun c => p c = true) s2.
Proof.
  unfold strip. destruct (lstrip_split p t) as (s1 & E1 & H1). destruct (lstrip_split p (rev (lstrip p t))) as (s2 & E2 & H2). exists s1, (rev s2). split; [|split; auto; apply Forall_rev; auto].
  rewrite <- rev_app_distr, <- E2, rev_involutive. exact E1.
Qed.

(** * split and join *)
Lemma split_on_none c t : ~ In c t -> split_on c t = [t].
Proof.
  induction t as [|x t IH]; cbn; intros H; auto. destruct (Ascii.eqb_spec x c) as [->|Hx]; [exfalso; auto|]. rewrite IH; auto.
Qed.
Lemma split_on_cons c t u : ~ In c t -> split_on c (t ++ c :: u) = t :: split_on c u.
Proof.
  induction t as [|x t IH]; cbn; intros H; [rewrite Ascii.eqb_refl; auto|]. destruct (Ascii.eqb_spec x c) as [->|Hx]; [exfalso; auto|]. rewrite IH; auto.
Qed.
Lemma split_on_nonempty c t : split_on c t <> [].
Proof. destruct t as [|x t]; cbn; [discriminate|]. destruct (Ascii.eqb x c); [discriminate|]. destruct (split_on c t); discriminate. Qed.
Lemma split_on_inv c t : match split_on c t with
  | [] => False
  | [w] => t = w /\ ~ In c w
  | w :: ws => exists u, t = w ++ c :: u /\ ~ In c w /\ split_on c u = ws
  end.
Proof.
  induction t as [|x t IH]; cbn; [auto|]. destruct (Ascii.eqb_spec x c) as [->|Hx].
  - destruct (split_on c t) eqn:E; [contradiction|]. exists t. cbn. auto.
  - destruct (split_on c t) as [|w [|w' ws]]; [contradiction| |].
    + destruct IH as (-> & H). cbn. split; auto. intros [->|H']; auto.
    + destruct IH as (u & -> & H & E). exists u. cbn. split; auto. split; auto. intros [->|H']; auto.
Qed.
Lemma split_join c ws : ws <> [] -> Forall (fun w => ~ In c w) ws -> split_on c (join [c] ws) = ws.
Proof.
  intros H. induction ws as [|w ws IH]; [congruence|]. intros HF. inversion_clear HF as [|? ? H1 H2]. destruct ws as [|w' ws]; [cbn; apply split_on_none; auto|].
  change (join [c] (w :: w' :: ws)) with (w ++ c :: join [c] (w' :: ws)). rewrite split_on_cons by auto. rewrite IH; auto. discriminate.
Qed.
Lemma split_arrow_none t : ~ In ">"%char t -> split_arrow t = [t].
Proof.
  induction t as [|x t IH]; cbn; intros H; auto. destruct t as [|y t]; auto. destruct (Ascii.eqb_spec y ">"%char) as [->|Hy]; [exfalso; cbn in H; auto|]. rewrite andb_false_r. rewrite IH by auto. reflexivity.
Qed.
Lemma split_arrow_cons t u : ~ In ">"%char t -> split_arrow (t ++ ["-"; ">"]%char ++ u) = t :: split_arrow u.
Proof.
  induction t as [|x t IH]; intros H; [reflexivity|]. assert (H' : ~ In ">"%char t) by (intros X; apply H; cbn; auto). specialize (IH H').
  change ((x :: t) ++ ["-"; ">"]%char ++ u) with (x :: (t ++ ["-"; ">"]%char ++ u)). destruct t as [|y t].
  - change ([] ++ ["-"; ">"]%char ++ u) with ("-"%char :: ">"%char :: u) in *. cbn [split_arrow] in IH |- *. change (Ascii.eqb "-" ">") with false. rewrite andb_false_r. rewrite IH. reflexivity.
  - change ((y :: t) ++ ["-"; ">"]%char ++ u) with (y :: (t ++ ["-"; ">"]%char ++ u)) in *. 
    change (split_arrow (x :: y :: t ++ ["-"; ">"]%char ++ u)) with (if Ascii.eqb x "-"%char && Ascii.eqb y ">"%char then [] :: split_arrow (t ++ ["-"; ">"]%char ++ u)
       else match split_arrow (y :: t ++ ["-"; ">"]%char ++ u) with w :: ws => (x :: w) :: ws | [] => [[x]] end).
    destruct (Ascii.eqb_spec y ">"%char) as [->|Hy]; [exfalso; apply H; cbn; auto|]. rewrite andb_false_r. rewrite IH. reflexivity.
Qed.

(** * fractions *)
Lemma outer_forall p t : Forall (fun c => p c = false) t -> outer p t /\ outer p (rev t).
Proof.
  intros H. split; [destruct H; cbn; auto|]. apply Forall_rev in H. destruct H; cbn; auto.
Qed.
Definition fpart (neg : bool) (t : text) : option Qc :=
  let sg (n : N) : Z := if neg then (- Z.of_N n)%Z else Z.of_N n in
  match split_on "/"%char t with
  | [num] => option_map (fun n => Zq (sg n)) (digits_val num)
  | [num; den] =>
      match digits_val num, digits_val den with
      | Some n, Some (Npos m) => Some (Q2Qc (sg n # m))
      | _, _ => None
      end
  | _ => None
  end.
Definition fsign (t : text) : bool * text :=
  match t with
    | c :: t' => if Ascii.eqb c "-"%char then (true, t') else if Ascii.eqb c "+"%char then (false, t') else (false, t)
    | [] => (false, t)
    end.
Lemma frac_parse_eq t : frac_parse t = fpart (fst (fsign (strip is_space t))) (snd (fsign (strip is_space t))).
Proof. unfold frac_parse. fold (fsign (strip is_space t)). destruct (fsign (strip is_space t)); reflexivity. Qed.
Definition body_of (neg : bool) (t : text) (q : Qc) : Prop := exists num n rest m, t = num ++ rest /\ number num n /\
  ((rest = [] /\ m = 1%positive) \/ exists den, rest = "/"%char :: den /\ number den (Npos m)) /\ q = Q2Qc ((if neg then (- Z.of_N n)%Z else Z.of_N n) # m).
Lemma number_noslash t n : number t n -> ~ In "/"%char t.
Proof. intros H Hin. destruct (number_digits t n H) as (A & _). rewrite Forall_forall in A. apply A in Hin. discriminate. Qed.
Lemma fpart_ok neg t q : fpart neg t = Some q <-> body_of neg t q.
Proof.
  split.
  - unfold fpart. intros H. pose proof (split_on_inv "/"%char t) as HI. destruct (split_on "/"%char t) as [|num [|den [|w ws]]]; try discriminate.
    + destruct HI as (-> & _). destruct (digits_val num) as [n|] eqn:E; [|discriminate]. cbn in H. injection H as <-. exists num, n, [], 1%positive. rewrite app_nil_r. split; auto. split; [apply digits_val_ok; auto|]. split; auto.
    + destruct HI as (u & -> & _ & E). pose proof (split_on_inv "/"%char u) as HI. rewrite E in HI. destruct HI as (-> & _). destruct (digits_val num) as [n|] eqn:E1; [|discriminate]. destruct (digits_val den) as [[|m]|] eqn:E2; try discriminate. injection H as <-.
      exists num, n, ("/"%char :: den), m. split; auto. split; [apply digits_val_ok; auto|]. split; auto. right. exists den. split; auto. apply digits_val_ok; auto.
  - intros (num & n & rest & m & -> & Hn & [(-> & ->)|(den & -> & Hm)] & ->); unfold fpart.
    + rewrite app_nil_r, split_on_none by (eapply number_noslash; eauto). apply digits_val_ok in Hn. rewrite Hn. reflexivity.
    + rewrite split_on_cons, split_on_none by (eapply number_noslash; eauto). apply digits_val_ok in Hn, Hm. rewrite Hn, Hm. reflexivity.
Qed.
Lemma body_chars neg t q : body_of neg t q -> exists c t', t = c :: t' /\ is_digit c = true /\ Forall (fun c => is_digit c = true \/ c = "/"%char) t.
Proof.
  intros (num & n & rest & m & -> & Hn & Hr & _). destruct (number_digits _ _ Hn) as (A & B). destruct num as [|c num]; [congruence|]. exists c, (num ++ rest). inversion A as [|? ? A1 A2]; subst. split; auto. split; auto.
  apply Forall_app. split; [eapply Forall_impl; [|exact A]; cbn; auto|]. destruct Hr as [(-> & _)|(den & -> & Hm)]; [constructor|]. constructor; auto. destruct (number_digits _ _ Hm) as (C & _). eapply Forall_impl; [|exact C]; cbn; auto.
Qed.
Lemma fsign_ok t neg u : fsign t = (neg, u) -> exists sg, t = sg ++ u /\ sign sg neg.
Proof.
  unfold fsign. destruct t as [|c t]; [intros H; injection H as <- <-; exists []; split; auto; constructor|]. destruct (Ascii.eqb_spec c "-"%char) as [->|H1]; [|destruct (Ascii.eqb_spec c "+"%char) as [->|H2]]; intros H; injection H as <- <-.
  - exists ["-"%char]. split; auto. constructor.
  - exists ["+"%char]. split; auto. constructor.
  - exists []. split; auto. constructor.
Qed.
Lemma fsign_back sg neg c u : sign sg neg -> is_digit c = true -> fsign (sg ++ c :: u) = (neg, c :: u).
Proof.
  intros H Hc. destruct (digit_plain c Hc) as (_ & _ & _ & _ & _ & _ & _ & H1 & H2). destruct H; cbn; auto. apply Ascii.eqb_neq in H1, H2. rewrite H1, H2. reflexivity.
Qed.
Lemma digit_or_slash_nospace c : is_digit c = true \/ c = "/"%char -> is_space c = false.
Proof. intros [H| ->]; [apply (digit_plain c H)|reflexivity]. Qed.
Theorem frac_parse_ok t q : frac_parse t = Some q <-> denotes t q.
Proof.
  rewrite frac_parse_eq. split.
  - intros H. destruct (fsign (strip is_space t)) as [neg u] eqn:E. cbn [fst snd] in H. apply fpart_ok in H. destruct (fsign_ok _ _ _ E) as (sg & Es & Hs). destruct (strip_split is_space t) as (s1 & s2 & Et & H1 & H2).
    destruct H as (num & n & rest & m & -> & Hn & Hr & Hq). exists s1, sg, neg, num, n, rest, m, s2. rewrite Es in Et. split; [rewrite Et at 1; repeat rewrite <- app_assoc; auto|]. auto 10.
  - intros (s1 & sg & neg & num & n & rest & m & s2 & -> & H1 & H2 & Hs & Hn & Hr & Hq).
    assert (HB : body_of neg (num ++ rest) q) by (exists num, n, rest, m; auto). destruct (body_chars _ _ _ HB) as (c & u & Ec & Hc & HF).
    replace (s1 ++ sg ++ num ++ rest ++ s2) with (s1 ++ (sg ++ num ++ rest) ++ s2) by (repeat rewrite <- app_assoc; auto).
    assert (HN : Forall (fun c => is_space c = false) (sg ++ num ++ rest)).
    { apply Forall_app. split; [destruct Hs; repeat constructor|]. eapply Forall_impl; [|exact HF]. intros a. apply digit_or_slash_nospace. }
    destruct (outer_forall _ _ HN) as (O1 & O2). rewrite strip_around by auto. rewrite Ec, (fsign_back sg neg c u) by auto. cbn [fst snd]. rewrite <- Ec. apply fpart_ok. exact HB.
Qed.

(** the text of a fraction denotes it *)
Lemma frac_str_denotes q : denotes (frac_str q) q.
Proof.
  set (n := Qnum (this q)). set (m := Qden (this q)).
  exists [], (if (n <? 0)%Z then ["-"%char] else []), (n <? 0)%Z, (dec (Z.to_nat (Z.abs n))), (N.of_nat (Z.to_nat (Z.abs n))), (if Pos.eqb m 1 then [] else "/"%char :: dec (Pos.to_nat m)), m, [].
  split; [unfold frac_str; fold n m; cbn [app]; rewrite app_nil_r; reflexivity|]. split; [constructor|]. split; [constructor|]. split; [destruct (n <? 0)%Z; constructor|]. split; [apply dec_number|]. split.
  - destruct (Pos.eqb_spec m 1) as [->|Hm]; auto. right. exists (dec (Pos.to_nat m)). split; auto. rewrite <- (positive_nat_N m). apply dec_number.
  - apply Qc_is_canon. unfold Q2Qc, this at 2. symmetry. etransitivity; [apply Qred_correct|]. replace (if (n <? 0)%Z then (- Z.of_N (N.of_nat (Z.to_nat (Z.abs n))))%Z else Z.of_N (N.of_nat (Z.to_nat (Z.abs n)))) with n by (destruct (Z.ltb_spec n 0); lia).
    unfold n, m. destruct (this q); reflexivity.
Qed.
(** the characters of the text of a fraction *)
Definition fchar (c : ascii) : Prop := is_digit c = true \/ c = "/"%char \/ c = "-"%char \/ c = "+"%char \/ is_space c = true.
Lemma denotes_chars t q : denotes t q -> Forall fchar t.
Proof.
  intros (s1 & sg & neg & num & n & rest & m & s2 & -> & H1 & H2 & Hs & Hn & Hr & Hq). unfold fchar.
  assert (HB : body_of neg (num ++ rest) q) by (exists num, n, rest, m; auto). destruct (body_chars _ _ _ HB) as (c & u & Ec & Hc & HF). apply Forall_app in HF. destruct HF as (HF1 & HF2).
  repeat (apply Forall_app; split).
  - eapply Forall_impl; [|exact H1]. cbn; auto.
  - destruct Hs; [constructor|constructor; [tauto|constructor]|constructor; [tauto|constructor]].
  - eapply Forall_impl; [|exact HF1]. cbn; tauto.
  - eapply Forall_impl; [|exact HF2]. cbn; tauto.
  - eapply Forall_impl; [|exact H2]. cbn; auto.
Qed.
Lemma fchar_not c : fchar c -> is_paren c = false /\ c <> ","%char /\ c <> ">"%char /\ c <> "|"%char.
Proof.
  intros [H|[->|[->|[->|H]]]].
  - destruct (digit_plain c H) as (_ & H1 & H2 & _ & H3 & H4 & _). auto.
  - repeat split; discriminate.
  - repeat split; discriminate.
  - repeat split; discriminate.
  - repeat split; try (intros ->; discriminate). destruct (is_paren c) eqn:E; auto. unfold is_paren in E. apply orb_true_iff in E. destruct E as [E|E]; apply Ascii.eqb_eq in E; subst; discriminate.
Qed.

(** * points *)
Lemma comma_join t ws : comma_separated t ws -> ws <> [] /\ t = join [","%char] ws.
Proof.
  induction 1 as [w|w t ws H (IH1 & IH2)]; [split; [discriminate|reflexivity]|]. split; [discriminate|]. destruct ws as [|w' ws]; [congruence|]. rewrite IH2. reflexivity.
Qed.
Lemma join_comma ws : ws <> [] -> comma_separated (join [","%char] ws) ws.
Proof.
  intros H. induction ws as [|w ws IH]; [congruence|]. destruct ws as [|w' ws]; [apply cs_one|]. change (join [","%char] (w :: w' :: ws)) with (w ++ ","%char :: join [","%char] (w' :: ws)). apply cs_more. apply IH. discriminate.
Qed.
Lemma comma_chars (P : ascii -> Prop) t ws : comma_separated t ws -> P ","%char -> Forall (Forall P) ws -> Forall P t.
Proof.
  induction 1 as [w|w t ws H IH]; intros Hc HF; inversion HF; subst; auto. apply Forall_app. split; auto. 
Qed.
Lemma Forall2_left {A B} (R : A -> B -> Prop) (P : A -> Prop) l l' : Forall2 R l l' -> (forall a b, R a b -> P a) -> Forall P l.
Proof. induction 1; intros H'; constructor; eauto. Qed.
Lemma point_inner inner ws p : comma_separated inner ws -> Forall2 denotes ws p -> Forall (fun c => fchar c \/ c = ","%char) inner.
Proof.
  intros H HD. apply (comma_chars _ _ _ H); auto. apply (Forall2_left _ _ _ _ HD). intros a b Hab. eapply Forall_impl; [|exact (denotes_chars _ _ Hab)]. cbn; auto.
Qed.
Lemma omap_Forall2 {A B} (f : A -> option B) l l' : Forall2 (fun a b => f a = Some b) l l' -> omap f l = Some l'.
Proof. induction 1 as [|a b l l' H _ IH]; cbn; auto. rewrite H, IH. reflexivity. Qed.
Theorem point_parse_ok t p : denotes_point t p -> point_parse t = Some p.
Proof.
  intros (s1 & inner & ws & s2 & -> & H1 & H2 & Hc & HD). unfold point_parse. pose proof (point_inner _ _ _ Hc HD) as HI.
  replace (s1 ++ ["("%char] ++ inner ++ [")"%char] ++ s2) with (s1 ++ (["("%char] ++ inner ++ [")"%char]) ++ s2) by (repeat rewrite <- app_assoc; auto).
  rewrite strip_around; auto; [|reflexivity|rewrite !rev_app_distr; reflexivity]. rewrite (strip_around is_paren ["("%char] inner [")"%char]); [|repeat constructor|repeat constructor| |].
  - destruct (comma_join _ _ Hc) as (Hne & ->). rewrite split_join; auto.
    + apply omap_Forall2. clear - HD. induction HD; constructor; auto. apply frac_parse_ok; auto.
    + apply (Forall2_left _ _ _ _ HD). intros a b Hab Hin. pose proof (denotes_chars _ _ Hab) as HF. rewrite Forall_forall in HF. apply HF in Hin. apply fchar_not in Hin. tauto.
  - apply outer_forall. eapply Forall_impl; [|exact HI]. intros a [Ha| ->]; [apply (fchar_not a Ha)|reflexivity].
  - apply outer_forall. eapply Forall_impl; [|exact HI]. intros a [Ha| ->]; [apply (fchar_not a Ha)|reflexivity].
Qed.
Lemma point_str_denotes p : p <> [] -> denotes_point (point_str p) p.
Proof.
  intros H. exists [], (join [","%char] (map frac_str p)), (map frac_str p), []. split; [unfold point_str; cbn [app]; reflexivity|]. split; [constructor|]. split; [constructor|]. split; [apply join_comma; destruct p; [congruence|discriminate]|].
  clear H. induction p; constructor; auto. apply frac_str_denotes.
Qed.
Definition pchar (c : ascii) : Prop := fchar c \/ c = ","%char \/ is_paren c = true.
Lemma denotes_point_chars t p : denotes_point t p -> Forall pchar t.
Proof.
  intros (s1 & inner & ws & s2 & -> & H1 & H2 & Hc & HD). unfold pchar. repeat (apply Forall_app; split).
  - eapply Forall_impl; [|exact H1]. cbn; unfold fchar; tauto.
  - constructor; [|constructor]. right; right; reflexivity.
  - eapply Forall_impl; [|exact (point_inner _ _ _ Hc HD)]. cbn; tauto.
  - constructor; [|constructor]. right; right; reflexivity.
  - eapply Forall_impl; [|exact H2]. cbn; unfold fchar; tauto.
Qed.
Lemma pchar_not c : pchar c -> c <> ">"%char /\ c <> "|"%char.
Proof. intros [H|[->|H]]; [apply fchar_not in H; tauto|split; discriminate|split; intros ->; discriminate]. Qed.
Lemma denotes_point_spaces s1 t s2 p : spaces s1 -> spaces s2 -> denotes_point t p -> denotes_point (s1 ++ t ++ s2) p.
Proof.
  intros H1 H2 (r1 & inner & ws & r2 & -> & R1 & R2 & Hc & HD). exists (s1 ++ r1), inner, ws, (r2 ++ s2). split; [repeat rewrite <- app_assoc; auto|]. split; [apply Forall_app; auto|]. split; [apply Forall_app; auto|]. auto.
Qed.

(** * gates *)
Theorem parse_gates_ok t l : denotes_gates t l -> parse_gates t = Some l.
Proof.
  intros (t1 & t2 & -> & H1 & H2). unfold parse_gates.
  assert (N1 : forall t p, denotes_point t p -> ~ In ">"%char t) by (intros t p H Hin; pose proof (denotes_point_chars _ _ H) as HF; rewrite Forall_forall in HF; apply HF in Hin; apply pchar_not in Hin; tauto).
  rewrite split_arrow_cons, split_arrow_none by eauto. cbn [omap]. rewrite (point_parse_ok _ _ H1), (point_parse_ok _ _ H2). destruct l; reflexivity.
Qed.
Definition dim_pos (l : plink) : Prop := entrance l <> [] /\ exit l <> [].
Lemma plink_str_denotes s1 l s2 : dim_pos l -> spaces s1 -> spaces s2 -> denotes_gates (s1 ++ plink_str l ++ s2) l.
Proof.
  intros (H1 & H2) S1 S2. exists (s1 ++ point_str (entrance l) ++ [" "%char]), ([" "%char] ++ point_str (exit l) ++ s2). split; [unfold plink_str, arrow_text; repeat rewrite <- app_assoc; reflexivity|].
  split; apply denotes_point_spaces; auto using point_str_denotes; repeat constructor.
Qed.
Lemma plink_str_nobar s1 l s2 : dim_pos l -> spaces s1 -> spaces s2 -> ~ In "|"%char (s1 ++ plink_str l ++ s2).
Proof.
  intros Hd H1 H2 Hin. destruct (plink_str_denotes s1 l s2 Hd H1 H2) as (t1 & t2 & E & D1 & D2). rewrite E in Hin. apply denotes_point_chars in D1, D2. rewrite Forall_forall in D1, D2.
  apply in_app_or in Hin. destruct Hin as [Hin|Hin]; [apply D1, pchar_not in Hin; tauto|]. destruct Hin as [Hin|[Hin|Hin]]; [discriminate|discriminate|]. apply D2, pchar_not in Hin; tauto.
Qed.
(** a line of gates, with one space at the start if [first] *)
Lemma line_aux gs : gs <> [] -> Forall dim_pos gs -> forall s1, spaces s1 -> omap parse_gates (split_on "|"%char (s1 ++ gates_line gs)) = Some gs.
Proof.
  intros Hne HF. induction gs as [|l gs IH]; [congruence|]. inversion_clear HF as [|? ? H1 H2]. intros s1 S1. destruct gs as [|l' gs].
  - unfold gates_line. cbn [map join]. rewrite <- (app_nil_r (plink_str l)). rewrite split_on_none by (apply plink_str_nobar; auto; constructor). cbn [omap]. rewrite (parse_gates_ok _ l) by (apply plink_str_denotes; auto; constructor). reflexivity.
  - replace (s1 ++ gates_line (l :: l' :: gs)) with ((s1 ++ plink_str l ++ [" "%char]) ++ "|"%char :: ([" "%char] ++ gates_line (l' :: gs))) by (unfold gates_line, bar_text; cbn [map join]; repeat rewrite <- app_assoc; reflexivity).
    rewrite split_on_cons by (apply plink_str_nobar; auto; repeat constructor). cbn [omap]. rewrite (parse_gates_ok _ l) by (apply plink_str_denotes; auto; repeat constructor). rewrite IH; auto; [discriminate|repeat constructor].
Qed.
Lemma plink_str_ends l : exists m, plink_str l = "("%char :: m ++ [")"%char].
Proof.
  unfold plink_str, point_str. exists (join [","%char] (map frac_str (entrance l)) ++ [")"%char] ++ arrow_text ++ ["("%char] ++ join [","%char] (map frac_str (exit l))). repeat rewrite <- app_assoc. reflexivity.
Qed.
Lemma gates_line_ends gs : gs <> [] -> exists m, gates_line gs = "("%char :: m ++ [")"%char].
Proof.
  induction gs as [|l gs IH]; [congruence|]. intros _. destruct (plink_str_ends l) as (m & E). destruct gs as [|l' gs]; [exists m; exact E|]. destruct IH as (m' & E'); [discriminate|].
  exists (m ++ [")"%char] ++ bar_text ++ "("%char :: m'). unfold gates_line in *. cbn [map join] in *. rewrite E' , E. cbn [app]. repeat rewrite <- app_assoc. reflexivity.
Qed.
Theorem parse_gates_line_ok gs s1 s2 : gs <> [] -> Forall dim_pos gs -> spaces s1 -> spaces s2 -> parse_gates_line (s1 ++ gates_line gs ++ s2) = Some gs.
Proof.
  intros Hne HF S1 S2. unfold parse_gates_line. destruct (gates_line_ends gs Hne) as (m & E). rewrite strip_around; auto; [|rewrite E; reflexivity|rewrite E; cbn [rev]; rewrite rev_app_distr; reflexivity].
  apply (line_aux gs Hne HF []). constructor.
Qed.
Definition no_nl (t : text) : Prop := ~ In newline t.
Lemma no_nl_app s t : no_nl s -> no_nl t -> no_nl (s ++ t).
Proof. intros H1 H2 H. apply in_app_or in H. destruct H; auto. Qed.
Lemma no_nl_digits t : Forall (fun c => is_digit c = true) t -> no_nl t.
Proof. intros H Hin. rewrite Forall_forall in H. apply H in Hin. discriminate. Qed.
Lemma no_nl_list t : forallb (fun c => negb (Ascii.eqb c newline)) t = true -> no_nl t.
Proof. intros H Hin. rewrite forallb_forall in H. apply H in Hin. rewrite Ascii.eqb_refl in Hin. discriminate. Qed.
Lemma no_nl_join sep ws : no_nl sep -> Forall no_nl ws -> no_nl (join sep ws).
Proof.
  intros Hs. induction ws as [|w ws IH]; intros HF; [intros []|]. inversion_clear HF as [|? ? H1 H2]. destruct ws as [|w' ws]; auto. change (join sep (w :: w' :: ws)) with (w ++ sep ++ join sep (w' :: ws)). auto using no_nl_app.
Qed.
Lemma frac_str_no_nl q : no_nl (frac_str q).
Proof.
  unfold frac_str. apply no_nl_app; [destruct (_ <? _)%Z; apply no_nl_list; reflexivity|]. apply no_nl_app; [apply no_nl_digits; eapply number_digits, dec_number|]. destruct (Pos.eqb _ _); [apply no_nl_list; reflexivity|].
  apply (no_nl_app ["/"%char]); [apply no_nl_list; reflexivity|apply no_nl_digits; eapply number_digits, dec_number].
Qed.
Lemma point_str_no_nl p : no_nl (point_str p).
Proof.
  unfold point_str. repeat apply no_nl_app; try (apply no_nl_list; reflexivity). apply no_nl_join; [apply no_nl_list; reflexivity|]. apply Forall_map, Forall_forall. intros q _. apply frac_str_no_nl.
Qed.
Lemma gates_line_no_nl gs : no_nl (gates_line gs).
Proof.
  unfold gates_line. apply no_nl_join; [apply no_nl_list; reflexivity|]. apply Forall_map, Forall_forall. intros l _. unfold plink_str. apply no_nl_app; [apply point_str_no_nl|]. apply no_nl_app; [apply no_nl_list; reflexivity|apply point_str_no_nl].
Qed.
Lemma split_lines ls : Forall no_nl ls -> split_on newline (concat (map (fun l => l ++ [newline]) ls)) = ls ++ [[]].
Proof.
  induction 1 as [|l ls H _ IH]; [reflexivity|]. cbn [map concat]. rewrite <- app_assoc. cbn [app]. rewrite split_on_cons by auto. rewrite IH. reflexivity.
Qed.
Theorem parse_gates_file_ok gl : Forall (fun gs => gs <> [] /\ Forall dim_pos gs) gl -> parse_gates_file (gates_output gl) = Some gl.
Proof.
  intros H. unfold parse_gates_file, file_lines, gates_output. rewrite <- (map_map gates_line (fun l => l ++ [newline])). rewrite split_lines by (apply Forall_map, Forall_forall; intros; apply gates_line_no_nl).
  rewrite rev_app_distr. cbn [rev app]. rewrite rev_involutive. induction H as [|gs gl (H1 & H2) _ IH]; [reflexivity|]. cbn [map omap]. pose proof (parse_gates_line_ok gs [] [] H1 H2 ltac:(constructor) ltac:(constructor)) as E. cbn [app] in E. rewrite app_nil_r in E. rewrite E, IH. reflexivity.
Qed.
