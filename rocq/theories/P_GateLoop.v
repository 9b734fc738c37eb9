(** The loop of gates.py over all candidates. *)
From Verif Require Import Py L_Py L_Qc L_BaseMaps M_BaseMaps M_Subsets M_Paths M_Curves M_PathTree M_PathGen M_Utils M_Gates S_BaseMaps S_Subsets S_Paths S_PathGen S_PathTree
  P_Points P_Subsets P_PathAll P_PathTuples P_PathParent T_PathGen T_PathParent.
Local Open Scope nat_scope.

Lemma gates_eqb_ok : eqb_ok gates_eqb.
Proof. apply (list_eqb_ok pl_eqb). exact pl_eqb_ok. Qed.

Section Loop.
Context (d N m : nat) (of : bool) (hash : future_t plink -> Z) (smax : nat) (fmax : option nat).
Notation par fuel := (SP hash fuel smax fmax).
(** What a candidate gives: nothing, or gates. *)
Definition cand_gives (c : list proto * list spec) (gs : list plink) : Prop :=
  curve_gates d of (cand_curve d N m (fst c) (snd c)) (range m) = Some (Some gs).
Definition cand_ok (Q : list plink -> Prop) (c : list proto * list spec) : Prop :=
  curve_gates d of (cand_curve d N m (fst c) (snd c)) (range m) = Some None \/
  exists gs std, cand_gives c gs /\ std_gates gs = Some std /\
    exists F b, (forall fuel, F <= fuel -> has_paths d N (par fuel) std = Some b) /\ (b = true <-> Q std).

Lemma check_all_spec Q cands : Forall (cand_ok Q) cands -> forall seen,
  (forall gs std, In gs (fst seen) -> std_gates gs = Some std -> In std (snd seen)) ->
  exists F res, (forall fuel, F <= fuel -> check_all d N m of (par fuel) seen cands = Some res) /\ NoDup res /\
    forall gs, In gs res <-> (exists c g, In c cands /\ cand_gives c g /\ std_gates g = Some gs) /\ Q gs /\ ~ In gs (snd seen).
Proof.
  induction 1 as [|[protos specs] cands HC HCs IH]; intros seen Hseen.
  { exists 0, []. split; [auto|]. split; [constructor|]. intros gs. cbn. split; [tauto|]. intros ((c & g & [] & _) & _). }
  cbn [check_all]. unfold check_and_std. unfold cand_ok, cand_gives in HC. cbn [fst snd] in HC.
  destruct HC as [HC|(gs & std & HC & ES & F0 & b & HB & HQ)].
  { destruct (IH seen Hseen) as (F & res & A & B & C). exists F, res. split; [intros fuel Hf; rewrite HC, (A fuel Hf); auto|]. split; auto. intros g0. rewrite C.
    split; intros ((c & g & D1 & D2 & D3) & D4 & D5); (split; [|auto]); exists c, g; [split; [right; auto|auto]|].
    destruct D1 as [<-|D1]; [unfold cand_gives in D2; cbn [fst snd] in D2; congruence|auto]. }
  assert (HG : cand_gives (protos, specs) gs) by exact HC. rewrite HC. destruct (memb gates_eqb gs (fst seen)) eqn:EM.
  { apply (memb_In _ gates_eqb_ok) in EM. pose proof (Hseen _ _ EM ES) as HI. destruct (IH seen Hseen) as (F & res & A & B & C). exists F, res.
    split; [intros fuel Hf; rewrite (A fuel Hf); auto|]. split; auto. intros g0. rewrite C.
    split; intros ((c & g & D1 & D2 & D3) & D4 & D5); (split; [|auto]); exists c, g; [split; [right; auto|auto]|].
    destruct D1 as [<-|D1]; [|auto]. unfold cand_gives in D2, HG. rewrite HG in D2. injection D2 as <-. rewrite ES in D3. injection D3 as <-. contradiction. }
  rewrite ES. destruct (memb gates_eqb std (snd seen)) eqn:EM2.
  { apply (memb_In _ gates_eqb_ok) in EM2. destruct (IH (gs :: fst seen, snd seen)) as (F & res & A & B & C).
    { cbn. intros g s [<-|Hg] E; [rewrite ES in E; injection E as <-; auto|eauto]. }
    exists F, res. split; [intros fuel Hf; rewrite (A fuel Hf); auto|]. split; auto. intros g0. rewrite C. cbn [snd].
    split; intros ((c & g & D1 & D2 & D3) & D4 & D5); (split; [|auto]); exists c, g; [split; [right; auto|auto]|].
    destruct D1 as [<-|D1]; [|auto]. unfold cand_gives in D2, HG. rewrite HG in D2. injection D2 as <-. rewrite ES in D3. injection D3 as <-. contradiction. }
  apply (memb_false _ gates_eqb_ok) in EM2. destruct (IH (gs :: fst seen, std :: snd seen)) as (F & res & A & B & C).
  { cbn. intros g s [<-|Hg] E; [rewrite ES in E; injection E as <-; auto|right; eauto]. }
  exists (F0 + F), (if b then std :: res else res). split; [|split].
  - intros fuel Hf. rewrite (HB fuel) by lia. cbn [option_map]. rewrite (A fuel) by lia. destruct b; auto.
  - destruct b; auto. constructor; auto. intros HI. apply C in HI. cbn in HI. tauto.
  - intros g0. cbn [snd] in C. assert (HR : In g0 res <-> (exists c g, In c cands /\ cand_gives c g /\ std_gates g = Some g0) /\ Q g0 /\ g0 <> std /\ ~ In g0 (snd seen)).
    { rewrite C. cbn. split; intros (X & Y & Z); (split; [auto|split; [auto|]]); intuition congruence. }
    destruct (list_eq_dec (fun x y => match bool_dec (pl_eqb x y) true with left e => left (proj1 (pl_eqb_ok x y) e) | right n => right (fun e => n (proj2 (pl_eqb_ok x y) e)) end) g0 std) as [->|NE].
    + split.
      * destruct b; [intros _|rewrite HR; tauto]. split; [|split; [apply HQ; auto|auto]]. exists (protos, specs), gs. split; [left; auto|auto].
      * intros (_ & Y & _). apply HQ in Y. subst b. left; auto.
    + assert (In g0 (if b then std :: res else res) <-> In g0 res) as -> by (destruct b; cbn; intuition congruence). rewrite HR.
      split; intros ((c & g & D1 & D2 & D3) & D4 & D5); (split; [|tauto]); exists c, g; [split; [right; auto|auto]|].
      destruct D1 as [<-|D1]; [|auto]. unfold cand_gives in D2, HG. rewrite HG in D2. injection D2 as <-. rewrite ES in D3. injection D3 as <-. contradiction.
Qed.
End Loop.

(** The search for one path per gate. *)
Lemma has_paths_spec (d N : nat) (gs : list plink) hash smax fmax : 2 <= N ^ d -> unit_links d gs -> hash_ok hash -> gs <> [] ->
  exists F b, (forall fuel, F <= fuel -> has_paths d N (SP hash fuel smax fmax) gs = Some b) /\
    (b = true <-> exists ps, Forall2 (point_path d N gs None) gs ps).
Proof.
  intros H2 HU HH NE. destruct (C45_example_links d N gs None gs false H2 HU HU) as (g & HG & HR). destruct (HR hash smax fmax HH) as (F & res & A & B).
  exists F, (match res with Some (_ :: _) => true | _ => false end).
  assert (EL : pg_links g = gs). { unfold mk_generator in HG. cbv zeta in HG. destruct (init_exit2next _ _ _ _ _ _); [|discriminate]. cbn in HG. injection HG as <-. reflexivity. }
  split.
  - intros fuel Hf. unfold has_paths. rewrite HG. cbn [obind sp_hash sp_fuel sp_start sp_finish]. specialize (A fuel Hf). unfold get_paths_example in *. cbn [restrictions] in *. rewrite EL. rewrite A. reflexivity.
  - destruct res as [[|p ps]|].
    + split; [discriminate|]. inversion B. subst. congruence.
    + split; [|auto]. intros _. eauto.
    + split; [discriminate|]. intros (ps & Hps). destruct B as (lk & Hlk & HN). exfalso. revert Hps HN. generalize (point_path d N gs None). intros RR Hps HN. clear - Hps Hlk HN. induction Hps; [destruct Hlk|]. destruct Hlk as [<-|Hlk]; [eapply HN; eauto|auto].
Qed.
