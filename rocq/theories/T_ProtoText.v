(** C13: the chain code of a prototype (paths.py:52-100). *)
From Verif Require Import Py L_Py M_BaseMaps M_Subsets M_Paths M_Text M_ProtoText S_BaseMaps S_Subsets P_Text P_ProtoText.
Local Open Scope nat_scope.

(** A prototype that visits exactly the cubes of the div-grid, some of them perhaps more than once, and goes from each cube
    to a different one by a step of at most 1 in every coordinate. *)
Record chain_proto (d N : nat) (cs : list (list Z)) : Prop := {
  cp_cubes : forall c, grid_cube d N c <-> In c cs;
  cp_steps : forall i c c', nth_error cs i = Some c -> nth_error cs (S i) = Some c' ->
               c <> c' /\ Forall2 (fun a b => (Z.abs (b - a) <= 1)%Z) c c' }.

Lemma chain_steps d N cs : chain_proto d N cs -> Forall (fun dl => unit_step dl /\ ~ Forall (fun x => x = 0%Z) dl) (deltas cs).
Proof.
  intros [_ HS]. induction cs as [|c cs IH]; [constructor|]. destruct cs as [|c' cs]; [constructor|]. rewrite deltas_cons. constructor.
  - destruct (HS 0 c c' eq_refl eq_refl) as (NE & HF). clear - NE HF. split.
    + unfold unit_step. clear NE. induction HF as [|a b x y H HF IH]; [constructor|]. rewrite vsub_cons. constructor; auto. lia.
    + intros HZ. apply NE. clear NE. induction HF as [|a b x y H HF IH]; auto. rewrite vsub_cons in HZ. apply Forall_cons_iff in HZ. destruct HZ as (Z1 & Z2). f_equal; [lia|auto].
  - apply IH. intros i u v E1 E2. apply (HS (S i)); auto.
Qed.
Lemma omap_Some_id {A} (l : list A) : omap (fun c => c) (map Some l) = Some l.
Proof. induction l as [|x l IH]; cbn; auto. rewrite IH. auto. Qed.

Theorem C13_round_trip : forall (d N : nat) (cs : list (list Z)), 1 <= d <= 6 -> 2 <= N -> chain_proto d N cs ->
  exists t, pr_str (Pr d N (map Some cs)) = Some t /\ pr_parse t = Some (Pr d N (map Some cs)).
Proof.
  intros d N cs HD HN HC. exists (proto_str cs). unfold pr_str, pr_parse. cbn [pr_cubes]. rewrite omap_Some_id. split; auto.
  rewrite (round_trip d N HD HN cs (cp_cubes _ _ _ HC) (chain_steps d N cs HC)). cbn. rewrite Nat2Z.id. auto.
Qed.
Print Assumptions C13_round_trip.
(** Hence different prototypes have different codes. *)
Theorem C13_injective : forall d N cs d' N' cs' t, 1 <= d <= 6 -> 2 <= N -> chain_proto d N cs -> 1 <= d' <= 6 -> 2 <= N' -> chain_proto d' N' cs' ->
  pr_str (Pr d N (map Some cs)) = Some t -> pr_str (Pr d' N' (map Some cs')) = Some t -> d = d' /\ N = N' /\ cs = cs'.
Proof.
  intros d N cs d' N' cs' t H1 H2 H3 H1' H2' H3' E E'. destruct (C13_round_trip d N cs H1 H2 H3) as (t1 & A1 & A2). destruct (C13_round_trip d' N' cs' H1' H2' H3') as (t2 & B1 & B2).
  assert (EQ : Pr d N (map Some cs) = Pr d' N' (map Some cs')) by congruence. injection EQ as -> -> E3. split; auto. split; auto.
  revert cs' E3 H3' E' B1 B2. clear. intros cs'. revert cs'. induction cs as [|c cs IH]; intros [|c' cs'] E; try discriminate; auto. cbn in E. injection E as -> E. intros. f_equal.
  clear - E. revert cs' E. induction cs as [|c cs IH]; intros [|c'' cs'] E; try discriminate; auto. cbn in E. injection E as -> E. f_equal. auto.
Qed.
Print Assumptions C13_injective.
(** Without the bound on the steps the claim is false: a step of length 2 is not written. So is it for div = 1: the code of a
    single cube is empty and cannot be parsed. *)
Theorem C13_long_step_refuted : exists cs t, (forall c, grid_cube 1 3 c <-> In c cs) /\ NoDup cs /\
  pr_str (Pr 1 3 (map Some cs)) = Some t /\ pr_parse t <> Some (Pr 1 3 (map Some cs)) /\ pr_parse t <> None.
Proof.
  exists [[0]; [2]; [1]]%Z, ["("; ")"; "I"]%char. split; [|split; [|split; [|split]]].
  - intros c. split.
    + intros (HL & HF). destruct c as [|x [|y c]]; try discriminate. apply Forall_cons_iff in HF. destruct HF as (HX & _). cbn.
      assert (x = 0 \/ x = 1 \/ x = 2)%Z as [->|[->| ->]] by lia; auto.
    + intros [<-|[<-|[<-|[]]]]; (split; [reflexivity|]); repeat constructor; lia.
  - repeat constructor; cbn; intuition discriminate.
  - reflexivity.
  - vm_compute. discriminate.
  - vm_compute. discriminate.
Qed.
Print Assumptions C13_long_step_refuted.
Theorem C13_div1_refuted : exists cs t, (forall c, grid_cube 1 1 c <-> In c cs) /\ pr_str (Pr 1 1 (map Some cs)) = Some t /\ pr_parse t = None.
Proof.
  exists [[0%Z]], []. split; [|split; reflexivity]. intros c. split.
  - intros (HL & HF). destruct c as [|x [|y c]]; try discriminate. apply Forall_cons_iff in HF. destruct HF as (HX & _). left. f_equal. lia.
  - intros [<-|[]]. split; [reflexivity|]. repeat constructor; lia.
Qed.
Print Assumptions C13_div1_refuted.

(** A zero step (a cube visited twice in a row) is written () and ignored by the parser. *)
Theorem C13_zero_step_refuted : exists cs t, (forall c, grid_cube 1 2 c <-> In c cs) /\ pr_str (Pr 1 2 (map Some cs)) = Some t /\ pr_parse t <> Some (Pr 1 2 (map Some cs)) /\ pr_parse t <> None.
Proof.
  exists [[0]; [0]; [1]]%Z, ["("; ")"; "i"]%char. split; [|split; [reflexivity|split; vm_compute; discriminate]].
  intros c. split.
  - intros (HL & HF). destruct c as [|x [|y c]]; try discriminate. apply Forall_cons_iff in HF. destruct HF as (HX & _). cbn.
    assert (x = 0 \/ x = 1)%Z as [->| ->] by lia; auto.
  - intros [<-|[<-|[<-|[]]]]; (split; [reflexivity|]); repeat constructor; lia.
Qed.
Print Assumptions C13_zero_step_refuted.

(** The Hilbert prototype and one with a diagonal step that does not start at zero. *)
Example C13_example :
  chain_proto 2 2 [[0; 0]; [0; 1]; [1; 1]; [1; 0]]%Z /\ pr_str (Pr 2 2 (map Some [[0; 0]; [0; 1]; [1; 1]; [1; 0]]%Z)) = Some ["j"; "i"; "J"]%char /\
  chain_proto 2 2 [[1; 0]; [0; 1]; [0; 0]; [1; 1]]%Z /\ pr_str (Pr 2 2 (map Some [[1; 0]; [0; 1]; [0; 0]; [1; 1]]%Z)) = Some ["("; "I"; "j"; ")"; "J"; "("; "i"; "j"; ")"]%char.
Proof.
  assert (HC : forall cs, (forall a b, (0 <= a <= 1)%Z -> (0 <= b <= 1)%Z -> In [a; b] cs) -> (forall c, In c cs -> grid_cube 2 2 c) ->
     (forall c, grid_cube 2 2 c <-> In c cs)).
  { intros cs H1 H2 c. split; auto. intros (HL & HF). destruct c as [|a [|b [|e c]]]; try discriminate. apply Forall_cons_iff in HF. destruct HF as (HA & HF).
    apply Forall_cons_iff in HF. destruct HF as (HB & _). apply H1; lia. }
  assert (HG : forall cs : list (list Z), Forall (fun c => c = [0; 0] \/ c = [0; 1] \/ c = [1; 0] \/ c = [1; 1])%Z cs -> forall c, In c cs -> grid_cube 2 2 c).
  { intros cs HF c Hc. rewrite Forall_forall in HF. destruct (HF c Hc) as [->|[->|[->| ->]]]; (split; [reflexivity|]); repeat constructor; lia. }
  split; [|split; [reflexivity|split; [|reflexivity]]].
  - constructor.
    + apply HC; [|apply HG; repeat (apply Forall_cons; [tauto|]); apply Forall_nil]. intros a b HA HB. assert (a = 0 \/ a = 1)%Z as [->| ->] by lia; assert (b = 0 \/ b = 1)%Z as [->| ->] by lia; cbn; auto.
    + intros [|[|[|[|i]]]] c c' E E'; try discriminate; cbn in E, E'; injection E as <-; try injection E' as <-; try (destruct i; discriminate); (split; [discriminate|]); repeat constructor; cbn; lia.
  - constructor.
    + apply HC; [|apply HG; repeat (apply Forall_cons; [tauto|]); apply Forall_nil]. intros a b HA HB. assert (a = 0 \/ a = 1)%Z as [->| ->] by lia; assert (b = 0 \/ b = 1)%Z as [->| ->] by lia; cbn; auto.
    + intros [|[|[|[|i]]]] c c' E E'; try discriminate; cbn in E, E'; injection E as <-; try injection E' as <-; try (destruct i; discriminate); (split; [discriminate|]); repeat constructor; cbn; lia.
Qed.
