(** C32: CubePathTree.grow enumerates the Hamiltonian paths of the grid. *)
From Verif Require Import Py L_Py L_BaseMaps M_BaseMaps M_Subsets M_PathTree S_Subsets S_PathTree P_Facets P_PathTree P_PathGlue P_PathGrow.
From Coq Require Import Permutation.
Local Open Scope nat_scope.

(** The call ends (there is enough fuel), raises nothing, and yields exactly the Hamiltonian paths, each once; for all
    values of start_max_count and finish_max_count, with prev_func needed only if finish_max_count is given, and for
    every hash function that respects equality. *)
Theorem C32_hamiltonian : forall (S : Type) (seqb : S -> S -> bool) (hash : future_t S -> Z) (d N : nat) (good : S -> Prop)
    (next : list Z -> S -> option (list (list Z * S))) (prev : option (list Z -> S -> option (list (list Z * S))))
    (start finish : list (list Z * S)) (start_max : nat) (finish_max : option nat),
  (forall s t, seqb s t = true <-> s = t) -> hash_ok hash -> 2 <= N ^ d -> step_ok d N good next ->
  NoDup start -> Forall (fun x => grid_cube d N (fst x) /\ good (snd x)) start ->
  NoDup finish -> Forall (fun x => grid_cube d N (fst x) /\ good (snd x)) finish ->
  match finish_max with
  | None => True
  | Some _ => exists g, prev = Some g /\ step_ok d N good g /\ converse d N good next g
  end ->
  exists fuel0 result,
    (forall fuel, fuel0 <= fuel -> grow seqb hash d N next prev fuel start finish start_max finish_max = Some result) /\
    NoDup result /\ (forall z, In z result <-> hamiltonian d N next start finish z).
Proof. intros; apply (grow_spec seqb H hash H0 d N H1 good next H2); auto. Qed.
Print Assumptions C32_hamiltonian.

(** The result does not depend on the limits, the hash function or the availability of prev_func (only its order may). *)
Theorem C32_limits : forall (S : Type) (seqb : S -> S -> bool) (d N : nat) (good : S -> Prop)
    (next prev : list Z -> S -> option (list (list Z * S))) (start finish : list (list Z * S))
    hash hash' start_max start_max' finish_max finish_max' fuel fuel' r r',
  (forall s t, seqb s t = true <-> s = t) -> hash_ok hash -> hash_ok hash' -> 2 <= N ^ d ->
  step_ok d N good next -> step_ok d N good prev -> converse d N good next prev ->
  NoDup start -> Forall (fun x => grid_cube d N (fst x) /\ good (snd x)) start ->
  NoDup finish -> Forall (fun x => grid_cube d N (fst x) /\ good (snd x)) finish ->
  grow seqb hash d N next (Some prev) fuel start finish start_max finish_max = Some r ->
  grow seqb hash' d N next (Some prev) fuel' start finish start_max' finish_max' = Some r' ->
  Permutation r r'.
Proof.
  intros S seqb d N good next prev start finish hash hash' sm sm' fm fm' fuel fuel' r r' HS HH HH' H2 HN HP HC S1 S2 F1 F2 E E'.
  destruct (grow_spec seqb HS hash HH d N H2 good next HN start finish S1 S2 F1 F2 (Some prev) sm fm) as (F & q & A1 & A2 & A3).
  { destruct fm; eauto. }
  destruct (grow_spec seqb HS hash' HH' d N H2 good next HN start finish S1 S2 F1 F2 (Some prev) sm' fm') as (F' & q' & B1 & B2 & B3).
  { destruct fm'; eauto. }
  apply (grow_mono _ _ _ _ _ _ _ (Nat.max F fuel)) in E; [|lia]. rewrite A1 in E by lia. injection E as <-.
  apply (grow_mono _ _ _ _ _ _ _ (Nat.max F' fuel')) in E'; [|lia]. rewrite B1 in E' by lia. injection E' as <-.
  apply NoDup_Permutation; auto. intros z. rewrite A3, B3. tauto.
Qed.
Print Assumptions C32_limits.

(** A grid of one cube: nothing is yielded although the one-node path is Hamiltonian (so the bound 2 <= N ^ d above is needed). *)
Theorem C32_one_cube_refuted : exists (start : list (list Z * unit)) z,
  let next := fun (_ : list Z) (_ : unit) => Some [] in
  hamiltonian 1 1 next start start z /\
  forall hash start_max finish_max fuel, grow (fun _ _ => true) hash 1 1 next (Some next) (10 + fuel) start start start_max finish_max = Some [].
Proof.
  exists [([0%Z], tt)], [([0%Z], tt)]. cbv zeta. split.
  - split; [|split; [|split; [|split]]].
    + eexists; split; [reflexivity|left; auto].
    + eexists; split; [reflexivity|left; auto].
    + exact I.
    + constructor; [intros []|constructor].
    + intros c. split.
      * intros (HL & HF). destruct c as [|x [|]]; try discriminate. inversion HF; subst. left. cbn. f_equal. lia.
      * intros [<-|[]]. split; auto. constructor; auto. lia.
  - intros hash sm [m|] fuel; reflexivity.
Qed.
Print Assumptions C32_one_cube_refuted.

(** The moves of a chess rook by one cell on a board, with a parity bit as the state. *)
Definition rook (c : list Z) (s : bool) : option (list (list Z * bool)) :=
  Some (map (fun dl => (dl, negb s)) [[1; 0]; [-1; 0]; [0; 1]; [0; -1]]%Z).
Lemma rook_ok N : step_ok 2 N (fun _ => True) rook.
Proof.
  intros c s _ _. eexists; split; [reflexivity|]. split.
  - cbn. repeat constructor; cbn; intuition discriminate.
  - repeat constructor.
Qed.
Lemma rook_converse N : converse 2 N (fun _ => True) rook rook.
Proof.
  assert (HI : forall x y, length (fst x) = 2 -> length (fst y) = 2 -> offers rook x y -> offers rook y x).
  { intros [c s] [c' s'] HL HL' (l & dl & [= <-] & Hin & HD & E). cbn in *.
    exists (map (fun dl => (dl, negb s')) [[1; 0]; [-1; 0]; [0; 1]; [0; -1]]%Z), (map Z.opp dl). split; [reflexivity|].
    destruct c as [|x [|y []]], c' as [|x' [|y' []]]; try discriminate.
    destruct Hin as [[= <- <-]|[[= <- <-]|[[= <- <-]|[[= <- <-]|[]]]]]; cbn in E; injection E as -> ->; cbn;
      rewrite negb_involutive; (split; [tauto|]); (split; [reflexivity|]); (f_equal; [|f_equal]; lia). }
  intros x y (HL & _) (HL' & _) _ _. split; apply HI; auto.
Qed.
(** From the corner (0,0) of the 4 x 4 board to (0,3): 16 cells, 8 tours; with a limit of 2 start paths and no
    backward search, and with another hash function, the same. *)
Example C32_example :
  let start := [([0; 0]%Z, true)] in let finish := [([0; 3]%Z, true); ([0; 3]%Z, false)] in
  let hash1 := fun _ : future_t bool => 0%Z in
  let hash2 := fun fu : future_t bool => if inset [1; 1]%Z (fst fu) then 5%Z else 7%Z in
  (hash_ok hash1 /\ hash_ok hash2 /\ step_ok 2 4 (fun _ => True) rook /\ converse 2 4 (fun _ => True) rook rook) /\
  (exists r, grow Bool.eqb hash1 2 4 rook (Some rook) 1000 start finish 100 (Some 10) = Some r /\ length r = 8) /\
  (exists r, grow Bool.eqb hash2 2 4 rook None 5000 start finish 2 None = Some r /\ length r = 8).
Proof.
  cbv zeta. split; [split; [|split; [|split]]|split].
  - intros s t x _. reflexivity.
  - intros s t x H. cbv beta. cbn [fst]. destruct (inset [1; 1]%Z s) eqn:E1, (inset [1; 1]%Z t) eqn:E2; auto.
    + apply inset_In in E1. apply H, inset_In in E1. congruence.
    + apply inset_In in E2. apply H, inset_In in E2. congruence.
  - apply rook_ok.
  - apply rook_converse.
  - eexists; split; [vm_compute; reflexivity|reflexivity].
  - eexists; split; [vm_compute; reflexivity|reflexivity].
Qed.
