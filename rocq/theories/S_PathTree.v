(** Specification vocabulary for the enumeration of paths through all cubes of a grid. *)
From Verif Require Import Py M_PathTree S_Subsets.
Local Open Scope nat_scope.

(** node [y] = (cube', state') may follow node [x] = (cube, state): the step function offers (delta, state') with
    cube' = cube + delta *)
Definition offers {S} (f : list Z -> S -> option (list (list Z * S))) (x y : list Z * S) : Prop :=
  exists l delta, f (fst x) (snd x) = Some l /\ In (delta, snd y) l /\
                  length delta = length (fst x) /\ fst y = map (fun cd => (fst cd + snd cd)%Z) (combine (fst x) delta).
(** every node is followed by one that it offers *)
Fixpoint steps {A} (R : A -> A -> Prop) (l : list A) : Prop :=
  match l with
  | x :: ((y :: _) as l') => R x y /\ steps R l'
  | _ => True
  end.
(** A sequence of nodes that starts in [start], ends in [finish], follows [f] and visits every cube of the grid exactly once *)
Definition hamiltonian {S} (d N : nat) (f : list Z -> S -> option (list (list Z * S))) (start finish z : list (list Z * S)) : Prop :=
  (exists x, hd_error z = Some x /\ In x start) /\ (exists x, hd_error (rev z) = Some x /\ In x finish) /\
  steps (offers f) z /\
  NoDup (map fst z) /\ (forall c, grid_cube d N c <-> In c (map fst z)).
(** The step function works on every cube of the grid and every state of the set [good]: it raises nothing, yields no
    (delta, state) twice, deltas have dimension d and the new states are good *)
Definition step_ok {S} (d N : nat) (good : S -> Prop) (f : list Z -> S -> option (list (list Z * S))) : Prop :=
  forall c s, grid_cube d N c -> good s ->
    exists l, f c s = Some l /\ NoDup l /\ Forall (fun ds => length (fst ds) = d /\ good (snd ds)) l.
(** [g] is the converse of [f] *)
Definition converse {S} (d N : nat) (good : S -> Prop) (f g : list Z -> S -> option (list (list Z * S))) : Prop :=
  forall x y, grid_cube d N (fst x) -> grid_cube d N (fst y) -> good (snd x) -> good (snd y) -> (offers f x y <-> offers g y x).
(** Python's contract for hash: equal futures (equal as sets of cubes, equal nodes) have equal hashes *)
Definition hash_ok {S} (hash : future_t S -> Z) : Prop :=
  forall s t x, (forall c, In c s <-> In c t) -> hash (s, x) = hash (t, x).
