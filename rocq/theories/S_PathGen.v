(** Specification vocabulary for the generation of paths (paths.py:162-396). *)
From Verif Require Import Py M_BaseMaps M_Subsets M_Paths S_BaseMaps S_Subsets.
Local Open Scope nat_scope.

(** Points and facet sets as sets of points of the unit cube. *)
Definition is_point (p x : list Qc) : Prop := x = p.

Section Spec.
Context {T : Type} (mem : T -> list Qc -> Prop) (mul : base_map -> T -> T).
(** The set [s] placed in cube [c] of the N-grid and the set [t] placed in cube [c'] have a common point. *)
Definition touch (N : nat) (c : list Z) (s : T) (c' : list Z) (t : T) : Prop :=
  exists x x' y, mem s x /\ mem t x' /\ place_in N c x y /\ place_in N c' x' y.
(** The set [t] placed in cube [c] of the N-grid has a common point with the set [s]. *)
Definition meets (N : nat) (c : list Z) (t s : T) : Prop := exists x y, mem t x /\ place_in N c x y /\ mem s y.
(** The link is an image of one of the given links under an isometry of the cube, or the reverse of such an image. *)
Definition image_of (d : nat) (links : list (link T)) (l : link T) : Prop :=
  exists l0 b, In l0 links /\ wf_bm d b /\ l = if time_rev b then Lk (mul b (exit l0)) (mul b (entrance l0))
                                                else Lk (mul b (entrance l0)) (mul b (exit l0)).
(** l1-distance of cubes *)
Definition l1_dist (c c' : list Z) : Z := fold_right Z.add 0%Z (map (fun p => Z.abs (snd p - fst p)) (combine c c')).
Definition near (max_cdist : option Z) (c c' : list Z) : Prop :=
  match max_cdist with Some m => (l1_dist c c' <= m)%Z | None => True end.

(** The sequence of (cube, link) visits every cube of the grid exactly once, takes its links from the images of [links],
    the exit of each fraction touches the entrance of the next one, and adjacent cubes are near. *)
Record good_chain (d N : nat) (links : list (link T)) (max_cdist : option Z) (z : list (list Z * link T)) : Prop := {
  gc_nodup : NoDup (map fst z);
  gc_cubes : forall c, grid_cube d N c <-> In c (map fst z);
  gc_links : Forall (fun cl => image_of d links (snd cl)) z;
  gc_joined : forall i c l c' l', nth_error z i = Some (c, l) -> nth_error z (S i) = Some (c', l') ->
                touch N c (exit l) c' (entrance l') /\ near max_cdist c c' }.
(** its entrance meets the entrance of [link] and its exit the exit of [link] *)
Definition good_ends (N : nat) (lk : link T) (z : list (list Z * link T)) : Prop :=
  (exists c l, hd_error z = Some (c, l) /\ meets N c (entrance l) (entrance lk)) /\
  (exists c l, hd_error (rev z) = Some (c, l) /\ meets N c (exit l) (exit lk)).
(** the path with these cubes and links *)
Definition path_of (d N : nat) (z : list (list Z * link T)) (p : path T) : Prop :=
  pa_proto p = Pr d N (map (fun cl => Some (fst cl)) z) /\ pa_links p = map snd z.
(** The path [p] goes through the cubes of [P] in the same order, and in every cube its entrance meets the entrance of
    [P]'s link and its exit the exit. *)
Definition follows (P p : path T) : Prop :=
  pr_cubes (pa_proto p) = pr_cubes (pa_proto P) /\
  Forall2 (fun l l' => (exists x, mem (entrance l) x /\ mem (entrance l') x) /\ (exists x, mem (exit l) x /\ mem (exit l') x))
          (pa_links p) (pa_links P).
End Spec.
(** The base maps that keep a link: images of the entrance and the exit, exchanged if the base map reverses time. *)
Definition keeps_link {T} (mul : base_map -> T -> T) (d : nat) (lk : link T) (b : base_map) : Prop :=
  wf_bm d b /\ (if time_rev b then Lk (mul b (exit lk)) (mul b (entrance lk)) else Lk (mul b (entrance lk)) (mul b (exit lk))) = lk.
