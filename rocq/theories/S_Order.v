(** What it means for ==, < and hash() to agree. *)
From Verif Require Import Py M_BaseMaps M_Subsets M_Paths M_Order.
Local Open Scope nat_scope.

(** a < b, a == b, b < a: no exception, and exactly one holds *)
Definition exactly_one (x y z : option bool) : Prop :=
  (x = Some true /\ y = Some false /\ z = Some false) \/ (x = Some false /\ y = Some true /\ z = Some false) \/ (x = Some false /\ y = Some false /\ z = Some true).
(** sorted() and min() need this. *)
Record totally_ordered (P : pyval -> Prop) : Prop := TO {
  to_trichotomy : forall a b, P a -> P b -> exactly_one (py_lt a b) (py_eq a b) (py_lt b a);
  to_trans : forall a b c, P a -> P b -> P c -> py_lt a b = Some true -> py_lt b c = Some true -> py_lt a c = Some true }.
(** == is an equivalence. *)
Record equality (P : pyval -> Prop) : Prop := EQ {
  eqv_decided : forall a b, P a -> P b -> py_eq a b <> None;
  eqv_refl : forall a, P a -> py_eq a a = Some true;
  eqv_sym : forall a b, P a -> P b -> py_eq a b = Some true -> py_eq b a = Some true;
  eqv_trans : forall a b c, P a -> P b -> P c -> py_eq a b = Some true -> py_eq b c = Some true -> py_eq a c = Some true }.
(** The contract of __hash__, for any hash of numbers and tuples. *)
Definition hash_contract : Prop :=
  forall (hn : Qc -> Z) (h0 : Z) (ht : list Z -> Z) a b, py_eq a b = Some true -> py_hash hn h0 ht a = py_hash hn h0 ht b.
(** Lexicographic order: p and q agree before some place, where p is smaller or ends. *)
Definition lex_less {A} (lt : A -> A -> Prop) (p q : list A) : Prop :=
  exists k, firstn k p = firstn k q /\
    ((exists x y, nth_error p k = Some x /\ nth_error q k = Some y /\ lt x y) \/ (length p = k /\ k < length q)).
(** A prototype without unknown cubes. *)
Definition full_proto (p : proto) : Prop := Forall (fun c => c <> None) (pr_cubes p).
(** Pairs: the first components decide, then the second. *)
Definition pair_less {A B} (lt1 : A -> A -> Prop) (lt2 : B -> B -> Prop) (p q : A * B) : Prop :=
  lt1 (fst p) (fst q) \/ (fst p = fst q /\ lt2 (snd p) (snd q)).
(** The orders of the classes. *)
Definition point_less : list Qc -> list Qc -> Prop := lex_less Qclt.
Definition cube_less : list Z -> list Z -> Prop := lex_less Z.lt.
Definition facet_less (s t : facet_set) : Prop :=
  pair_less Nat.lt (pair_less Nat.lt (pair_less (pair_less Nat.lt Z.lt) (lex_less cube_less)))
    (fs_dim s, (fs_div s, (fs_facet s, fs_cubes s))) (fs_dim t, (fs_div t, (fs_facet t, fs_cubes t))).
Definition link_less {T} (less : T -> T -> Prop) (a b : link T) : Prop := pair_less less less (entrance a, exit a) (entrance b, exit b).
Definition known_less (a b : option (list Z)) : Prop := exists x y, a = Some x /\ b = Some y /\ cube_less x y.
Definition path_less {T} (less : T -> T -> Prop) (p q : path T) : Prop :=
  pair_less (link_less less) (pair_less (lex_less known_less) (lex_less (link_less less)))
    (pa_link p, (pr_cubes (pa_proto p), pa_links p)) (pa_link q, (pr_cubes (pa_proto q), pa_links q)).
