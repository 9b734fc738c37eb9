(** Specification vocabulary for utils.py. *)
From Verif Require Import Py L_Qc.
From Coq Require Import Reals Qreals Permutation.
Local Open Scope nat_scope.

(** The real number of a rational. *)
Definition qR (x : Qc) : R := Q2R (this x).

(** Positional value of a digit string, most significant digit first. *)
Definition value (G : Z) (digits : list Z) : Z := fold_left (fun v c => (v * G + c)%Z) digits 0%Z.

(** The infinite digit stream: start, then period for ever. *)
Definition stream_digit (start period : list Z) (k : nat) : Z :=
  if Nat.ltb k (length start) then nth k start 0%Z
  else nth ((k - length start) mod length period) period 0%Z.

(** Number of free coordinates of a face. *)
Definition face_free (f : list (option Z)) : nat := length (filter (fun c => match c with None => true | _ => false end) f).

(** The items of a tuple standing at the positions of id i. *)
Fixpoint items_of {T} (i : nat) (ids : list nat) (t : list T) : list T :=
  match ids, t with
  | j :: ids', x :: t' => if Nat.eqb j i then x :: items_of i ids' t' else items_of i ids' t'
  | _, _ => []
  end.
(** Tuples that differ only by permutations of positions with equal ids. *)
Definition same_choice {T} (ids : list nat) (t t' : list T) : Prop :=
  forall i, Permutation (items_of i ids t) (items_of i ids t').
(** A tuple whose j-th item comes from the iterable of ids[j]. *)
Definition valid_tuple {T} (ids : list nat) (dict : nat -> option (list T)) (t : list T) : Prop :=
  Forall2 (fun i x => exists l, dict i = Some l /\ In x l) ids t.

(** The first n digits of the stream. *)
Definition stream_prefix (s p : list Z) (n : nat) : list Z := map (stream_digit s p) (seq 0 n).

(** Positions of the iterable of an id, and the item at such a position. *)
Definition pos_dict {T} (dict : nat -> option (list T)) (i : nat) : option (list (nat * nat)) :=
  option_map (fun l => map (pair i) (seq 0 (length l))) (dict i).
Definition at_pos {T} (dict : nat -> option (list T)) (e : nat * nat) : option T :=
  match dict (fst e) with Some l => nth_error l (snd e) | None => None end.
