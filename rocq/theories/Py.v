(** Models of the Python library helpers used by /repo/peano (definitions only). *)
From Coq Require Export List Arith ZArith Bool Lia.
Export ListNotations.

(** [itertools.product] of the factors ls: last factor varies fastest. *)
Fixpoint lprod {A} (ls : list (list A)) : list (list A) :=
  match ls with
  | [] => [[]]
  | l :: ls' => flat_map (fun x => map (cons x) (lprod ls')) l
  end.

(** [itertools.product(l, repeat=n)]. *)
Definition lprod_rep {A} (l : list A) (n : nat) : list (list A) := lprod (repeat l n).

(** [range(n)]. *)
Definition range (n : nat) : list nat := seq 0 n.

(** [range(n)] used as integer coordinates. *)
Definition zrange (n : nat) : list Z := map Z.of_nat (seq 0 n).

(** [enumerate(l)]. *)
Definition enumerate {A} (l : list A) : list (nat * A) := combine (seq 0 (length l)) l.

(** All ways to take one element out, in order of position. *)
Fixpoint picks {A} (l : list A) : list (A * list A) :=
  match l with
  | [] => []
  | x :: l' => (x, l') :: map (fun p => (fst p, x :: snd p)) (picks l')
  end.

(** [itertools.permutations(l)]: lexicographic in positions. *)
Fixpoint perms_fuel {A} (n : nat) (l : list A) : list (list A) :=
  match n with
  | 0 => [[]]
  | S n' => flat_map (fun p => map (cons (fst p)) (perms_fuel n' (snd p))) (picks l)
  end.
Definition perms {A} (l : list A) : list (list A) := perms_fuel (length l) l.

(** [itertools.combinations(l, r)]. *)
Fixpoint combs {A} (l : list A) (r : nat) : list (list A) :=
  match r, l with
  | 0, _ => [[]]
  | S _, [] => []
  | S r', x :: l' => map (cons x) (combs l' r') ++ combs l' r
  end.

(** [itertools.combinations_with_replacement(l, r)]. *)
Fixpoint combs_repl {A} (l : list A) : nat -> list (list A) :=
  match l with
  | [] => fun r => match r with 0 => [[]] | S _ => [] end
  | x :: l' =>
      (fix go r := match r with
                   | 0 => [[]]
                   | S r' => map (cons x) (go r') ++ combs_repl l' r
                   end)
  end.

(** Assignment [l[i] = v] (in range; no effect out of range, where Python raises IndexError). *)
Fixpoint upd {A} (i : nat) (v : A) (l : list A) {struct l} : list A :=
  match l, i with
  | [], _ => []
  | _ :: l', 0 => v :: l'
  | x :: l', S i' => x :: upd i' v l'
  end.

(** Lexicographic comparison of Python tuples. *)
Fixpoint lex {A} (cmp : A -> A -> comparison) (l1 l2 : list A) : comparison :=
  match l1, l2 with
  | [], [] => Eq
  | [], _ => Lt
  | _, [] => Gt
  | x :: l1', y :: l2' =>
      match cmp x y with Eq => lex cmp l1' l2' | c => c end
  end.

(** Comparison of a pair (2-tuple). *)
Definition lex2 {A B} (ca : A -> A -> comparison) (cb : B -> B -> comparison)
  (p q : A * B) : comparison :=
  match ca (fst p) (fst q) with Eq => cb (snd p) (snd q) | c => c end.

Definition ltb_of {A} (cmp : A -> A -> comparison) (x y : A) : bool :=
  match cmp x y with Lt => true | _ => false end.

(** [min] of x and xs: the first minimal element. *)
Definition min_of {A} (cmp : A -> A -> comparison) (x : A) (xs : list A) : A :=
  fold_left (fun m y => if ltb_of cmp y m then y else m) xs x.

(** [min(iterable)]; ValueError on an empty iterable. *)
Definition min_list {A} (cmp : A -> A -> comparison) (l : list A) : option A :=
  match l with [] => None | x :: xs => Some (min_of cmp x xs) end.

(** [sorted(l)]: a stable insertion sort; Python's sort is stable too. *)
Fixpoint insert_sorted {A} (cmp : A -> A -> comparison) (x : A) (l : list A) : list A :=
  match l with
  | [] => [x]
  | y :: l' => match cmp x y with Gt => y :: insert_sorted cmp x l' | _ => x :: l end
  end.
Fixpoint sorted {A} (cmp : A -> A -> comparison) (l : list A) : list A :=
  match l with [] => [] | x :: l' => insert_sorted cmp x (sorted cmp l') end.

(** Association lists model [dict] (insertion ordered, unique keys). *)
Section Dict.
  Context {K V : Type} (keqb : K -> K -> bool).
  Fixpoint dget (d : list (K * V)) (k : K) : option V :=
    match d with
    | [] => None
    | (k', v) :: d' => if keqb k k' then Some v else dget d' k
    end.
  Fixpoint dset (d : list (K * V)) (k : K) (v : V) : list (K * V) :=
    match d with
    | [] => [(k, v)]
    | (k', v') :: d' => if keqb k k' then (k', v) :: d' else (k', v') :: dset d' k v
    end.
End Dict.

(** [x in l] with a boolean equality. *)
Definition memb {A} (eqb : A -> A -> bool) (x : A) (l : list A) : bool := existsb (eqb x) l.

(** Removal of duplicates keeping first occurrences (set/dict-key semantics, insertion order). *)
Fixpoint dedup_aux {A} (eqb : A -> A -> bool) (seen : list A) (l : list A) : list A :=
  match l with
  | [] => []
  | x :: l' => if memb eqb x seen then dedup_aux eqb seen l'
               else x :: dedup_aux eqb (x :: seen) l'
  end.
Definition dedup {A} (eqb : A -> A -> bool) (l : list A) : list A := dedup_aux eqb [] l.

(** Sequencing of computations that may raise. *)
Definition obind {A B} (x : option A) (f : A -> option B) : option B :=
  match x with Some a => f a | None => None end.
Fixpoint omap {A B} (f : A -> option B) (l : list A) : option (list B) :=
  match l with
  | [] => Some []
  | x :: l' => match f x, omap f l' with Some y, Some ys => Some (y :: ys) | _, _ => None end
  end.

(** [l[i]] with Python's negative indices; IndexError is None. *)
Definition pyget {A} (l : list A) (i : Z) : option A :=
  if (0 <=? i)%Z then nth_error l (Z.to_nat i)
  else if (0 <=? Z.of_nat (length l) + i)%Z then nth_error l (Z.to_nat (Z.of_nat (length l) + i)) else None.

(** [next(x for x in l if p(x))] *)
Definition first_such {A} (p : A -> bool) (l : list A) : option A := find p l.
