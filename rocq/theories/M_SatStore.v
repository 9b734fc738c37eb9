(** Model of the mutable state of adapters (/repo/peano/_sat_adapters.py): adapters are objects whose attributes
    _int_clauses, _curve_vars and _var_no refer to a list, a set and a dict in the memory; these are changed in place. *)
From Verif Require Import Py M_BaseMaps M_Curves M_Sat.
Local Open Scope nat_scope.

(** _sat_adapters.py:33-41  the attributes of an adapter: addresses of the list, the set and the dict, the curve (immutable), and
    whether _solver is set *)
Record sat_obj : Type := SO { so_clauses : nat; so_vars : nat; so_nos : nat; so_curve : curve; so_solved : bool }.
(** the memory: contents of the lists, sets and dicts, and the adapters; addresses are indices *)
Record store : Type := ST { st_clauses : list (list (list Z)); st_vars : list (list bvar); st_nos : list (list (bvar * Z)); st_objs : list sat_obj }.
(** assignment to an object of the memory (Python builtin) *)
Definition put {A} (l : list A) (i : nat) (x : A) : list A := firstn i l ++ x :: skipn (S i) l.
(** what the methods of the object number i see *)
Definition so_view (st : store) (i : nat) : option adapter :=
  match nth_error (st_objs st) i with
  | None => None
  | Some o =>
      match nth_error (st_clauses st) (so_clauses o), nth_error (st_vars st) (so_vars o), nth_error (st_nos st) (so_nos o) with
      | Some c, Some v, Some n => Some (AD c v n (so_curve o))
      | _, _, _ => None
      end
  end.
(** an update in place: append to the list, add to the set, set in the dict of the object number i *)
Definition so_update (st : store) (i : nat) (f : adapter -> adapter) : option store :=
  match nth_error (st_objs st) i, so_view st i with
  | Some o, Some a =>
      let a' := f a in
      Some (ST (put (st_clauses st) (so_clauses o) (ad_clauses a')) (put (st_vars st) (so_vars o) (ad_curve_vars a'))
               (put (st_nos st) (so_nos o) (ad_var_no a')) (st_objs st))
  | _, _ => None
  end.
(** _sat_adapters.py:37-66  CurveSATAdapter(curve): new list, set and dict, filled by _load_curve *)
Definition so_new (fuel : nat) (c : curve) (st : store) : option store :=
  match ad_load fuel c with
  | None => None
  | Some a => Some (ST (st_clauses st ++ [ad_clauses a]) (st_vars st ++ [ad_curve_vars a]) (st_nos st ++ [ad_var_no a])
                       (st_objs st ++ [SO (length (st_clauses st)) (length (st_vars st)) (length (st_nos st)) c false]))
  end.
(** _sat_adapters.py:37-48, 68-73  CurveSATAdapter(adapter=other): other._int_clauses[:], other._curve_vars.copy() and
    other._var_no.copy() are new objects with the same contents; AssertionError if other has been solved *)
Definition so_copy (i : nat) (st : store) : option store :=
  match nth_error (st_objs st) i, so_view st i with
  | Some o, Some a =>
      if so_solved o then None
      else Some (ST (st_clauses st ++ [ad_clauses a]) (st_vars st ++ [ad_curve_vars a]) (st_nos st ++ [ad_var_no a])
                    (st_objs st ++ [SO (length (st_clauses st)) (length (st_vars st)) (length (st_nos st)) (so_curve o) false]))
  | _, _ => None
  end.
(** _sat_adapters.py:140-146  add_forbid_clause *)
Definition so_forbid (i : nat) (j : junction) (f : curve) (st : store) : option store := so_update st i (fun a => add_forbid a j f).
(** _sat_adapters.py:169-176  solve: the clauses are not changed, _solver is set *)
Definition so_solve (i : nat) (st : store) : option store :=
  match nth_error (st_objs st) i with
  | None => None
  | Some o => Some (ST (st_clauses st) (st_vars st) (st_nos st)
                       (put (st_objs st) i (SO (so_clauses o) (so_vars o) (so_nos o) (so_curve o) true)))
  end.
(** calls made by a program, on adapters numbered in the order of creation; None: an exception *)
Inductive sat_op : Type :=
| ONew (fuel : nat) (c : curve) | OCopy (i : nat) | OForbid (i : nat) (j : junction) (f : curve) | OSolve (i : nat).
(** _sat_adapters.py:37-73, 140-176  one call made by a program *)
Definition so_step (st : store) (op : sat_op) : option store :=
  match op with
  | ONew fuel c => so_new fuel c st
  | OCopy i => so_copy i st
  | OForbid i j f => so_forbid i j f st
  | OSolve i => so_solve i st
  end.
(** _sat_adapters.py:37-73, 140-176  a sequence of calls made by a program *)
Definition so_run (ops : list sat_op) : option store := fold_left (fun acc op => obind acc (fun st => so_step st op)) ops (Some (ST [] [] [] [])).
