(** Specification vocabulary for the SAT adapter: what is assumed of the SAT solver, and what the clauses are to mean. *)
From Verif Require Import Py M_BaseMaps M_Curves M_Sat M_SatStore S_Curves S_Fuzzy.
Local Open Scope nat_scope.

(** Clauses are lists of nonzero integers: n for the variable n, -n for its negation. *)
Definition satisfies (val : Z -> bool) (clauses : list (list Z)) : Prop :=
  forall cl, In cl clauses -> exists tok, In tok cl /\ val (Z.abs tok) = (0 <? tok)%Z.
(** A list of tokens as returned by get_model: it contains a token of every clause, never a token and its negation, and
    no variable beyond those of the clauses.  (Variables may be missing.) *)
Definition model_of (m : list Z) (clauses : list (list Z)) : Prop :=
  (forall cl, In cl clauses -> exists tok, In tok cl /\ In tok m) /\
  (forall tok, In tok m -> ~ In (- tok)%Z m) /\
  (forall tok, In tok m -> tok <> 0%Z /\ exists cl tok', In cl clauses /\ In tok' cl /\ (Z.abs tok <= Z.abs tok')%Z).
(** The contract of the solver: an answer to a clause set is a model of it, or the clause set is unsatisfiable. The answer
    may be another one at every call. *)
Definition sat_ok (solver : sat_solver) : Prop := forall call clauses,
  (forall cl tok, In cl clauses -> In tok cl -> tok <> 0%Z) ->
  match solver call clauses with
  | Some m => model_of m clauses
  | None => forall val, ~ satisfies val clauses
  end.

(** The curve x has the junction j (auto or regular): compared by specs and shifts, the depth does not matter. *)
Definition has_junction (x : curve) (j : junction) : Prop :=
  exists j', (In j' (gen_auto_junctions x) \/ exists fuel js, gen_regular_junctions fuel x = (js, GDone) /\ In j' js) /\
             (j_spec1 j', j_spec2 j', j_dx j', j_dt j') = (j_spec1 j, j_spec2 j, j_dx j, j_dt j).
(** x shows none of the forbidden combinations: junction j together with the specs of f. *)
Definition avoids (x : curve) (forb : list (junction * curve)) : Prop :=
  forall j f, In (j, f) forb -> consistent f x -> ~ has_junction x j.
(** The adapter after a sequence of calls add_forbid_clause(j, f). *)
Definition forbid_all (a : adapter) (forb : list (junction * curve)) : adapter :=
  fold_left (fun a jf => add_forbid a (fst jf) (snd jf)) forb a.

(** What a program that creates, copies, extends and solves adapters should be able to rely on: for every adapter, in the
    order of creation, the curve it was made for and the combinations forbidden so far; a copy starts with those of the
    original, and from then on each has its own. [None]: a call on an adapter that does not exist. *)
Definition record : Type := (nat * curve * list (junction * curve))%type.
Definition ledger_step (l : list record) (op : sat_op) : option (list record) :=
  match op with
  | ONew fuel c => Some (l ++ [(fuel, c, [])])
  | OCopy i => option_map (fun r => l ++ [r]) (nth_error l i)
  | OForbid i j f => option_map (fun r => firstn i l ++ (fst r, snd r ++ [(j, f)]) :: skipn (S i) l) (nth_error l i)
  | OSolve i => option_map (fun _ => l) (nth_error l i)
  end.
Definition ledger (ops : list sat_op) : option (list record) := fold_left (fun acc op => obind acc (fun l => ledger_step l op)) ops (Some []).
(** Has solve() been called on the adapter number i? *)
Definition solved (ops : list sat_op) (i : nat) : Prop := In (OSolve i) ops.
