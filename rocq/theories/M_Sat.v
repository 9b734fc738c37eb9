(** Model of /repo/peano/_sat_adapters.py (definitions only). Exceptions are [None]. *)
From Verif Require Export Py M_BaseMaps M_Curves.
Local Open Scope nat_scope.

(** _sat_adapters.py:75-88  boolean variables: ('spec', (pnum, cnum, sp)), ('junc', (junc,)), ('curve', defined specs);
    compared as tuples (a Junction by its _data, see [junc_eqb]). *)
Inductive bvar : Type :=
| VSpec (p k : nat) (s : spec)
| VJunc (j : junction)
| VCurve (l : list (nat * nat * spec)).
(** _sat_adapters.py:75-88  (part of) *)
Definition triple_eqb (a b : nat * nat * spec) : bool := pc_eqb (fst a) (fst b) && spec_eqb (snd a) (snd b).
(** _sat_adapters.py:75-88  (part of) *)
Fixpoint triples_eqb (a b : list (nat * nat * spec)) : bool :=
  match a, b with
  | [], [] => true
  | x :: a', y :: b' => triple_eqb x y && triples_eqb a' b'
  | _, _ => false
  end.
(** _sat_adapters.py:75-88  (part of) *)
Definition bvar_eqb (a b : bvar) : bool :=
  match a, b with
  | VSpec p k s, VSpec p' k' s' => triple_eqb (p, k, s) (p', k', s')
  | VJunc j, VJunc j' => junc_eqb j j'
  | VCurve l, VCurve l' => triples_eqb l l'
  | _, _ => false
  end.
(** _sat_adapters.py:85-88  [_get_curve_var] *)
Definition curve_var (c : curve) : bvar := VCurve (gen_defined_specs c).
(** _sat_adapters.py:85-88  (part of) *)
Definition spec_var (x : nat * nat * spec) : bvar := VSpec (fst (fst x)) (snd (fst x)) (snd x).

(** _sat_adapters.py:33-41, 51  the state: _int_clauses, _curve_vars, _var_no (a dict in order of insertion), _curve.
    _solver is the answer of the last call of solve, see [ad_solve]. *)
Record adapter : Type := AD {
  ad_clauses : list (list Z); ad_curve_vars : list bvar; ad_var_no : list (bvar * Z); ad_curve : curve }.

(** A clause given as a dict; later values of a key replace earlier ones and keep its place. *)
Definition clause_of (l : list (bvar * bool)) : list (bvar * bool) :=
  fold_left (fun d vb => dset bvar_eqb d (fst vb) (snd vb)) l [].
(** _sat_adapters.py:148-158  [_append_clause] *)
Definition token_step (st : list (bvar * Z) * list Z) (vb : bvar * bool) : list (bvar * Z) * list Z :=
  let '(nos, toks) := st in
  let nos' := match dget bvar_eqb nos (fst vb) with
              | Some _ => nos
              | None => nos ++ [(fst vb, (1 + Z.of_nat (length nos))%Z)]
              end in
  let n := match dget bvar_eqb nos' (fst vb) with Some n => n | None => 0%Z end in
  (nos', toks ++ [if snd vb then n else (- n)%Z]).
(** _sat_adapters.py:148-158  (part of) *)
Definition append_clause (a : adapter) (clause : list (bvar * bool)) : adapter :=
  let r := fold_left token_step clause (ad_var_no a, []) in
  AD (ad_clauses a ++ [snd r]) (ad_curve_vars a) (fst r) (ad_curve a).
(** _sat_adapters.py:148-158  (part of) *)
Definition append_clauses (a : adapter) (cls : list (list (bvar * bool))) : adapter := fold_left append_clause cls a.

(** itertools.combinations(l, 2) *)
Fixpoint pairs_of {A} (l : list A) : list (A * A) :=
  match l with [] => [] | x :: l' => map (pair x) l' ++ pairs_of l' end.
(** _sat_adapters.py:90-96  [_make_only] *)
Definition make_only (a : adapter) (vars : list bvar) : adapter :=
  append_clauses a (clause_of (map (fun v => (v, true)) vars) ::
                    map (fun vv => clause_of [(fst vv, false); (snd vv, false)]) (pairs_of vars)).
(** _sat_adapters.py:98-118  [_make_curve_var] *)
Definition make_curve_var (a : adapter) (c : curve) : adapter * bvar :=
  let z := curve_var c in
  if memb bvar_eqb z (ad_curve_vars a) then (a, z)
  else
    let info := gen_defined_specs c in
    let a1 := append_clauses a (map (fun x => clause_of [(z, false); (spec_var x, true)]) info) in
    let a2 := append_clause a1 (clause_of (map (fun x => (spec_var x, false)) info ++ [(z, true)])) in
    (AD (ad_clauses a2) (ad_curve_vars a2 ++ [z]) (ad_var_no a2) (ad_curve a2), z).
(** _sat_adapters.py:120-138  [_make_junc_var] *)
Definition make_junc_var (a : adapter) (j : junction) (cs : list curve) : adapter :=
  let '(a1, cvs) := fold_left (fun st c => let '(a', z) := make_curve_var (fst st) c in (a', snd st ++ [z])) cs (a, []) in
  append_clauses a1 (clause_of (map (fun v => (v, true)) cvs ++ [(VJunc j, false)]) ::
                     map (fun v => clause_of [(v, false); (VJunc j, true)]) cvs).
(** _sat_adapters.py:140-146  [add_forbid_clause] *)
Definition add_forbid (a : adapter) (j : junction) (c : curve) : adapter :=
  append_clause a (clause_of (map (fun x => (spec_var x, false)) (gen_defined_specs c) ++ [(VJunc j, false)])).
(** _sat_adapters.py:37-66  [__init__] with a curve, [_load_curve]; [fuel] bounds get_junction_templates *)
Definition ad_load (fuel : nat) (c : curve) : option adapter :=
  match omap (fun pc => option_map (map (VSpec (fst pc) (snd pc))) (gen_allowed_specs c (fst pc) (snd pc)))
             (list_prod (range (cv_mult c)) (range (cv_genus c))), get_junction_templates fuel c with
  | Some vars, Some tmpl =>
      let a1 := fold_left make_only vars (AD [] [] [] c) in
      let a2 := append_clauses a1 (map (fun j => clause_of [(VJunc j, true)]) (gen_auto_junctions c)) in
      Some (fold_left (fun a e => make_junc_var a (fst e) (snd e)) tmpl a2)
  | _, _ => None
  end.
(** _sat_adapters.py:68-73  [_copy_from]: an equal adapter (values of the model are not shared) *)
Definition ad_copy (a : adapter) : adapter := AD (ad_clauses a) (ad_curve_vars a) (ad_var_no a) (ad_curve a).

(** _sat_adapters.py:169-176  [solve] and the solver's [get_model]. The solver (Glucose3 of pysat) is a parameter: the answer may
    depend on the number of the call; [None]: unsatisfiable, [Some m]: satisfiable and get_model() is m. *)
Definition sat_solver : Type := nat -> list (list Z) -> option (list Z).
(** _sat_adapters.py:169-176  (part of) *)
Definition ad_solve (solver : sat_solver) (call : nat) (a : adapter) : option (list Z) := solver call (ad_clauses a).
(** _sat_adapters.py:178-189  [_get_model]; KeyError is None *)
Definition get_model (a : adapter) (int_model : list Z) : option (list (bvar * bool)) :=
  let no_var := map (fun vn => (snd vn, fst vn)) (ad_var_no a) in
  fold_left (fun acc tok => obind acc (fun m =>
      option_map (fun v => dset bvar_eqb m v (0 <? tok)%Z) (dget Z.eqb no_var (Z.abs tok)))) int_model (Some []).
(** _sat_adapters.py:191-219  [get_model_curve]; ValueError is None. The result has pnum 0. *)
Definition allowed_by_model (m : list (bvar * bool)) (p k : nat) (s : spec) : bool :=
  match dget bvar_eqb m (VSpec p k s) with Some b => b | None => true end.
(** _sat_adapters.py:191-219  (part of) *)
Definition get_model_curve (a : adapter) (int_model : list Z) : option curve :=
  let c := ad_curve a in
  match get_model a int_model with
  | None => None
  | Some m =>
      match omap (fun pc => obind (gen_allowed_specs c (fst pc) (snd pc)) (fun l => find (allowed_by_model m (fst pc) (snd pc)) l))
                 (list_prod (range (cv_mult c)) (range (cv_genus c))) with
      | None => None
      | Some specs =>
          let G := cv_genus c in
          Some (Cv (cv_dim c) (cv_div c)
                   (map (fun pp => Pat (pat_proto (snd pp)) (map Some (slice specs (fst pp * G) ((fst pp + 1) * G)))) (enumerate (cv_pats c)))
                   0 KCurve)
      end
  end.
