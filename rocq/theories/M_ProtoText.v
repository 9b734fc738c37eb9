(** Text format of prototypes as objects (definitions only); the algorithms are in M_Text.v. *)
From Verif Require Export M_Text M_Paths.
Local Open Scope nat_scope.

(** paths.py:89-100  [Proto.__str__]; a None among the cubes is a TypeError (a single None is not, here it is). *)
Definition pr_str (p : proto) : option text := option_map proto_str (omap (fun c => c) (pr_cubes p)).
(** paths.py:52-87  [Proto.parse]; div is positive, so it is a natural number. *)
Definition pr_parse (t : text) : option proto :=
  option_map (fun r => Pr (fst (fst r)) (Z.to_nat (snd (fst r))) (map Some (snd r))) (proto_parse t).
