(** Model of the text of patterns and curves (curves.py), as printed by search.py (definitions only). *)
From Verif Require Export M_Text M_ProtoText M_GatesText M_Curves M_Zoo.
Local Open Scope nat_scope.

(** str(spec) for an entry of specs (base_maps.py, see [spec_str]); an undefined spec is printed as None. *)
Definition spec_text (os : option spec) : option text :=
  match os with Some s => spec_str s | None => Some ["N"; "o"; "n"; "e"]%char end.
(** curves.py:53-54  [Pattern.__str__]. *)
Definition pattern_str (p : pattern) : option text :=
  match pr_str (pat_proto p), omap spec_text (pat_specs p) with
  | Some chain, Some specs => Some (chain ++ [" "; "|"; " "]%char ++ join [","%char] specs)
  | _, _ => None
  end.
(** curves.py:115-116  [FuzzyCurve.__str__]. *)
Definition curve_str (c : curve) : option text :=
  option_map (join [newline])
    (omap (fun np => option_map (fun t => ["@"%char] ++ dec (fst np) ++ [":"; " "]%char ++ t) (pattern_str (snd np))) (enumerate (cv_pats c))).
