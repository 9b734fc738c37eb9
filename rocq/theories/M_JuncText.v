(** Model of the text of junctions (/repo/peano/curves.py:781-782; definitions only). *)
From Verif Require Export Py M_Text M_BaseMaps M_Curves M_GatesText.
Local Open Scope nat_scope.

(** str(int) (Python builtin), also of negative integers *)
Definition int_str (z : Z) : text := (if (z <? 0)%Z then ["-"%char] else []) ++ dec (Z.to_nat (Z.abs z)).
(** str(tuple) for a tuple of integers (Python builtin): a tuple of one item has a comma after the item *)
Definition tuple_inner (l : list Z) : text :=
  match l with
  | [z] => int_str z ++ [","%char]
  | _ => join [","; " "]%char (map int_str l)
  end.
(** str(tuple) (Python builtin) *)
Definition tuple_str (l : list Z) : text := ["("%char] ++ tuple_inner l ++ [")"%char].
(** curves.py:781-782  [Junction.__str__] *)
Definition junc_str (j : junction) : option text :=
  match spec_str (j_spec1 j), spec_str (j_spec2 j) with
  | Some a, Some b => Some (a ++ [" "; "|"; " "; "d"; "x"; "="]%char ++ tuple_str (j_dx j) ++ [","; " "; "d"; "t"; "="]%char ++ int_str (j_dt j) ++ [" "; "|"; " "]%char ++ b)
  | _, _ => None
  end.
