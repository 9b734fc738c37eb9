(** What a printed curve looks like. *)
From Verif Require Import Py M_Text M_GatesText.
Local Open Scope nat_scope.

(** The line of pattern number p with the given chain code and the given list of specs: "@p: chain | specs". *)
Definition printed_line (p : nat) (chain specs : text) : text := ["@"%char] ++ dec p ++ [":"; " "]%char ++ chain ++ [" "; "|"; " "]%char ++ specs.
(** The lines of the patterns p, p+1, ..., with a line break between them. *)
Inductive printed : nat -> list (text * text) -> text -> Prop :=
| printed_one p chain specs : printed p [(chain, specs)] (printed_line p chain specs)
| printed_more p chain specs ps t : printed (S p) ps t -> printed p ((chain, specs) :: ps) (printed_line p chain specs ++ newline :: t).
(** Texts without line breaks and bars. *)
Definition one_field (t : text) : Prop := ~ In newline t /\ ~ In "|"%char t.
