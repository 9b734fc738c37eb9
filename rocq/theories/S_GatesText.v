(** Specification of the text form of fractions and points. *)
From Verif Require Import Py L_Qc M_Text M_Subsets.
From Coq Require Import QArith Qcanon.
Local Open Scope nat_scope.

(** a decimal number: one or more digits, the last one has the lowest value *)
Inductive number : text -> N -> Prop :=
| number_one k : k < 10 -> number [ascii_of_nat (48 + k)] (N.of_nat k)
| number_more t n k : number t n -> k < 10 -> number (t ++ [ascii_of_nat (48 + k)]) (10 * n + N.of_nat k)%N.
(** an optional sign; true for minus *)
Inductive sign : text -> bool -> Prop :=
| sign_none : sign [] false
| sign_plus : sign ["+"%char] false
| sign_minus : sign ["-"%char] true.
Definition spaces (t : text) : Prop := Forall (fun c => is_space c = true) t.
(** The text [t] denotes the fraction q: spaces, a sign, a number, perhaps a slash and another number, spaces. *)
Definition denotes (t : text) (q : Qc) : Prop :=
  exists s1 sg neg num n rest m s2, t = s1 ++ sg ++ num ++ rest ++ s2 /\ spaces s1 /\ spaces s2 /\ sign sg neg /\ number num n /\
    ((rest = [] /\ m = 1%positive) \/ exists den, rest = "/"%char :: den /\ number den (Npos m)) /\
    q = Q2Qc ((if neg then (- Z.of_N n)%Z else Z.of_N n) # m).
(** words with commas between them *)
Inductive comma_separated : text -> list text -> Prop :=
| cs_one w : comma_separated w [w]
| cs_more w t ws : comma_separated t ws -> comma_separated (w ++ ","%char :: t) (w :: ws).
(** The text [t] denotes the point p: fractions separated by commas, in parentheses, with spaces around. *)
Definition denotes_point (t : text) (p : list Qc) : Prop :=
  exists s1 inner ws s2, t = s1 ++ ["("%char] ++ inner ++ [")"%char] ++ s2 /\ spaces s1 /\ spaces s2 /\ comma_separated inner ws /\ Forall2 denotes ws p.
(** The text [t] denotes the pair of points l *)
Definition denotes_gates (t : text) (l : plink) : Prop :=
  exists t1 t2, t = t1 ++ ["-"; ">"]%char ++ t2 /\ denotes_point t1 (entrance l) /\ denotes_point t2 (exit l).
