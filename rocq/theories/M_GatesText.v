(** Model of the text format of points and gates (subsets.py) and of the files of gates (search.py). *)
From Verif Require Export Py M_Text M_Subsets.
Local Open Scope nat_scope.

(** str.split(sep), sep one character *)
Fixpoint split_on (sep : ascii) (t : text) : list text :=
  match t with
  | [] => [[]]
  | c :: t' => if Ascii.eqb c sep then [] :: split_on sep t'
               else match split_on sep t' with w :: ws => (c :: w) :: ws | [] => [[c]] end
  end.
(** str.split('->') *)
Fixpoint split_arrow (t : text) : list text :=
  match t with
  | [] => [[]]
  | c :: t' =>
      match t' with
      | c' :: t'' => if Ascii.eqb c "-"%char && Ascii.eqb c' ">"%char then [] :: split_arrow t''
                     else match split_arrow t' with w :: ws => (c :: w) :: ws | [] => [[c]] end
      | [] => [[c]]
      end
  end.
(** sep.join(parts) *)
Fixpoint join (sep : text) (parts : list text) : text :=
  match parts with
  | [] => []
  | [w] => w
  | w :: parts' => w ++ sep ++ join sep parts'
  end.

(** str(Fraction) (library): numerator, and the denominator unless it is 1 *)
Definition frac_str (q : Qc) : text :=
  let n := Qnum (this q) in
  (if (n <? 0)%Z then ["-"%char] else []) ++ dec (Z.to_nat (Z.abs n)) ++
  (if Pos.eqb (Qden (this q)) 1 then [] else "/"%char :: dec (Pos.to_nat (Qden (this q)))).
(** value of a digit *)
Definition digit_val (c : ascii) : N := (N_of_ascii c - 48)%N.
(** the digits of a number in the text form of a Fraction (library); ValueError is None *)
Definition digits_val (t : text) : option N :=
  match t with
  | [] => None
  | _ => if forallb is_digit t then Some (fold_left (fun acc c => (10 * acc + digit_val c)%N) t 0%N) else None
  end.
(** Fraction(token) (library): spaces, sign, digits, and optionally a slash and digits. ValueError and ZeroDivisionError
    are None. Simplification: the decimal point, exponents, underscores between digits and spaces around the slash, which
    the library accepts too, are errors here. *)
Definition frac_parse (t : text) : option Qc :=
  let t := strip is_space t in
  let '(neg, t) := match t with
    | c :: t' => if Ascii.eqb c "-"%char then (true, t') else if Ascii.eqb c "+"%char then (false, t') else (false, t)
    | [] => (false, t)
    end in
  let sg (n : N) : Z := if neg then (- Z.of_N n)%Z else Z.of_N n in
  match split_on "/"%char t with
  | [num] => option_map (fun n => Zq (sg n)) (digits_val num)
  | [num; den] =>
      match digits_val num, digits_val den with
      | Some n, Some (Npos m) => Some (Q2Qc (sg n # m))
      | _, _ => None
      end
  | _ => None
  end.

(** characters removed by str.strip('()') *)
Definition is_paren (c : ascii) : bool := Ascii.eqb c "("%char || Ascii.eqb c ")"%char.
(** subsets.py:123-124  [Point.__str__] *)
Definition point_str (p : list Qc) : text := ["("%char] ++ join [","%char] (map frac_str p) ++ [")"%char].
(** subsets.py:126-130  [Point.parse] *)
Definition point_parse (t : text) : option (list Qc) := omap frac_parse (split_on ","%char (strip is_paren (strip is_space t))).

(** the characters of ' -> ' *)
Definition arrow_text : text := [" "; "-"; ">"; " "]%char.
(** the characters of ' | ' *)
Definition bar_text : text := [" "; "|"; " "]%char.
(** subsets.py:352-353  [Link.__str__], for links of points *)
Definition plink_str (l : plink) : text := point_str (entrance l) ++ arrow_text ++ point_str (exit l).
(** subsets.py:367-372  [Link.parse_gates]; AssertionError is None *)
Definition parse_gates (t : text) : option plink :=
  match omap point_parse (split_arrow t) with
  | Some [e; x] => Some (Lk e x)
  | _ => None
  end.

(** the line feed *)
Definition newline : ascii := ascii_of_nat 10.
(** search.py:37-38  one line of the output of --output-gates *)
Definition gates_line (gates : list plink) : text := join bar_text (map plink_str gates).
(** search.py:36-38  the output of --output-gates *)
Definition gates_output (gate_list : list (list plink)) : text := concat (map (fun gates => gates_line gates ++ [newline]) gate_list).
(** iteration over the lines of a text file (Python builtin); the line end is removed here (line.strip() removes it
    otherwise). Simplification: only the line feed ends a line (carriage returns are not translated). *)
Definition file_lines (t : text) : list text :=
  match rev (split_on newline t) with
  | [] :: ls => rev ls
  | ls => rev ls
  end.
(** search.py:158, search.py:164  a tuple of gates *)
Definition parse_gates_line (t : text) : option (list plink) := omap parse_gates (split_on "|"%char (strip is_space t)).
(** search.py:155-160  --gates-file *)
Definition parse_gates_file (t : text) : option (list (list plink)) := omap parse_gates_line (file_lines t).
