(** Model of the text formats: BaseMap/Spec/Proto parse and str (definitions only).
    A Python str is modelled as a list of ASCII characters; non-ASCII text is not modelled. *)
From Verif Require Export Py M_BaseMaps.
From Coq Require Export Ascii.
Local Open Scope nat_scope.

(** a str: the list of its characters *)
Definition text := list ascii.
(** code point between two bounds (helper of the tests below) *)
Definition ascii_ltb_between (lo hi : nat) (c : ascii) : bool :=
  let n := nat_of_ascii c in Nat.leb lo n && Nat.leb n hi.
(** str.isspace on ASCII: 9-13, 28-31, 32. *)
Definition is_space (c : ascii) : bool :=
  ascii_ltb_between 9 13 c || ascii_ltb_between 28 32 c.
(** str.isupper on ASCII letters *)
Definition is_upper (c : ascii) : bool := ascii_ltb_between 65 90 c.
(** str.islower on ASCII letters *)
Definition is_lower (c : ascii) : bool := ascii_ltb_between 97 122 c.
(** str.isdigit on ASCII *)
Definition is_digit (c : ascii) : bool := ascii_ltb_between 48 57 c.
(** re [\w] on ASCII. *)
Definition is_word (c : ascii) : bool := is_upper c || is_lower c || is_digit c || Ascii.eqb c "_"%char.
(** str.lower on ASCII *)
Definition lower (c : ascii) : ascii := if is_upper c then ascii_of_nat (nat_of_ascii c + 32) else c.
(** str.upper on ASCII *)
Definition upper (c : ascii) : ascii := if is_lower c then ascii_of_nat (nat_of_ascii c - 32) else c.

(** str.lstrip() *)
Fixpoint lstrip (p : ascii -> bool) (t : text) : text :=
  match t with [] => [] | c :: t' => if p c then lstrip p t' else t end.
(** str.strip() *)
Definition strip (p : ascii -> bool) (t : text) : text := rev (lstrip p (rev (lstrip p t))).

(** utils.py:14  BASIS_LETTERS = 'ijklmn'. *)
Definition basis_letters : text := ["i"; "j"; "k"; "l"; "m"; "n"]%char.
(** base_maps.py:99, paths.py:70  [l2i = {l: i for i, l in enumerate(BASIS_LETTERS)}]; KeyError is None. *)
Fixpoint index_of (c : ascii) (t : text) : option nat :=
  match t with [] => None | c' :: t' => if Ascii.eqb c c' then Some 0 else option_map S (index_of c t') end.
(** base_maps.py:99, paths.py:70  (part of) *)
Definition l2i (c : ascii) : option nat := index_of c basis_letters.

(** base_maps.py:100-105  the loop filling [cmap]. *)
Fixpoint bm_parse_loop (kls : list (nat * ascii)) (cmap : list (nat * coord)) : option (list (nat * coord)) :=
  match kls with
  | [] => Some cmap
  | (k, l) :: kls' =>
      match l2i (lower l) with
      | Some i => bm_parse_loop kls' (dset Nat.eqb cmap i (k, negb (Ascii.eqb l (lower l))))
      | None => None
      end
  end.

(** base_maps.py:89-95  split off the time reversal mark; IndexError on empty text. *)
Definition bm_split (t : text) : option (text * bool) :=
  match rev (strip is_space t) with
  | [] => None
  | c :: r => if Ascii.eqb c "~"%char then Some (rev r, true) else Some (strip is_space t, false)
  end.

(** base_maps.py:75-108  [BaseMap.parse]. *)
Definition bm_parse (t : text) : option base_map :=
  match bm_split t with
  | None => None
  | Some (basis, tr) =>
      if Nat.leb (length basis) (length basis_letters) then
        match bm_parse_loop (enumerate basis) [] with
        | None => None
        | Some cmap =>
            match omap (dget Nat.eqb cmap) (range (length cmap)) with
            | Some cs => Some (BM cs tr)
            | None => None
            end
        end
      else None
  end.

(** base_maps.py:120-125  [BaseMap.__str__]: [basis[k] = img.upper() if b else img];
    IndexError for i >= 6 and TypeError for a missing entry are None. *)
Definition bm_str_basis (b : base_map) : option (list (option ascii)) :=
  fold_left (fun (acc : option (list (option ascii))) (ikb : nat * coord) =>
     match acc, nth_error basis_letters (fst ikb) with
     | Some bs, Some img => Some (upd (fst (snd ikb)) (Some (if snd (snd ikb) then upper img else img)) bs)
     | _, _ => None
     end) (enumerate (coords b)) (Some (repeat None (bm_dim b))).
(** base_maps.py:120-125  (part of) *)
Definition bm_str (b : base_map) : option text :=
  match bm_str_basis b with
  | None => None
  | Some bs => match omap (fun x => x) bs with
               | None => None
               | Some t => Some (t ++ if time_rev b then ["~"%char] else [])
               end
  end.

(** decimal representation of a non-negative integer, Python [str(int)]. *)
Definition digit (n : nat) : ascii := ascii_of_nat (48 + n).
(** str(int): the digits (Python builtin) *)
Fixpoint dec_aux (fuel n : nat) (acc : text) : text :=
  match fuel with
  | 0 => acc
  | S f => if Nat.ltb n 10 then digit n :: acc else dec_aux f (n / 10) (digit (n mod 10) :: acc)
  end.
(** str(int) (Python builtin) *)
Definition dec (n : nat) : text := dec_aux (S n) n [].

(** base_maps.py:309-318  [Spec.parse]; IndexError on empty text is None. *)
Definition spec_parse (t : text) : option spec :=
  match t with
  | [] => None
  | c :: t' =>
      if is_digit c then option_map (fun b => Sp b (nat_of_ascii c - 48)) (bm_parse t')
      else option_map (fun b => Sp b 0) (bm_parse t)
  end.
(** base_maps.py:320-321  [Spec.__str__]. *)
Definition spec_str (s : spec) : option text :=
  option_map (fun t => dec (sp_pnum s) ++ t) (bm_str (sp_bm s)).

(** paths.py:67  [re.findall('\w|\(\w+\)', code)] followed by [grp.strip('()')]: at each position a word
    character is a group by itself; an opening parenthesis followed by one or more word characters and a
    closing one is a group; any other character is skipped. *)
Fixpoint take_word (t : text) : text * text :=
  match t with
  | c :: t' => if is_word c then let (w, r) := take_word t' in (c :: w, r) else ([], t)
  | [] => ([], [])
  end.
(** paths.py:67  (part of) *)
Fixpoint findall_fuel (fuel : nat) (t : text) : list text :=
  match fuel with
  | 0 => []
  | S f =>
      match t with
      | [] => []
      | c :: t' =>
          if is_word c then [c] :: findall_fuel f t'
          else if Ascii.eqb c "("%char then
            match take_word t' with
            | (x :: w, y :: r) => if Ascii.eqb y ")"%char then (x :: w) :: findall_fuel f r else findall_fuel f t'
            | _ => findall_fuel f t'
            end
          else findall_fuel f t'
      end
  end.
(** every step consumes a character, so [length t] steps suffice *)
Definition chain_groups (t : text) : list text := findall_fuel (length t) t.

(** paths.py:74-77  [delta]; KeyError (unknown letter) and IndexError (i >= dim) are None. *)
Fixpoint delta_of (dim : nat) (bases : text) (delta : list Z) : option (list Z) :=
  match bases with
  | [] => Some delta
  | c :: bases' =>
      match l2i (lower c) with
      | Some i => if Nat.ltb i dim then delta_of dim bases' (upd i (if is_lower c then 1 else -1)%Z delta) else None
      | None => None
      end
  end.
(** paths.py:70-85  componentwise sum *)
Definition vadd (x y : list Z) : list Z := map (fun p => (fst p + snd p)%Z) (combine x y).
(** paths.py:89-100  componentwise difference *)
Definition vsub (x y : list Z) : list Z := map (fun p => (fst p - snd p)%Z) (combine x y).
(** paths.py:72-80 *)
Fixpoint chain_cubes (dim : nat) (cur : list Z) (grps : list text) : option (list (list Z)) :=
  match grps with
  | [] => Some [cur]
  | g :: grps' =>
      match delta_of dim g (repeat 0%Z dim) with
      | Some dl => option_map (cons cur) (chain_cubes dim (vadd cur dl) grps')
      | None => None
      end
  end.
(** paths.py:52-87  [Proto.parse]: result (dim, div, cubes). *)
Definition proto_parse (t : text) : option (nat * Z * list (list Z)) :=
  let grps := chain_groups t in
  let dim := length (dedup Ascii.eqb (map lower (concat grps))) in
  if Nat.leb dim (length basis_letters) then
    match chain_cubes dim (repeat 0%Z dim) grps with
    | None => None
    | Some cubes =>
        match min_list (lex Z.compare) cubes with
        | None => None
        | Some mn =>
            let cubes' := map (fun c => vsub c mn) cubes in
            match concat cubes' with
            | [] => None   (* max() of an empty sequence: ValueError *)
            | x :: xs => Some (dim, (1 + fold_left Z.max xs x)%Z, cubes')
            end
        end
    end
  else None.

(** paths.py:89-100  [Proto.__str__] for prototypes without None. *)
Definition delta_bases (delta : list Z) : text :=
  flat_map (fun xl => if (fst xl =? 1)%Z then [snd xl] else if (fst xl =? -1)%Z then [upper (snd xl)] else [])
           (combine delta basis_letters).
(** paths.py:89-100  (part of) *)
Definition step_str (c c' : list Z) : text :=
  match delta_bases (vsub c' c) with
  | [x] => [x]
  | bs => "("%char :: bs ++ [")"%char]
  end.
(** paths.py:89-100  (part of) *)
Fixpoint proto_str (cubes : list (list Z)) : text :=
  match cubes with
  | c :: ((c' :: _) as rest) => step_str c c' ++ proto_str rest
  | _ => []
  end.
