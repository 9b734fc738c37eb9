(** Curves of every case of YE-proof.py, used to show that the classes are not empty. *)
From Verif Require Import Py M_BaseMaps M_Subsets M_Paths M_Curves.
Local Open Scope nat_scope.
(** an example curve, not in /repo *)
Definition curve4 : curve :=
  Cv 2 4 [Pat (Pr 2 4 [Some [0; 0]%Z; Some [1; 0]%Z; Some [2; 0]%Z; Some [2; 1]%Z; Some [1; 1]%Z; Some [0; 1]%Z; Some [0; 2]%Z; Some 
  [0; 3]%Z; Some [1; 3]%Z; Some [1; 2]%Z; Some [2; 2]%Z; Some [2; 3]%Z; Some [3; 3]%Z; Some [3; 2]%Z; Some [3; 1]%Z; Some [3; 0]%Z]) 
  [Some (Sp (BM [(0, false); (1, false)] false) 0); Some (Sp (BM [(0, false); (1, false)] false) 0); Some (Sp (BM [(1, false); (0, 
  false)] false) 0); Some (Sp (BM [(1, false); (0, false)] false) 0); Some (Sp (BM [(0, false); (1, true)] true) 0); Some (Sp (BM 
  [(0, false); (1, true)] true) 0); Some (Sp (BM [(1, false); (0, false)] false) 0); Some (Sp (BM [(0, false); (1, false)] false) 
  0); Some (Sp (BM [(0, false); (1, false)] false) 0); Some (Sp (BM [(1, true); (0, false)] true) 0); Some (Sp (BM [(1, false); (0, 
  false)] false) 0); Some (Sp (BM [(0, false); (1, false)] false) 0); Some (Sp (BM [(0, false); (1, false)] false) 0); Some (Sp (BM 
  [(1, true); (0, false)] true) 0); Some (Sp (BM [(1, true); (0, false)] true) 0); Some (Sp (BM [(1, true); (0, false)] true) 0)]] 0 
  KCurve.
(** an example curve, not in /repo *)
Definition side6 : curve :=
  Cv 2 6 [Pat (Pr 2 6 [Some [0; 0]%Z; Some [1; 0]%Z; Some [2; 0]%Z; Some [3; 0]%Z; Some [4; 0]%Z; Some [4; 1]%Z; Some [3; 1]%Z; Some 
  [2; 1]%Z; Some [1; 1]%Z; Some [0; 1]%Z; Some [0; 2]%Z; Some [1; 2]%Z; Some [2; 2]%Z; Some [3; 2]%Z; Some [4; 2]%Z; Some [4; 3]%Z; 
  Some [3; 3]%Z; Some [2; 3]%Z; Some [1; 3]%Z; Some [0; 3]%Z; Some [0; 4]%Z; Some [0; 5]%Z; Some [1; 5]%Z; Some [1; 4]%Z; Some [2; 
  4]%Z; Some [2; 5]%Z; Some [3; 5]%Z; Some [3; 4]%Z; Some [4; 4]%Z; Some [4; 5]%Z; Some [5; 5]%Z; Some [5; 4]%Z; Some [5; 3]%Z; Some 
  [5; 2]%Z; Some [5; 1]%Z; Some [5; 0]%Z]) [Some (Sp (BM [(0, false); (1, false)] false) 0); Some (Sp (BM [(0, false); (1, false)] 
  false) 0); Some (Sp (BM [(0, false); (1, false)] false) 0); Some (Sp (BM [(0, false); (1, false)] false) 0); Some (Sp (BM [(1, 
  false); (0, false)] false) 0); Some (Sp (BM [(1, false); (0, false)] false) 0); Some (Sp (BM [(0, false); (1, true)] true) 0); 
  Some (Sp (BM [(0, false); (1, true)] true) 0); Some (Sp (BM [(0, false); (1, true)] true) 0); Some (Sp (BM [(0, false); (1, true)] 
  true) 0); Some (Sp (BM [(0, false); (1, false)] false) 0); Some (Sp (BM [(0, false); (1, false)] false) 0); Some (Sp (BM [(0, 
  false); (1, false)] false) 0); Some (Sp (BM [(0, false); (1, false)] false) 0); Some (Sp (BM [(1, false); (0, false)] false) 0); 
  Some (Sp (BM [(1, false); (0, false)] false) 0); Some (Sp (BM [(0, false); (1, true)] true) 0); Some (Sp (BM [(0, false); (1, 
  true)] true) 0); Some (Sp (BM [(0, false); (1, true)] true) 0); Some (Sp (BM [(0, false); (1, true)] true) 0); Some (Sp (BM [(1, 
  false); (0, false)] false) 0); Some (Sp (BM [(0, false); (1, false)] false) 0); Some (Sp (BM [(0, false); (1, false)] false) 0); 
  Some (Sp (BM [(1, true); (0, false)] true) 0); Some (Sp (BM [(1, false); (0, false)] false) 0); Some (Sp (BM [(0, false); (1, 
  false)] false) 0); Some (Sp (BM [(0, false); (1, false)] false) 0); Some (Sp (BM [(1, true); (0, false)] true) 0); Some (Sp (BM 
  [(1, false); (0, false)] false) 0); Some (Sp (BM [(0, false); (1, false)] false) 0); Some (Sp (BM [(0, false); (1, false)] false) 
  0); Some (Sp (BM [(1, true); (0, false)] true) 0); Some (Sp (BM [(1, true); (0, false)] true) 0); Some (Sp (BM [(1, true); (0, 
  false)] true) 0); Some (Sp (BM [(1, true); (0, false)] true) 0); Some (Sp (BM [(1, true); (0, false)] true) 0)]] 0 KCurve.
(** an example curve, not in /repo *)
Definition median6 : curve :=
  Cv 2 6 [Pat (Pr 2 6 [Some [0; 0]%Z; Some [1; 0]%Z; Some [2; 0]%Z; Some [3; 0]%Z; Some [4; 0]%Z; Some [5; 0]%Z; Some [5; 1]%Z; Some 
  [4; 1]%Z; Some [3; 1]%Z; Some [2; 1]%Z; Some [1; 1]%Z; Some [0; 1]%Z; Some [0; 2]%Z; Some [1; 2]%Z; Some [2; 2]%Z; Some [3; 2]%Z; 
  Some [3; 3]%Z; Some [2; 3]%Z; Some [1; 3]%Z; Some [0; 3]%Z; Some [0; 4]%Z; Some [0; 5]%Z; Some [1; 5]%Z; Some [1; 4]%Z; Some [2; 
  4]%Z; Some [2; 5]%Z; Some [3; 5]%Z; Some [3; 4]%Z; Some [4; 4]%Z; Some [4; 5]%Z; Some [5; 5]%Z; Some [5; 4]%Z; Some [5; 3]%Z; Some 
  [4; 3]%Z; Some [4; 2]%Z; Some [5; 2]%Z]) [Some (Sp (BM [(0, false); (1, false)] false) 0); Some (Sp (BM [(0, true); (1, false)] 
  true) 0); Some (Sp (BM [(0, false); (1, false)] false) 0); Some (Sp (BM [(0, true); (1, false)] true) 0); Some (Sp (BM [(0, 
  false); (1, false)] false) 0); Some (Sp (BM [(0, true); (1, true)] true) 0); Some (Sp (BM [(0, true); (1, false)] false) 0); Some 
  (Sp (BM [(0, false); (1, false)] true) 0); Some (Sp (BM [(0, true); (1, false)] false) 0); Some (Sp (BM [(0, false); (1, false)] 
  true) 0); Some (Sp (BM [(0, true); (1, false)] false) 0); Some (Sp (BM [(0, false); (1, true)] true) 0); Some (Sp (BM [(0, false); 
  (1, false)] false) 0); Some (Sp (BM [(0, true); (1, false)] true) 0); Some (Sp (BM [(0, false); (1, false)] false) 0); Some (Sp 
  (BM [(0, true); (1, true)] true) 0); Some (Sp (BM [(0, true); (1, false)] false) 0); Some (Sp (BM [(0, false); (1, false)] true) 
  0); Some (Sp (BM [(0, true); (1, false)] false) 0); Some (Sp (BM [(0, false); (1, true)] true) 0); Some (Sp (BM [(1, false); (0, 
  false)] false) 0); Some (Sp (BM [(1, true); (0, true)] true) 0); Some (Sp (BM [(1, false); (0, true)] false) 0); Some (Sp (BM [(1, 
  true); (0, false)] true) 0); Some (Sp (BM [(1, false); (0, false)] false) 0); Some (Sp (BM [(1, true); (0, true)] true) 0); Some 
  (Sp (BM [(1, false); (0, true)] false) 0); Some (Sp (BM [(1, true); (0, false)] true) 0); Some (Sp (BM [(1, false); (0, false)] 
  false) 0); Some (Sp (BM [(1, true); (0, true)] true) 0); Some (Sp (BM [(1, false); (0, true)] false) 0); Some (Sp (BM [(1, true); 
  (0, false)] true) 0); Some (Sp (BM [(0, true); (1, true)] false) 0); Some (Sp (BM [(0, false); (1, false)] true) 0); Some (Sp (BM 
  [(0, false); (1, true)] false) 0); Some (Sp (BM [(0, true); (1, true)] true) 0)]] 0 KCurve.
(** an example curve, not in /repo *)
Definition diag5 : curve :=
  Cv 2 5 [Pat (Pr 2 5 [Some [0; 0]%Z; Some [1; 0]%Z; Some [2; 0]%Z; Some [3; 0]%Z; Some [4; 0]%Z; Some [4; 1]%Z; Some [3; 1]%Z; Some 
  [2; 1]%Z; Some [1; 1]%Z; Some [0; 1]%Z; Some [0; 2]%Z; Some [1; 2]%Z; Some [2; 2]%Z; Some [3; 2]%Z; Some [4; 2]%Z; Some [4; 3]%Z; 
  Some [3; 3]%Z; Some [2; 3]%Z; Some [1; 3]%Z; Some [0; 3]%Z; Some [0; 4]%Z; Some [1; 4]%Z; Some [2; 4]%Z; Some [3; 4]%Z; Some [4; 
  4]%Z]) [Some (Sp (BM [(0, false); (1, false)] false) 0); Some (Sp (BM [(0, false); (1, true)] false) 0); Some (Sp (BM [(0, false); 
  (1, false)] false) 0); Some (Sp (BM [(0, false); (1, true)] false) 0); Some (Sp (BM [(0, false); (1, false)] false) 0); Some (Sp 
  (BM [(0, false); (1, true)] true) 0); Some (Sp (BM [(0, false); (1, false)] true) 0); Some (Sp (BM [(0, false); (1, true)] true) 
  0); Some (Sp (BM [(0, false); (1, false)] true) 0); Some (Sp (BM [(0, false); (1, true)] true) 0); Some (Sp (BM [(0, false); (1, 
  false)] false) 0); Some (Sp (BM [(0, false); (1, true)] false) 0); Some (Sp (BM [(0, false); (1, false)] false) 0); Some (Sp (BM 
  [(0, false); (1, true)] false) 0); Some (Sp (BM [(0, false); (1, false)] false) 0); Some (Sp (BM [(0, false); (1, true)] true) 0); 
  Some (Sp (BM [(0, false); (1, false)] true) 0); Some (Sp (BM [(0, false); (1, true)] true) 0); Some (Sp (BM [(0, false); (1, 
  false)] true) 0); Some (Sp (BM [(0, false); (1, true)] true) 0); Some (Sp (BM [(0, false); (1, false)] false) 0); Some (Sp (BM 
  [(0, false); (1, true)] false) 0); Some (Sp (BM [(0, false); (1, false)] false) 0); Some (Sp (BM [(0, false); (1, true)] false) 
  0); Some (Sp (BM [(0, false); (1, false)] false) 0)]] 0 KCurve.
(** an example curve, not in /repo *)
Definition median5 : curve :=
  Cv 2 5 [Pat (Pr 2 5 [Some [0; 0]%Z; Some [1; 0]%Z; Some [2; 0]%Z; Some [3; 0]%Z; Some [4; 0]%Z; Some [4; 1]%Z; Some [3; 1]%Z; Some 
  [2; 1]%Z; Some [1; 1]%Z; Some [0; 1]%Z; Some [0; 2]%Z; Some [1; 2]%Z; Some [2; 2]%Z; Some [3; 2]%Z; Some [3; 3]%Z; Some [2; 3]%Z; 
  Some [1; 3]%Z; Some [0; 3]%Z; Some [0; 4]%Z; Some [1; 4]%Z; Some [2; 4]%Z; Some [3; 4]%Z; Some [4; 4]%Z; Some [4; 3]%Z; Some [4; 
  2]%Z]) [Some (Sp (BM [(0, false); (1, false)] false) 0); Some (Sp (BM [(0, true); (1, false)] true) 0); Some (Sp (BM [(0, false); 
  (1, false)] false) 0); Some (Sp (BM [(0, true); (1, false)] true) 0); Some (Sp (BM [(1, false); (0, false)] false) 0); Some (Sp 
  (BM [(1, false); (0, true)] true) 0); Some (Sp (BM [(0, true); (1, true)] false) 0); Some (Sp (BM [(0, false); (1, false)] true) 
  0); Some (Sp (BM [(0, true); (1, false)] false) 0); Some (Sp (BM [(0, false); (1, true)] true) 0); Some (Sp (BM [(0, false); (1, 
  false)] false) 0); Some (Sp (BM [(0, true); (1, false)] true) 0); Some (Sp (BM [(0, false); (1, false)] false) 0); Some (Sp (BM 
  [(0, true); (1, true)] true) 0); Some (Sp (BM [(0, true); (1, false)] false) 0); Some (Sp (BM [(0, false); (1, false)] true) 0); 
  Some (Sp (BM [(0, true); (1, false)] false) 0); Some (Sp (BM [(0, false); (1, true)] true) 0); Some (Sp (BM [(0, false); (1, 
  false)] false) 0); Some (Sp (BM [(0, true); (1, false)] true) 0); Some (Sp (BM [(0, false); (1, false)] false) 0); Some (Sp (BM 
  [(0, true); (1, true)] true) 0); Some (Sp (BM [(1, false); (0, true)] false) 0); Some (Sp (BM [(1, false); (0, false)] true) 0); 
  Some (Sp (BM [(0, false); (1, true)] false) 0)]] 0 KCurve.
