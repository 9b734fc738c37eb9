(** Specification for the caches: what each operation returns when there are no caches. *)
From Verif Require Import Py M_BaseMaps M_Caches.

Definition lift2 {A B C} (f : A -> B -> option C) (x : option A) (y : option B) : option C :=
  match x, y with Some a, Some b => f a b | _, _ => None end.
Definition mul_val (a b : base_map) : option base_map :=
  if Nat.eqb (bm_dim a) (bm_dim b) then Some (bm_mul a b) else None.

(** The value of the result in terms of the values of the arguments; None: an error. *)
Inductive cval : Type := VBm (b : base_map) | VSpec (s : spec) | VErr.
Definition ovb (x : option base_map) : cval := match x with Some b => VBm b | None => VErr end.
Definition ovs (x : option spec) : cval := match x with Some s => VSpec s | None => VErr end.
Definition pure_step (st : store) (op : cop) : cval :=
  match op with
  | CNew key => VBm key
  | CId d => VBm (id_map d)
  | CMul a b => ovb (lift2 mul_val (bm_val st a) (bm_val st b))
  | CInv a => ovb (option_map bm_inv (bm_val st a))
  | CRev a => ovb (option_map bm_rev (bm_val st a))
  | CCube a => ovb (option_map cube_map (bm_val st a))
  | CConj x g => ovb (lift2 (fun vx vg => if Nat.eqb (bm_dim vg) (bm_dim vx) then Some (bm_conj vx vg) else None) (bm_val st x) (bm_val st g))
  | CSpec b p => ovs (option_map (fun v => Sp v p) (bm_val st b))
  | CSpMul s t => ovs (lift2 (fun vs vt => option_map (fun b => Sp b (sp_pnum vs)) (mul_val (sp_bm vs) (sp_bm vt))) (sp_val st s) (sp_val st t))
  | CSpMulBm s b => ovs (lift2 (fun vs vb => option_map (fun x => Sp x (sp_pnum vs)) (mul_val (sp_bm vs) vb)) (sp_val st s) (bm_val st b))
  | CBmMulSp b s => ovs (lift2 (fun vb vs => option_map (fun x => Sp x (sp_pnum vs)) (mul_val vb (sp_bm vs))) (bm_val st b) (sp_val st s))
  end.
Definition res_val (st : store) (r : cres) : cval :=
  match r with RBm o => ovb (bm_val st o) | RSpec s => ovs (sp_val st s) | RErr => VErr end.
