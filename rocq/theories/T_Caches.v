(** Property theorem C07 (caches are invisible). Nothing else is in this file. *)
From Verif Require Import Py L_Py M_BaseMaps L_BaseMaps M_Caches S_Caches P_Caches.
Local Open Scope nat_scope.

(** C07: after any history, every operation returns the value of the cache-free definition (an error iff
    that one is an error), no object handed out earlier changes its value, and equal keys mean one object. *)
Theorem C07_caches_invisible : forall (history : list cop) (op : cop) st' r,
  cstep (crun history) op = (st', r) ->
  res_val st' r = pure_step (crun history) op /\
  (forall o v, bm_val (crun history) o = Some v -> bm_val st' o = Some v) /\
  (forall s v, sp_val (crun history) s = Some v -> sp_val st' s = Some v).
Proof.
  intros history op st' r H. destruct (cstep_ok _ _ _ _ (cinv_run history) H) as (_ & [H1 H2] & H3).
  exact (conj H3 (conj H1 H2)).
Qed.
Print Assumptions C07_caches_invisible.

Theorem C07_one_object_per_key : forall (history : list cop),
  (forall o o' v, bm_val (crun history) o = Some v -> bm_val (crun history) o' = Some v -> o = o') /\
  (forall s s' v, sp_val (crun history) s = Some v -> sp_val (crun history) s' = Some v -> s = s').
Proof.
  intros history. exact (conj (fun o o' v => cinv_unique _ o o' v (cinv_run history))
                              (fun s s' v => cinv_unique_sp _ s s' v (cinv_run history))).
Qed.
Print Assumptions C07_one_object_per_key.

(** A history in which products and inverses are answered from the caches. *)
Example C07_example :
  let a := BM [(1, true); (0, false)] false in
  let h := [CNew a; CMul 0 0; CMul 0 0; CInv 0; CInv 0; CConj 1 0; CId 2; CSpec 0 1; CSpMulBm 0 2; CMul 2 0] in
  length (st_objs (crun h)) = 4 /\ cstep (crun h) (CMul 0 0) = (crun h, RBm 1) /\
  bm_val (crun h) 1 = Some (BM [(0, true); (1, true)] false).
Proof. cbn zeta. split; [|split]; vm_compute; reflexivity. Qed.
