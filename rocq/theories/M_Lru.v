(** Model of functools.lru_cache (Lib/functools.py of CPython), as used at /repo/peano/utils.py:35, 47 and dilation.py:184. *)
From Verif Require Import Py.
Local Open Scope nat_scope.

(** The state of a cache: maxsize (None: unlimited; negative values are taken as 0), the entries with the most recently
    used one first, the counters hits and misses.  (With maxsize None CPython keeps no order; the order has no effect then.) *)
Record lru (K V : Type) : Type := Lru { lru_max : option Z; lru_items : list (K * V); lru_hits : nat; lru_misses : nat }.
Arguments Lru {K V}. Arguments lru_max {K V}. Arguments lru_items {K V}. Arguments lru_hits {K V}. Arguments lru_misses {K V}.
(** lru_cache(maxsize), utils.py:35, 47, dilation.py:184: a new cache *)
Definition lru_new {K V} (max : option Z) : lru K V := Lru max [] 0 0.

Section Lru.
Context {K V : Type} (same : K -> K -> bool).
(** cache_get(key), used by the wrapper of utils.py:35, 47, dilation.py:184: dict lookup; [same] compares the hashes and the keys *)
Definition lru_find (c : lru K V) (k : K) : option (K * V) := find (fun e => same k (fst e)) (lru_items c).
(** a hit, used by the wrapper of utils.py:35, 47, dilation.py:184: the link is moved to the front, with its old key *)
Definition lru_hit (c : lru K V) (k : K) (e : K * V) : lru K V :=
  Lru (lru_max c) (e :: filter (fun e' => negb (same k (fst e'))) (lru_items c)) (S (lru_hits c)) (lru_misses c).
(** a miss is counted before the function is called (wrapper of utils.py:35, 47, dilation.py:184) *)
Definition lru_miss (c : lru K V) : lru K V := Lru (lru_max c) (lru_items c) (lru_hits c) (S (lru_misses c)).
(** the result of the function is stored (wrapper of utils.py:35, 47, dilation.py:184): if the cache is full, the least recently
    used entry is dropped; nothing is stored if maxsize = 0 *)
Definition lru_put (c : lru K V) (k : K) (v : V) : lru K V :=
  match lru_max c with
  | None => Lru (lru_max c) ((k, v) :: lru_items c) (lru_hits c) (lru_misses c)
  | Some m => if (m <=? 0)%Z then c
              else if (m <=? Z.of_nat (length (lru_items c)))%Z
              then Lru (lru_max c) ((k, v) :: removelast (lru_items c)) (lru_hits c) (lru_misses c)
              else Lru (lru_max c) ((k, v) :: lru_items c) (lru_hits c) (lru_misses c)
  end.
(** cache_info(), dilation.py:299: (hits, misses, maxsize, currsize) *)
Definition lru_info (c : lru K V) : nat * nat * option Z * nat :=
  (lru_hits c, lru_misses c, option_map (Z.max 0) (lru_max c), length (lru_items c)).
(** A cached call of a function that calls no other cached function (utils.py:35-58). *)
Definition lru_call (f : K -> V) (c : lru K V) (k : K) : V * lru K V :=
  match lru_find c k with
  | Some e => (snd e, lru_hit c k e)
  | None => let v := f k in (v, lru_put (lru_miss c) k v)
  end.
End Lru.
