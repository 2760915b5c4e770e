(** Model of the containers of klavier-helper that src/project.rs uses (the
    crate itself is not in the sandbox; see DESIGN.md, trusted base).  The
    events they send and their metadata are modelled in M_Event.v. *)
From Coq Require Import ZArith List Bool.
From Verif Require Import Base.
Import ListNotations.
Open Scope Z_scope.

(** ** [klavier_helper::store::Store<u32, V, M>]: at most one value per key.
    Used at src/project.rs 76-79. *)
Section Store.
Variable V : Type.

Definition store := list (Z * V).

(** [Store::find] / [Store::index] (src/project.rs 193, 254, 268, 284, 360,
    379): binary search in the sorted vector.  [Ok i]: found at index [i];
    [Err i]: not found, [i] is where it would be inserted.  Modelled as a
    linear search, which gives the same answer in a sorted vector. *)
Fixpoint s_find (k : Z) (s : store) : result nat nat :=
  match s with
  | [] => Err 0%nat
  | (k', _) :: s' =>
      if k =? k' then Ok 0%nat
      else if k <? k' then Err 0%nat
      else match s_find k s' with Ok i => Ok (S i) | Err i => Err (S i) end
  end.

(** [Store::add] (src/project.rs 189, 617, 633, 650, 666): inserts at the
    sorted position or replaces; returns the value that was replaced. *)
Fixpoint s_add (k : Z) (v : V) (s : store) : store * option V :=
  match s with
  | [] => ([(k, v)], None)
  | (k', v') :: s' =>
      if k =? k' then ((k, v) :: s', Some v')
      else if k <? k' then ((k, v) :: s, None)
      else let (t, o) := s_add k v s' in ((k', v') :: t, o)
  end.

(** [Store::remove] (src/project.rs 436-446, 483-493); the removed value, which
    the callers ignore, is not returned. *)
Fixpoint s_remove (k : Z) (s : store) : store :=
  match s with
  | [] => []
  | (k', v') :: s' => if k =? k' then s' else (k', v') :: s_remove k s'
  end.

(** [Store::bulk_add] (src/project.rs 96-105, 726-745): adds in turn; returns
    the replaced entries. *)
Fixpoint s_bulk_add (l : list (Z * V)) (s : store) : store * list (Z * V) :=
  match l with
  | [] => (s, [])
  | (k, v) :: l' =>
      let (s1, o) := s_add k v s in
      let (s2, r) := s_bulk_add l' s1 in
      (s2, match o with Some v' => (k, v') :: r | None => r end)
  end.

(** [Store::change] (src/project.rs 790, 800, 810, 820): removes all the old
    keys, then adds the new entries; returns the entries these replaced. *)
Definition s_change (l : list (Z * (Z * V))) (s : store) : store * list (Z * V) :=
  s_bulk_add (map snd l) (fold_left (fun s k => s_remove k s) (map fst l) s).

(** [Store::peek_last] (src/project.rs 302, 321, 326, 331) *)
Definition s_peek_last (s : store) : option (Z * V) :=
  match s with [] => None | x :: s' => Some (last s' x) end.

(** [store[i]] (src/project.rs 222, 260, 274, 290, 362, 368): panics out of bounds *)
Definition s_index (s : store) (i : nat) : outcome (Z * V) := unwrap_opt (nth_error s i).
End Store.
Arguments s_find {V}. Arguments s_add {V}. Arguments s_remove {V}. Arguments s_bulk_add {V}.
Arguments s_change {V}. Arguments s_peek_last {V}. Arguments s_index {V}.

(** ** [klavier_helper::bag_store::BagStore<u32, V, M>]: several values per key.
    Used at src/project.rs 75. *)
Section Bag.
Variable V : Type.
Variable V_eq_dec : forall a b : V, {a = b} + {a <> b}.

Definition bag := list (Z * V).

(** [BagStore::add] (src/project.rs 449, 496, 601) *)
Fixpoint b_add (k : Z) (v : V) (s : bag) : bag :=
  match s with
  | [] => [(k, v)]
  | (k', v') :: s' => if k <? k' then (k, v) :: s else (k', v') :: b_add k v s'
  end.

(** [BagStore::remove] (src/project.rs 433, 480): one value equal to [v] under
    the key [k], if there is one. *)
Fixpoint b_remove (k : Z) (v : V) (s : bag) : bag :=
  match s with
  | [] => []
  | (k', v') :: s' =>
      if k =? k' then if V_eq_dec v v' then s' else (k', v') :: b_remove k v s'
      else (k', v') :: b_remove k v s'
  end.

(** [BagStore::bulk_add] (src/project.rs 93, 688, 720) *)
Definition b_bulk_add (l : list (Z * V)) (s : bag) : bag :=
  fold_left (fun s kv => b_add (fst kv) (snd kv) s) l s.

(** [BagStore::bulk_remove] (src/project.rs 687) *)
Definition b_bulk_remove (l : list (Z * V)) (s : bag) : bag :=
  fold_left (fun s kv => b_remove (fst kv) (snd kv) s) l s.

(** [BagStore::change] (src/project.rs 780) *)
Definition b_change (l : list ((Z * V) * (Z * V))) (s : bag) : bag :=
  b_bulk_add (map snd l) (b_bulk_remove (map fst l) s).

(** [BagStore::peek_last] (src/project.rs 308) *)
Definition b_peek_last (s : bag) : option (Z * V) :=
  match s with [] => None | x :: s' => Some (last s' x) end.

(** [BagStore::range(k..)] (src/project.rs 311) *)
Definition b_range_from (k : Z) (s : bag) : list (Z * V) := filter (fun kv => k <=? fst kv) s.
End Bag.
Arguments b_add {V}. Arguments b_remove {V}. Arguments b_bulk_add {V}. Arguments b_bulk_remove {V}.
Arguments b_change {V}. Arguments b_peek_last {V}. Arguments b_range_from {V}.
