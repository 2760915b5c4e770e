(** Model of src/undo.rs (the in-memory undo buffer) and src/fly_weight.rs. *)
From Coq Require Import ZArith List Bool.
From Verif Require Import Base.
Import ListNotations.

Section UndoStore.
(** src/undo.rs 6-8: the recorded item; its contents play no role here *)
Variable U : Type.

(** src/undo.rs 11-16; head of the list = front of the [VecDeque].  Sizes are
    [nat]: a [usize] index can not overflow as it is bounded by the length. *)
Record undo_store := mkUS {
  us_store : list U;
  us_capacity : nat;
  us_index : nat;
  us_freezed : bool;
}.

(** src/undo.rs 25-32 *)
Definition us_new (capacity : nat) : undo_store := mkUS [] capacity 0 false.

(** src/undo.rs 39-50.  [split_off(i)] panics if [i] exceeds the length. *)
Definition us_add (s : undo_store) (u : U) : outcome undo_store :=
  if us_freezed s then Ret s
  else
    let! st :=
      (if Nat.eqb (us_index s) 0 then Ret (us_store s)
       else if Nat.ltb (length (us_store s)) (us_index s) then Panic
       else Ret (skipn (us_index s) (us_store s))) in
    let st := if Nat.leb (us_capacity s) (length st) then removelast st else st in
    Ret (mkUS (u :: st) (us_capacity s) 0 false).

(** src/undo.rs 52-58 *)
Definition us_undo (s : undo_store) : undo_store * option U :=
  match nth_error (us_store s) (us_index s) with
  | Some u => (mkUS (us_store s) (us_capacity s) (S (us_index s)) (us_freezed s), Some u)
  | None => (s, None)
  end.

(** src/undo.rs 61-68 *)
Definition us_redo (s : undo_store) : undo_store * option U :=
  match us_index s with
  | O => (s, None)
  | S i => (mkUS (us_store s) (us_capacity s) i (us_freezed s), nth_error (us_store s) i)
  end.

(** src/undo.rs 71-73 *)
Definition us_len (s : undo_store) : nat := length (us_store s).
(** src/undo.rs 75-77 *)
Definition us_can_undo (s : undo_store) : bool := Nat.ltb (us_index s) (length (us_store s)).
(** src/undo.rs 80-82 *)
Definition us_can_redo (s : undo_store) : bool := negb (Nat.eqb (us_index s) 0).
(** src/undo.rs 84-86 *)
Definition us_freeze (s : undo_store) (b : bool) : undo_store :=
  mkUS (us_store s) (us_capacity s) (us_index s) b.

End UndoStore.
Arguments mkUS {U}.
Arguments us_store {U}.
Arguments us_capacity {U}.
Arguments us_index {U}.
Arguments us_freezed {U}.
Arguments us_add {U}.
Arguments us_undo {U}.
Arguments us_redo {U}.
Arguments us_len {U}.
Arguments us_can_undo {U}.
Arguments us_can_redo {U}.
Arguments us_freeze {U}.

Section FlyWeight.
(** src/fly_weight.rs 4-6.  A reference [&'a T] is modelled as its address
    together with the value it points to; the pool maps values (through the
    lawful [Eq]/[Hash] of T) to references. *)
Variable T : Type.
Variable T_eqb : T -> T -> bool.

Record ref := mkRef { ref_addr : Z; ref_val : T }.

Definition pool := list ref.

(** src/fly_weight.rs 11-15 *)
Definition fw_new : pool := [].

(** src/fly_weight.rs 17-19: [entry(instance).or_insert(instance)] *)
Definition fw_intern (p : pool) (r : ref) : pool * ref :=
  match find (fun q => T_eqb (ref_val q) (ref_val r)) p with
  | Some q => (p, q)
  | None => (r :: p, r)
  end.
End FlyWeight.
Arguments mkRef {T}.
Arguments ref_addr {T}.
Arguments ref_val {T}.
Arguments fw_new {T}.
Arguments fw_intern {T}.
