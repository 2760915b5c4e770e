(** Specification of the undo buffer (two stacks) and of interning. *)
From Coq Require Import ZArith List Bool.
From Verif Require Import Base M_Undo.
Import ListNotations.
Open Scope nat_scope.

Section Undo.
Variable U : Type.

(** What a caller can do. *)
Inductive uop := UAdd (u : U) | UUndo | URedo | UFreeze (b : bool).

(** What a caller can see after each call: the returned item, [len], [can_undo], [can_redo]. *)
Definition uobs : Type := option U * nat * bool * bool.

(** The real buffer. *)
Definition us_step (s : undo_store U) (o : uop) : outcome (undo_store U * uobs) :=
  let see (s : undo_store U) (r : option U) := (s, (r, us_len s, us_can_undo s, us_can_redo s)) in
  match o with
  | UAdd u => let! s' := us_add s u in Ret (see s' None)
  | UUndo => let (s', r) := us_undo s in Ret (see s' r)
  | URedo => let (s', r) := us_redo s in Ret (see s' r)
  | UFreeze b => Ret (see (us_freeze s b) None)
  end.

Fixpoint us_run (s : undo_store U) (os : list uop) : outcome (undo_store U * list uobs) :=
  match os with
  | [] => Ret (s, [])
  | o :: os' =>
      let! (s1, x) := us_step s o in
      let! (s2, xs) := us_run s1 os' in
      Ret (s2, x :: xs)
  end.

(** The textbook undo buffer: a stack of things to undo, newest first, and a
    stack of things to redo.  At most [limit] things are kept. *)
Record stacks := mkSt { st_limit : nat; st_undo : list U; st_redo : list U; st_frozen : bool }.

Definition st_new (limit : nat) : stacks := mkSt limit [] [] false.

Definition st_step (s : stacks) (o : uop) : stacks * option U :=
  match o with
  | UAdd u =>
      if st_frozen s then (s, None)
      else (mkSt (st_limit s) (firstn (st_limit s) (u :: st_undo s)) [] false, None)
  | UUndo =>
      match st_undo s with
      | [] => (s, None)
      | u :: r => (mkSt (st_limit s) r (u :: st_redo s) (st_frozen s), Some u)
      end
  | URedo =>
      match st_redo s with
      | [] => (s, None)
      | u :: r => (mkSt (st_limit s) (u :: st_undo s) r (st_frozen s), Some u)
      end
  | UFreeze b => (mkSt (st_limit s) (st_undo s) (st_redo s) b, None)
  end.

Definition st_obs (s : stacks) (r : option U) : uobs :=
  (r, length (st_undo s) + length (st_redo s),
   match st_undo s with [] => false | _ => true end,
   match st_redo s with [] => false | _ => true end).

Fixpoint st_run (s : stacks) (os : list uop) : stacks * list uobs :=
  match os with
  | [] => (s, [])
  | o :: os' =>
      let (s1, r) := st_step s o in
      let (s2, xs) := st_run s1 os' in
      (s2, st_obs s1 r :: xs)
  end.
End Undo.
Arguments UAdd {U}. Arguments UUndo {U}. Arguments URedo {U}. Arguments UFreeze {U}.
Arguments us_step {U}. Arguments us_run {U}. Arguments st_new {U}. Arguments st_step {U}.
Arguments st_run {U}. Arguments st_obs {U}. Arguments mkSt {U}.
Arguments st_undo {U}. Arguments st_redo {U}. Arguments st_limit {U}. Arguments st_frozen {U}.

Section Fly.
Variable T : Type.
Variable T_eqb : T -> T -> bool.

(** The answers to a sequence of calls. *)
Fixpoint fw_run (p : pool T) (rs : list (ref T)) : list (ref T) :=
  match rs with
  | [] => []
  | r :: rs' => let (p', x) := fw_intern T_eqb p r in x :: fw_run p' rs'
  end.

Definition same (a b : ref T) : bool := T_eqb (ref_val a) (ref_val b).

(** Lawful equality. *)
Definition equivalence : Prop :=
  (forall a, T_eqb a a = true) /\
  (forall a b, T_eqb a b = true -> T_eqb b a = true) /\
  (forall a b c, T_eqb a b = true -> T_eqb b c = true -> T_eqb a c = true).
End Fly.
Arguments fw_run {T}. Arguments same {T}. Arguments equivalence {T}.
