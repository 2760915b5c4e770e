(** Specification of edits of different elements, made in one order or another. *)
From Coq Require Import ZArith List Bool Permutation.
From Verif Require Import Base M_Scalar M_Bar M_Note M_Models M_Project S_Project S_Effect S_Move.
Import ListNotations.
Open Scope Z_scope.

(** What an edit takes out and puts in; one that changes a setting takes nothing out and puts nothing in. *)
Inductive takes : edit -> models -> models -> Prop :=
| tk_moves e out into : moves e out into -> takes e out into
| tk_rhythm r : takes (ESetRhythm r) models_empty models_empty
| tk_key k : takes (ESetKey k) models_empty models_empty
| tk_grid g : takes (ESetGrid g) models_empty models_empty.

(** The same of several edits. *)
Inductive all_take : list edit -> models -> models -> Prop :=
| at_nil : all_take [] models_empty models_empty
| at_cons e a b es out into : takes e a b -> all_take es out into -> all_take (e :: es) (m_both a out) (m_both b into).

(** Both change the same setting. *)
Definition same_setting (e f : edit) : Prop :=
  match e, f with
  | ESetRhythm _, ESetRhythm _ | ESetKey _, ESetKey _ | ESetGrid _, ESetGrid _ => True
  | _, _ => False
  end.

(** Neither takes out an element from where the other takes one out or puts one in, and they change different settings. *)
Definition apart (e f : edit) : Prop :=
  ~ same_setting e f /\
  forall a b a' b', takes e a b -> takes f a' b' -> all_elsewhere a a' /\ all_elsewhere a b' /\ all_elsewhere a' b.
