(** Model of what is kept on disk between sessions: the project and the commands
    as serde writes them, and reopening from them.  What serde hands on
    is represented as a JSON value (struct fields by name, enum variants by name);
    the bytes are in M_Bin, and C80 shows that they fare the same. *)
From Coq Require Import ZArith List Bool Ascii String.
From Verif Require Import Base M_Pitch M_Duration M_Percent M_Scalar M_Bar M_Note M_Models M_Store M_Tuple M_Project M_Event M_Text M_Json.
Import ListNotations.
Open Scope Z_scope.
Open Scope list_scope.

(** src/project.rs 42-49 *)
Definition metadata_fields : list text := [chars "need_select"; chars "dragged"].
Definition write_metadata (m : metadata) : json :=
  JObj (combine metadata_fields [write_option JBool (md_select m); JBool (md_dragged m)]).
Definition read_metadata : reader metadata := fun j =>
  match struct metadata_fields j with
  | Some [s; d] =>
      let? s := optional read_bool s in
      let? d := required read_bool d in
      Ret (Some (mkMeta s d))
  | _ => Ret None
  end.

(** src/project.rs 409-415: a command with its metadata.  Only [ModelChanged] has
    metadata; elsewhere in the model the settings carry [meta_new]. *)
Definition changed_fields : list text := [chars "added"; chars "removed"; chars "metadata"].
Definition write_cmd (cm : cmd * metadata) : json :=
  let (c, m) := cm in
  match c with
  | SetRhythm old new => JObj [(chars "SetRhythm", JArr [write_rhythm old; write_rhythm new])]
  | SetKey old new => JObj [(chars "SetKey", JArr [JInt old; JInt new])]
  | SetGrid old new => JObj [(chars "SetGrid", JArr [write_grid old; write_grid new])]
  | ModelChanged added removed =>
      JObj [(chars "ModelChanged", JObj (combine changed_fields [write_models added; write_models removed; write_metadata m]))]
  end.

(** a variant with two values *)
Definition read_pair {A B : Type} (r : reader A) (k : A -> A -> B) : reader B := fun j =>
  match j with
  | JArr [x; y] => let? a := r x in let? b := r y in Ret (Some (k a b))
  | _ => Ret None
  end.
(** a variant with the three fields *)
Definition read_changed : reader (cmd * metadata) := fun j =>
  match struct changed_fields j with
  | Some [a; r; m] =>
      let? a := required read_models a in
      let? r := required read_models r in
      let? m := required read_metadata m in
      Ret (Some (ModelChanged a r, m))
  | _ => Ret None
  end.
Definition read_cmd : reader (cmd * metadata) := fun j =>
  match j with
  | JObj [(n, v)] =>
      if text_eqb n (chars "SetRhythm") then read_pair read_rhythm (fun a b => (SetRhythm a b, meta_new)) v
      else if text_eqb n (chars "SetKey") then read_pair read_key (fun a b => (SetKey a b, meta_new)) v
      else if text_eqb n (chars "SetGrid") then read_pair read_grid (fun a b => (SetGrid a b, meta_new)) v
      else if text_eqb n (chars "ModelChanged") then read_changed v
      else Ret None
  | _ => Ret None
  end.

(** What is there after reopening: the project, the commands that were read
    (oldest first) and what the repositories report. *)
Record reopened := mkReopened { ro_model : project; ro_log : list (cmd * metadata); ro_events : events }.

(** Reopening (serdo, see DESIGN.md): the stored project is read (src/project.rs
    90-113), then the commands stored since then, oldest first, are read and redone
    (467-512). *)
Definition reopen (snapshot : json) (log : list json) : outcome (option reopened) :=
  let? e := read_exported snapshot in
  let? cs := read_all read_cmd log in
  Ret (Some (mkReopened (replay (import e) (map fst cs)) cs
    (fold_left (fun v cm => ev_app v (redo_events (fst cm) (snd cm))) cs (import_events e)))).
