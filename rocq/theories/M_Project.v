(** Model of src/project.rs. *)
From Coq Require Import ZArith List Bool.
From Verif Require Import Base M_Pitch M_Scalar M_Bar M_Note M_Store M_Tuple M_Models.
Import ListNotations.
Open Scope Z_scope.

(** src/project.rs 71-80 *)
Record project := mkProject {
  pj_rhythm : rhythm;
  pj_key : key;
  pj_grid : grid;
  pj_notes : list (Z * note);      (* bag, by effective start tick *)
  pj_bars : list (Z * bar);
  pj_tempos : list (Z * tempo);
  pj_dumpers : list (Z * ctrl_chg);
  pj_softs : list (Z * ctrl_chg);
}.

(** field assignments *)
Definition pj_set_rhythm (p : project) (x : rhythm) : project :=
  mkProject x (pj_key p) (pj_grid p) (pj_notes p) (pj_bars p) (pj_tempos p) (pj_dumpers p) (pj_softs p).
Definition pj_set_key (p : project) (x : key) : project :=
  mkProject (pj_rhythm p) x (pj_grid p) (pj_notes p) (pj_bars p) (pj_tempos p) (pj_dumpers p) (pj_softs p).
Definition pj_set_grid (p : project) (x : grid) : project :=
  mkProject (pj_rhythm p) (pj_key p) x (pj_notes p) (pj_bars p) (pj_tempos p) (pj_dumpers p) (pj_softs p).
Definition pj_set_notes (p : project) x : project :=
  mkProject (pj_rhythm p) (pj_key p) (pj_grid p) x (pj_bars p) (pj_tempos p) (pj_dumpers p) (pj_softs p).
Definition pj_set_bars (p : project) x : project :=
  mkProject (pj_rhythm p) (pj_key p) (pj_grid p) (pj_notes p) x (pj_tempos p) (pj_dumpers p) (pj_softs p).
Definition pj_set_tempos (p : project) x : project :=
  mkProject (pj_rhythm p) (pj_key p) (pj_grid p) (pj_notes p) (pj_bars p) x (pj_dumpers p) (pj_softs p).
Definition pj_set_dumpers (p : project) x : project :=
  mkProject (pj_rhythm p) (pj_key p) (pj_grid p) (pj_notes p) (pj_bars p) (pj_tempos p) x (pj_softs p).
Definition pj_set_softs (p : project) x : project :=
  mkProject (pj_rhythm p) (pj_key p) (pj_grid p) (pj_notes p) (pj_bars p) (pj_tempos p) (pj_dumpers p) x.

(** src/project.rs 394-407 *)
Definition project_default : project := mkProject rhythm_default 0 grid_default [] [] [] [] [].

(** Elements paired with the tick they are stored under. *)
Definition note_entry (n : note) : Z * note := (note_start_tick n, n).
Definition bar_entry (b : bar) : Z * bar := (b_tick b, b).
Definition tempo_entry (t : tempo) : Z * tempo := (tp_tick t, t).
Definition ctrl_entry (c : ctrl_chg) : Z * ctrl_chg := (cc_tick c, c).

(** ** Saving and loading *)

(** src/project.rs 83-88 *)
Record exported := mkExported {
  ex_rhythm : rhythm; ex_key : key; ex_grid : grid; ex_models : models }.

(** src/project.rs 90-114 *)
Definition import (e : exported) : project :=
  let m := ex_models e in
  mkProject (ex_rhythm e) (ex_key e) (ex_grid e)
    (b_bulk_add (map note_entry (m_notes m)) [])
    (fst (s_bulk_add (map bar_entry (m_bars m)) []))
    (fst (s_bulk_add (map tempo_entry (m_tempos m)) []))
    (fst (s_bulk_add (map ctrl_entry (m_dumpers m)) []))
    (fst (s_bulk_add (map ctrl_entry (m_softs m)) [])).

(** src/project.rs 116-150 *)
Definition export (p : project) : exported :=
  mkExported (pj_rhythm p) (pj_key p) (pj_grid p)
    (mkModels (map snd (pj_notes p)) (map snd (pj_bars p)) (map snd (pj_tempos p))
       (map snd (pj_dumpers p)) (map snd (pj_softs p))).

(** ** Queries *)

(** src/project.rs 192-197 *)
Definition bar_no (p : project) (b : bar) : option nat :=
  match s_find (b_tick b) (pj_bars p) with Ok i => Some i | Err _ => None end.

(** src/project.rs 21, 356-373 *)
Definition tempo_at_store (tick : Z) (s : list (Z * tempo)) : outcome Z :=
  match s with
  | [] => Ret 120
  | _ =>
      match s_find tick s with
      | Ok i => let! x := s_index s i in Ret (tp_value (snd x))
      | Err O => Ret 120
      | Err (S i) => let! x := s_index s i in Ret (tp_value (snd x))
      end
  end.

(** src/project.rs 22, 375-392 *)
Definition ctrl_chg_at (tick : Z) (s : list (Z * ctrl_chg)) : outcome Z :=
  match s with
  | [] => Ret 0
  | _ =>
      match s_find tick s with
      | Ok i => let! x := s_index s i in Ret (cc_velocity (snd x))
      | Err O => Ret 0
      | Err (S i) => let! x := s_index s i in Ret (cc_velocity (snd x))
      end
  end.

(** src/project.rs 199-209 *)
Definition tempo_at (p : project) (tick : Z) : outcome Z := tempo_at_store tick (pj_tempos p).
Definition dumper_at (p : project) (tick : Z) : outcome Z := ctrl_chg_at tick (pj_dumpers p).
Definition soft_at (p : project) (tick : Z) : outcome Z := ctrl_chg_at tick (pj_softs p).

(** src/project.rs 273-280 / 289-296: [for i in (0..=idx).rev()] *)
Fixpoint search_back {A : Type} (f : bar -> option A) (default : A) (s : list (Z * bar)) (idx : nat) : outcome A :=
  let! x := s_index s idx in
  match f (snd x) with
  | Some a => Ret a
  | None => match idx with O => Ret default | S i => search_back f default s i end
  end.

(** src/project.rs 267-281 *)
Definition rhythm_at (p : project) (tick : Z) : outcome rhythm :=
  match s_find tick (pj_bars p) with
  | Ok t => search_back b_rhythm (pj_rhythm p) (pj_bars p) t
  | Err O => Ret (pj_rhythm p)
  | Err (S t) => search_back b_rhythm (pj_rhythm p) (pj_bars p) t
  end.

(** src/project.rs 283-297 *)
Definition key_at (p : project) (tick : Z) : outcome key :=
  match s_find tick (pj_bars p) with
  | Ok t => search_back b_key (pj_key p) (pj_bars p) t
  | Err O => Ret (pj_key p)
  | Err (S t) => search_back b_key (pj_key p) (pj_bars p) t
  end.

(** src/project.rs 301-303 *)
Definition last_bar (p : project) : option (nat * bar) :=
  match s_peek_last (pj_bars p) with
  | Some (_, b) => Some (length (pj_bars p) - 1, b)%nat
  | None => None
  end.

(** src/location.rs 6-9: two usize *)
Record location := mkLoc { loc_bar : Z; loc_offset : Z }.

(** src/project.rs 25-27 *)
Inductive location_error := Overflow.

(** src/project.rs 211-248 *)
Definition location_to_tick (p : project) (l : location) : outcome (result Z location_error) :=
  let fit (z : Z) := Ret (if u32_max <? z then Err Overflow else Ok z) in
  if loc_bar l =? 0 then fit (loc_offset l)
  else if u32_max <? loc_bar l then Ret (Err Overflow)
  else if loc_bar l <=? Z.of_nat (length (pj_bars p)) then
    let! x := s_index (pj_bars p) (Z.to_nat (loc_bar l - 1)) in
    let! sum := chk_usize (fst x + loc_offset l) in
    fit sum
  else
    let! tick :=
      match last_bar p with
      | None =>
          let! a := chk_usize (loc_bar l * rhythm_tick_len (pj_rhythm p)) in
          chk_usize (a + loc_offset l)
      | Some (last_bar_no, b) =>
          let! r := rhythm_at p (b_tick b) in
          let! k := chk_usize (loc_bar l - Z.of_nat last_bar_no) in
          let! k := chk_usize (k - 1) in
          let! a := chk_usize (k * rhythm_tick_len r) in
          let! a := chk_usize (a + loc_offset l) in
          chk_usize (a + b_tick b)
      end in
    fit tick.

(** src/project.rs 250-265 *)
Definition tick_to_location (p : project) (tick : Z) : outcome location :=
  match pj_bars p with
  | [] => Ret (mkLoc 0 tick)
  | _ =>
      match s_find tick (pj_bars p) with
      | Ok i => Ret (mkLoc (Z.of_nat i + 1) 0)
      | Err O => Ret (mkLoc 0 tick)
      | Err (S i) =>
          let! x := s_index (pj_bars p) i in
          let! o := chk_u32 (tick - b_tick (snd x)) in
          Ret (mkLoc (Z.of_nat (S i)) o)
      end
  end.

(** ** Replenishing bars *)

(** src/project.rs 305-317 *)
Definition note_max_end_tick (p : project) : outcome (option Z) :=
  match b_peek_last (pj_notes p) with
  | None => Ret None
  | Some (last_tick, _) =>
      let! longest := longest_tick_len in
      let start := if last_tick - longest <? 0 then 0 else last_tick - longest in
      let! m :=
        ofold (fun (m : Z) (kn : Z * note) =>
          let! l := note_tick_len (snd kn) in
          let! e := chk_u32 (fst kn + l) in
          Ret (Z.max m e)) 0 (b_range_from (as_u32 start) (pj_notes p)) in
      Ret (Some m)
  end.

(** src/project.rs 320-332 *)
Definition max_tick {V : Type} (s : list (Z * V)) : option Z := option_map fst (s_peek_last s).

Definition unwrap_or (o : option Z) (d : Z) : Z := match o with Some z => z | None => d end.

(** src/project.rs 346-351: the loop.  [fuel] bounds the number of rounds; when
    it runs out the loop does not end (the memory of the process would be
    exhausted). *)
Fixpoint replenish_loop (fuel : nat) (len bar_tick max_end : Z) (bars : list (Z * bar)) (acc : list bar)
  : outcome (list (Z * bar) * list bar) :=
  if bar_tick <? max_end then
    match fuel with
    | O => Hang
    | S f =>
        let! t := chk_u32 (bar_tick + len) in
        let b := mkBar t None None ms_empty in
        replenish_loop f len t max_end (fst (s_add t b bars)) (acc ++ [b])
    end
  else Ret (bars, acc).

(** src/project.rs 335-353; each round adds at least 1 to [bar_tick] unless the
    bar length is 0, so the fuel suffices in all other cases *)
Definition replenish_bars (p : project) : outcome (project * list bar) :=
  let bar_tick := match last_bar p with Some (_, b) => b_tick b | None => 0 end in
  let! ne := note_max_end_tick p in
  let max_end :=
    Z.max (Z.max (Z.max (unwrap_or ne 0) (unwrap_or (max_tick (pj_tempos p)) 0))
             (unwrap_or (max_tick (pj_dumpers p)) 0)) (unwrap_or (max_tick (pj_softs p)) 0) in
  if max_end <=? bar_tick then Ret (p, [])
  else
    let! r := rhythm_at p bar_tick in
    let! (bars, added) :=
      replenish_loop (Z.to_nat (max_end - bar_tick)) (rhythm_tick_len r) bar_tick max_end (pj_bars p) [] in
    Ret (pj_set_bars p bars, added).

(** ** Commands *)

(** src/project.rs 410-415, without the metadata *)
Inductive cmd :=
| SetRhythm (old new : rhythm)
| SetKey (old new : key)
| SetGrid (old new : grid)
| ModelChanged (added removed : models).

Definition remove_keys {V : Type} (ks : list Z) (s : list (Z * V)) : list (Z * V) :=
  fold_left (fun s k => s_remove k s) ks s.
Definition add_all {V : Type} (l : list (Z * V)) (s : list (Z * V)) : list (Z * V) :=
  fold_left (fun s kv => fst (s_add (fst kv) (snd kv) s)) l s.

(** src/project.rs 432-462 and 479-509: remove everything of [gone], then add
    everything of [back] *)
Definition exchange (gone back : models) (p : project) : project :=
  mkProject (pj_rhythm p) (pj_key p) (pj_grid p)
    (b_bulk_add (map note_entry (m_notes back))
       (b_bulk_remove note_eq_dec (map note_entry (m_notes gone)) (pj_notes p)))
    (add_all (map bar_entry (m_bars back)) (remove_keys (map b_tick (m_bars gone)) (pj_bars p)))
    (add_all (map tempo_entry (m_tempos back)) (remove_keys (map tp_tick (m_tempos gone)) (pj_tempos p)))
    (add_all (map ctrl_entry (m_dumpers back)) (remove_keys (map cc_tick (m_dumpers gone)) (pj_dumpers p)))
    (add_all (map ctrl_entry (m_softs back)) (remove_keys (map cc_tick (m_softs gone)) (pj_softs p))).

(** src/project.rs 420-465 *)
Definition cmd_undo (c : cmd) (p : project) : project :=
  match c with
  | SetRhythm old _ => pj_set_rhythm p old
  | SetKey old _ => pj_set_key p old
  | SetGrid old _ => pj_set_grid p old
  | ModelChanged added removed => exchange added removed p
  end.

(** src/project.rs 467-512 *)
Definition cmd_redo (c : cmd) (p : project) : project :=
  match c with
  | SetRhythm _ new => pj_set_rhythm p new
  | SetKey _ new => pj_set_key p new
  | SetGrid _ new => pj_set_grid p new
  | ModelChanged added removed => exchange removed added p
  end.

(** ** Edits: the new project and the recorded command; [None] if nothing was
    recorded. *)
Definition edited := outcome (option (project * cmd)).

Definition vec_of_option {A : Type} (o : option A) : list A := match o with Some a => [a] | None => [] end.

(** [add_cmd]: runs the command's redo and records it *)
Definition by_cmd (c : cmd) (p : project) : edited := Ret (Some (cmd_redo c p, c)).

(** src/project.rs 571-573, 579-581, 587-589 *)
Definition set_rhythm (p : project) (r : rhythm) : edited := by_cmd (SetRhythm (pj_rhythm p) r) p.
Definition set_key (p : project) (k : key) : edited := by_cmd (SetKey (pj_key p) k) p.
Definition set_grid (p : project) (g : grid) : edited := by_cmd (SetGrid (pj_grid p) g) p.

(** src/project.rs 595-611 *)
Definition add_note (p : project) (n : note) : edited :=
  let p1 := pj_set_notes p (b_add (note_start_tick n) n (pj_notes p)) in
  let! (p2, bars) := replenish_bars p1 in
  Ret (Some (p2, ModelChanged (mkModels [n] bars [] [] []) models_empty)).

(** src/project.rs 613-627 *)
Definition add_bar (p : project) (b : bar) : edited :=
  let (s, origin) := s_add (b_tick b) b (pj_bars p) in
  Ret (Some (pj_set_bars p s,
    ModelChanged (mkModels [] [b] [] [] []) (mkModels [] (vec_of_option origin) [] [] []))).

(** src/project.rs 629-644 *)
Definition add_tempo (p : project) (t : tempo) : edited :=
  let (s, origin) := s_add (tp_tick t) t (pj_tempos p) in
  let! (p2, bars) := replenish_bars (pj_set_tempos p s) in
  Ret (Some (p2,
    ModelChanged (mkModels [] bars [t] [] []) (mkModels [] [] (vec_of_option origin) [] []))).

(** src/project.rs 646-660 *)
Definition add_dumper (p : project) (d : ctrl_chg) : edited :=
  let (s, origin) := s_add (cc_tick d) d (pj_dumpers p) in
  let! (p2, bars) := replenish_bars (pj_set_dumpers p s) in
  Ret (Some (p2,
    ModelChanged (mkModels [] bars [] [d] []) (mkModels [] [] [] (vec_of_option origin) []))).

(** src/project.rs 662-676 *)
Definition add_soft (p : project) (d : ctrl_chg) : edited :=
  let (s, origin) := s_add (cc_tick d) d (pj_softs p) in
  let! (p2, bars) := replenish_bars (pj_set_softs p s) in
  Ret (Some (p2,
    ModelChanged (mkModels [] bars [] [] [d]) (mkModels [] [] [] [] (vec_of_option origin)))).

(** src/project.rs 678-706 *)
Definition tuplize_notes (p : project) (notes : list note) : edited :=
  if (1 <? length notes)%nat then
    let! tupled := tuplize notes in
    let p1 := pj_set_notes p
      (b_bulk_add (map note_entry tupled)
         (b_bulk_remove note_eq_dec (map note_entry notes) (pj_notes p))) in
    let! (p2, bars) := replenish_bars p1 in
    Ret (Some (p2, ModelChanged (mkModels tupled bars [] [] []) (mkModels notes [] [] [] [])))
  else Ret None.

(** src/project.rs 708-710 *)
Definition bulk_remove (p : project) (m : models) : edited := by_cmd (ModelChanged models_empty m) p.

(** src/project.rs 712-752 *)
Definition bulk_add (p : project) (m : models) : edited :=
  let notes := b_bulk_add (map note_entry (m_notes m)) (pj_notes p) in
  let (bars, rb) := s_bulk_add (map bar_entry (m_bars m)) (pj_bars p) in
  let (tempos, rt) := s_bulk_add (map tempo_entry (m_tempos m)) (pj_tempos p) in
  let (dumpers, rd) := s_bulk_add (map ctrl_entry (m_dumpers m)) (pj_dumpers p) in
  let (softs, rs) := s_bulk_add (map ctrl_entry (m_softs m)) (pj_softs p) in
  let p1 := mkProject (pj_rhythm p) (pj_key p) (pj_grid p) notes bars tempos dumpers softs in
  let! (p2, more) := replenish_bars p1 in
  Ret (Some (p2, ModelChanged
    (mkModels (m_notes m) (m_bars m ++ more) (m_tempos m) (m_dumpers m) (m_softs m))
    (mkModels [] (map snd rb) (map snd rt) (map snd rd) (map snd rs)))).

(** [(&from.start_tick, (to.start_tick, to))], src/project.rs 782-786 etc. *)
Definition change_entries {V : Type} (tick : V -> Z) (l : list (V * V)) : list (Z * (Z * V)) :=
  map (fun ft => (tick (fst ft), (tick (snd ft), snd ft))) l.

(** src/project.rs 754-827 *)
Definition change (p : project) (c : model_changes) : edited :=
  let notes := b_change note_eq_dec
    (map (fun ft => (note_entry (fst ft), note_entry (snd ft))) (ch_notes c)) (pj_notes p) in
  let (bars, rb) := s_change (change_entries b_tick (ch_bars c)) (pj_bars p) in
  let (tempos, rt) := s_change (change_entries tp_tick (ch_tempos c)) (pj_tempos p) in
  let (dumpers, rd) := s_change (change_entries cc_tick (ch_dumpers c)) (pj_dumpers p) in
  let (softs, rs) := s_change (change_entries cc_tick (ch_softs c)) (pj_softs p) in
  let p1 := mkProject (pj_rhythm p) (pj_key p) (pj_grid p) notes bars tempos dumpers softs in
  let! (p2, more) := replenish_bars p1 in
  Ret (Some (p2, ModelChanged
    (mkModels (map snd (ch_notes c)) (map snd (ch_bars c) ++ more) (map snd (ch_tempos c))
       (map snd (ch_dumpers c)) (map snd (ch_softs c)))
    (mkModels (map fst (ch_notes c)) (map fst (ch_bars c) ++ map snd rb) (map fst (ch_tempos c) ++ map snd rt)
       (map fst (ch_dumpers c) ++ map snd rd) (map fst (ch_softs c) ++ map snd rs)))).

(** The methods of the trait [Project] that change the project (src/project.rs 533-568). *)
Inductive edit :=
| ESetRhythm (r : rhythm) | ESetKey (k : key) | ESetGrid (g : grid)
| EAddNote (n : note) | EAddBar (b : bar) | EAddTempo (t : tempo)
| EAddDumper (c : ctrl_chg) | EAddSoft (c : ctrl_chg)
| ETuplize (l : list note)
| EBulkRemove (m : models) | EBulkAdd (m : models) | EChange (c : model_changes).

Definition edit_run (e : edit) (p : project) : edited :=
  match e with
  | ESetRhythm r => set_rhythm p r
  | ESetKey k => set_key p k
  | ESetGrid g => set_grid p g
  | EAddNote n => add_note p n
  | EAddBar b => add_bar p b
  | EAddTempo t => add_tempo p t
  | EAddDumper c => add_dumper p c
  | EAddSoft c => add_soft p c
  | ETuplize l => tuplize_notes p l
  | EBulkRemove m => bulk_remove p m
  | EBulkAdd m => bulk_add p m
  | EChange c => change p c
  end.

(** ** The undo store (serdo's [SqliteUndoStore], see DESIGN.md).  Newest
    command first; at most [h_limit] commands can be undone. *)
Record history := mkHist {
  h_model : project; h_undo : list cmd; h_redo : list cmd; h_limit : nat }.

Definition history_new (p : project) (limit : nat) : history := mkHist p [] [] limit.

Definition history_edit (h : history) (e : edit) : outcome history :=
  let! r := edit_run e (h_model h) in
  match r with
  | None => Ret h
  | Some (p, c) => Ret (mkHist p (firstn (h_limit h) (c :: h_undo h)) [] (h_limit h))
  end.

Definition history_undo (h : history) : history :=
  match h_undo h with
  | [] => h
  | c :: r => mkHist (cmd_undo c (h_model h)) r (c :: h_redo h) (h_limit h)
  end.

Definition history_redo (h : history) : history :=
  match h_redo h with
  | [] => h
  | c :: r => mkHist (cmd_redo c (h_model h)) (c :: h_undo h) r (h_limit h)
  end.

(** Reopening: the recorded commands, oldest first, are redone on the stored
    snapshot. *)
Definition replay (snapshot : project) (log : list cmd) : project :=
  fold_left (fun p c => cmd_redo c p) log snapshot.
