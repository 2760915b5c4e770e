(** Model of src/models.rs (without the clipboard text, see M_Json.v). *)
From Coq Require Import ZArith List Bool.
From Verif Require Import Base M_Scalar M_Bar M_Note.
Import ListNotations.
Open Scope Z_scope.

(** src/models.rs 8-14 *)
Record models := mkModels {
  m_notes : list note;
  m_bars : list bar;
  m_tempos : list tempo;
  m_dumpers : list ctrl_chg;
  m_softs : list ctrl_chg;
}.

(** src/models.rs 44-52 *)
Definition models_empty : models := mkModels [] [] [] [] [].

(** src/models.rs 152-158 *)
Record model_changes := mkChanges {
  ch_notes : list (note * note);
  ch_bars : list (bar * bar);
  ch_tempos : list (tempo * tempo);
  ch_dumpers : list (ctrl_chg * ctrl_chg);
  ch_softs : list (ctrl_chg * ctrl_chg);
}.

(** field assignments *)
Definition bar_set_tick (b : bar) (t : Z) : bar := mkBar t (b_rhythm b) (b_key b) (b_marks b).
Definition tempo_set_tick (b : tempo) (t : Z) : tempo := mkTempo t (tp_value b).
Definition ctrl_set_tick (b : ctrl_chg) (t : Z) : ctrl_chg := mkCtrl t (cc_velocity b) (cc_channel b).

(** src/models.rs 54-70: the smallest tick, u32::MAX if there is no element *)
Definition smallest_tick (m : models) : Z :=
  let go (l : list Z) (z : Z) := fold_left (fun a t => Z.min t a) l z in
  go (map cc_tick (m_softs m))
    (go (map cc_tick (m_dumpers m))
       (go (map tp_tick (m_tempos m))
          (go (map b_tick (m_bars m))
             (go (map n_base_tick (m_notes m)) u32_max)))).

(** src/models.rs 72-91; the i64 arithmetic cannot overflow for u32 ticks *)
Definition move_to_tick (m : models) (tick : Z) : models :=
  let offset := tick - smallest_tick m in
  if offset =? 0 then m
  else
    mkModels
      (map (fun n => set_base_tick n (as_u32 (n_base_tick n + offset))) (m_notes m))
      (map (fun b => bar_set_tick b (as_u32 (b_tick b + offset))) (m_bars m))
      (map (fun t => tempo_set_tick t (as_u32 (tp_tick t + offset))) (m_tempos m))
      (map (fun c => ctrl_set_tick c (as_u32 (cc_tick c + offset))) (m_dumpers m))
      (map (fun c => ctrl_set_tick c (as_u32 (cc_tick c + offset))) (m_softs m)).
