(** Specification of what may be put into a project so that nothing panics or
    runs for ever. *)
From Coq Require Import ZArith List Bool.
From Verif Require Import Base M_Duration M_Percent M_Scalar M_Bar M_Note M_Models M_Project M_Event M_Text M_Json M_Disk.
From Verif Require Import S_Percent S_Note S_Tuple S_Project S_Disk.
Import ListNotations.
Open Scope Z_scope.

(** There is room for the longest bar (255/2) behind tick [t]. *)
Definition in_reach (t : Z) : Prop := t + 122400 <= u32_max + 1.

Definition safe_rhythm (r : rhythm) : Prop := 1 <= rh_num r <= 255.
Definition safe_note (n : note) : Prop :=
  note_valid n /\ u32 (n_base_tick n) /\ valid_trimmer (n_tick_trimmer n) /\
  u8 (n_base_velocity n) /\ valid_trimmer (n_velocity_trimmer n) /\
  forall l, note_tick_len n = Ret l -> in_reach (note_start_tick n + l).
Definition safe_bar (b : bar) : Prop := u32 (b_tick b) /\ forall r, b_rhythm b = Some r -> safe_rhythm r.
Definition safe_tempo (t : tempo) : Prop := u32 (tp_tick t) /\ in_reach (tp_tick t).
Definition safe_ctrl (c : ctrl_chg) : Prop := u32 (cc_tick c) /\ in_reach (cc_tick c).
Definition safe (m : models) : Prop :=
  Forall safe_note (m_notes m) /\ Forall safe_bar (m_bars m) /\ Forall safe_tempo (m_tempos m) /\
  Forall safe_ctrl (m_dumpers m) /\ Forall safe_ctrl (m_softs m).

(** A project in which everything is so. *)
Definition safe_project (p : project) : Prop :=
  project_ok p /\ safe_rhythm (pj_rhythm p) /\ 1 <= pj_grid p <= u32_max /\
  safe (mkModels (map snd (pj_notes p)) (map snd (pj_bars p)) (map snd (pj_tempos p)) (map snd (pj_dumpers p)) (map snd (pj_softs p))).

(** Notes that can be made a tuplet: not too many, the tuplet number (see C39) is
    one that there is, not at the very end. *)
Definition safe_tuplet (l : list note) : Prop :=
  Z.of_nat (length l) <= 2048 /\ Forall (fun n => n_base_tick n <= 4200000000) l /\
  forall cs g, chords l cs -> is_gcd g (map (fun n => units (n_duration n)) l) ->
    sum (map (fun c => units (snd (fst c))) cs) / g <= 255.

(** Everything that an edit mentions is so.  Nothing is said about whether what is
    taken out is there, and ticks may be taken twice. *)
Definition edit_safe (e : edit) : Prop :=
  match e with
  | ESetRhythm r => safe_rhythm r
  | ESetKey _ => True
  | ESetGrid g => 1 <= g <= u32_max
  | EAddNote n => safe_note n
  | EAddBar b => safe_bar b
  | EAddTempo t => safe_tempo t
  | EAddDumper c | EAddSoft c => safe_ctrl c
  | ETuplize l => Forall safe_note l /\ safe_tuplet l
  | EBulkRemove m | EBulkAdd m => safe m
  | EChange c => safe (changes_from c) /\ safe (changes_to c)
  end.
Definition hop_safe (o : hop) : Prop := match o with HEdit e => edit_safe e | _ => True end.
Definition act_safe (a : act) : Prop := match a with Ask q => edit_safe (request_edit q) | _ => True end.

(** Reading a saved project. *)
Definition loads (ov : text -> bool) (t : text) (p : project) : Prop :=
  exists j, parse_document ov t = Some j /\ read_project j = Ret (Some p).
