(** Specification of the events of a project: what an observer makes of them (C59)
    and which elements they say are to be selected (C60). *)
From Coq Require Import ZArith List Bool.
From Verif Require Import Base M_Pitch M_Duration M_Scalar M_Bar M_Note M_Models M_Store M_Tuple M_Project M_Event S_Project.
Import ListNotations.
Open Scope Z_scope.

(** ** An observer that keeps a copy of the repositories *)

(** [a] and [b] have the same repositories *)
Definition same_repos (a b : project) : Prop :=
  pj_notes a = pj_notes b /\ pj_bars a = pj_bars b /\ pj_tempos a = pj_tempos b /\
  pj_dumpers a = pj_dumpers b /\ pj_softs a = pj_softs b.

(** what an event says was done *)
Definition follow_store {V : Type} (s : list (Z * V)) (e : store_event V) : list (Z * V) :=
  match e with
  | SAdd k v _ => fst (s_add k v s)
  | SRemove k => s_remove k s
  | SBulkAdd l _ => fst (s_bulk_add l s)
  | SChange l _ => fst (s_change l s)
  end.
Definition follow_bag (s : list (Z * note)) (e : bag_event) : list (Z * note) :=
  match e with
  | BAdd k n _ => b_add k n s
  | BRemove k n => b_remove note_eq_dec k n s
  | BBulkAdd l _ => b_bulk_add l s
  | BBulkRemove l _ => b_bulk_remove note_eq_dec l s
  | BChange l _ => b_change note_eq_dec l s
  end.
(** the copy after all of the events, oldest first *)
Definition follow (v : events) (p : project) : project :=
  mkProject (pj_rhythm p) (pj_key p) (pj_grid p)
    (fold_left follow_bag (ev_notes v) (pj_notes p)) (fold_left follow_store (ev_bars v) (pj_bars p))
    (fold_left follow_store (ev_tempos v) (pj_tempos p)) (fold_left follow_store (ev_dumpers v) (pj_dumpers p))
    (fold_left follow_store (ev_softs v) (pj_softs p)).

(** The editor and the observer: at any time the observer may look at the events,
    bring its copy up to date and have the events cleared. *)
Inductive move := Act (a : act) | Look (keep : bool).
Definition together (x : session * project) (m : move) : outcome (session * project) :=
  let '(s, copy) := x in
  match m with
  | Act (Clear _) => Ret (s, copy)
  | Act a => let! s' := act_run a s in Ret (s', copy)
  | Look keep => let! s' := act_run (Clear keep) s in Ret (s', follow (ss_events s) copy)
  end.
Fixpoint all_together (x : session * project) (ms : list move) : outcome (session * project) :=
  match ms with
  | [] => Ret x
  | m :: ms' => let! y := together x m in all_together y ms'
  end.

(** ** The selection *)

(** The events report [x] as put in, with the metadata [m]. *)
Inductive put_in {V : Type} (x : V) (m : metadata) : store_event V -> Prop :=
| put_add k : put_in x m (SAdd k x m)
| put_bulk k l : In (k, x) l -> put_in x m (SBulkAdd l m)
| put_change k0 k l : In (k0, (k, x)) l -> put_in x m (SChange l m).
Inductive note_in (x : note) (m : metadata) : bag_event -> Prop :=
| note_add k : note_in x m (BAdd k x m)
| note_bulk k l : In (k, x) l -> note_in x m (BBulkAdd l m)
| note_change old k l : In (old, (k, x)) l -> note_in x m (BChange l m).
Definition note_reported (v : events) (x : note) (m : metadata) : Prop := exists e, In e (ev_notes v) /\ note_in x m e.
Definition reported {V : Type} (l : list (store_event V)) (x : V) (m : metadata) : Prop := exists e, In e l /\ put_in x m e.

(** What the caller asks to have put in, and what it says about it. *)
Definition asked (q : request) : option (models * metadata) :=
  let sel (s : bool) := mkMeta (if s then Some true else None) false in
  match q with
  | QSetRhythm _ | QSetKey _ | QSetGrid _ => None
  | QAddNote n s => Some (mkModels [n] [] [] [] [], sel s)
  | QAddBar b s => Some (mkModels [] [b] [] [] [], sel s)
  | QAddTempo t s => Some (mkModels [] [] [t] [] [], sel s)
  | QAddDumper d s => Some (mkModels [] [] [] [d] [], sel s)
  | QAddSoft d s => Some (mkModels [] [] [] [] [d], sel s)
  | QTuplize l => match tuplize l with Ret t => if (1 <? length l)%nat then Some (mkModels t [] [] [] [], sel true) else None | _ => None end
  | QBulkRemove _ _ => None
  | QBulkAdd m d => Some (m, d)
  | QChange c d => Some (changes_to c, d)
  end.
(** neither to be selected nor to be unselected *)
Definition leave_alone : metadata := mkMeta None false.
