(** Specification of writing signs into the bars of a project. *)
From Coq Require Import ZArith List Bool.
From Verif Require Import Base M_Scalar M_Bar M_Note M_Models M_Project S_Project S_Score.
Import ListNotations.
Open Scope Z_scope.

Definition only_bars (m : models) : Prop := m_notes m = [] /\ m_tempos m = [] /\ m_dumpers m = [] /\ m_softs m = [].

(** Bars are replaced where they are: whatever is put in is put where a bar is, and whatever is taken out is replaced. *)
Record in_place (p : project) (out into : models) : Prop := mkPlace {
  pl_out : only_bars out;
  pl_into : only_bars into;
  pl_there : forall b, In b (m_bars into) -> In (b_tick b) (map b_tick (score p));
  pl_back : forall b, In b (m_bars out) -> In (b_tick b) (map b_tick (m_bars into));
}.

(** The same bars, except that those in [new] are instead of the ones with their ticks. *)
Definition rewritten (new bars bars' : list bar) : Prop :=
  Forall2 (fun b b' => b_tick b' = b_tick b /\ (In b' new \/ b' = b /\ ~ In (b_tick b) (map b_tick new))) bars bars'.

(** What is to be changed, bar by bar, to make [bars] into [bars']: every pair of a bar and what is at its place, at least where they differ. *)
Record differences (bars bars' : list bar) (ch : list (bar * bar)) : Prop := mkDiff {
  df_ticks : Forall2 (fun b b' => b_tick b' = b_tick b) bars bars';
  df_once : NoDup (map (fun x => b_tick (fst x)) ch);
  df_some : forall x, In x ch -> In x (combine bars bars');
  df_all : forall b b', In (b, b') (combine bars bars') -> b = b' \/ In (b, b') ch;
}.
Definition change_bars (ch : list (bar * bar)) : edit := EChange (mkChanges [] ch [] [] []).
