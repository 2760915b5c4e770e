(** Property theorems about which JSON documents are read, and as what: C70. *)
From Coq Require Import ZArith List Bool Ascii String Lia.
From Verif Require Import Base M_Pitch M_Duration M_Percent M_Scalar M_Bar M_Note M_Models M_Project M_Text M_Json.
From Verif Require Import S_Pitch S_Note S_Percent S_Text S_Json S_Format S_Accept P_Base P_Json P_Savable P_Accept.
From Verif Require Import T_Json.
Import ListNotations.
Open Scope Z_scope.
Open Scope list_scope.

(** Pasting a selection: exactly the texts with the number 1 and a document of a
    selection are accepted, and they give that selection. *)
Theorem C70_selection : forall ov t m, from_clipboard_text ov t = Ret (Ok m) <->
  exists rest j, begins_with ov t (JInt 1) rest /\ padded (json_text ov) rest j /\ models_doc j m.
Proof.
  intros ov t m. rewrite C36_accepts. split; intros (rest & j & B & P & R); exists rest, j;
    (split; [exact B|split; [exact P|now apply (proj1 reads_models_doc)]]).
Qed.
Print Assumptions C70_selection.

Theorem C70_score : forall ov t e, score_from_clipboard_text ov t = Ret (Ok e) <->
  exists rest j, begins_with ov t (JInt 1) rest /\ padded (json_text ov) rest j /\ score_doc j e.
Proof.
  intros ov t e. pose proof (C36_score ov t) as (_ & _ & _ & A & _). rewrite A.
  split; intros (rest & j & B & P & R); exists rest, j;
    (split; [exact B|split; [exact P|now apply (proj1 reads_score_doc)]]).
Qed.
Print Assumptions C70_score.

(** A saved project. *)
Theorem C70_project : forall j p, read_project j = Ret (Some p) <-> exists e, project_doc j e /\ p = import e.
Proof.
  intros j p. unfold read_project. split.
  - intros R. apply bind_opt_inv in R as (e & Re & R). exists e. split; [now apply (proj1 reads_exported_doc)|congruence].
  - intros (e & D & ->). apply (proj1 reads_exported_doc) in D. rewrite D. reflexivity.
Qed.
Print Assumptions C70_project.

(** A document stands for at most one selection, score or project. *)
Theorem C70_unique : forall j,
  (forall m m', models_doc j m -> models_doc j m' -> m = m') /\
  (forall e e', score_doc j e -> score_doc j e' -> e = e') /\
  (forall e e', project_doc j e -> project_doc j e' -> e = e').
Proof.
  intros j. split; [|split]; intros x y X Y.
  - apply (proj1 reads_models_doc) in X, Y. congruence.
  - apply (proj1 reads_score_doc) in X, Y. congruence.
  - apply (proj1 reads_exported_doc) in X, Y. congruence.
Qed.
Print Assumptions C70_unique.

Lemma outcome_cases {A} (o : outcome (option A)) : o <> Hang -> o <> Ret None -> (forall a, o <> Ret (Some a)) -> o = Panic.
Proof. destruct o as [[a|]| |]; intros H N S; try congruence. Qed.

(** Pasting panics for every document that is right but for pitches beyond MIDI or
    trimmers whose sums do not fit. *)
Theorem C70_panics : forall ov t rest j, begins_with ov t (JInt 1) rest -> padded (json_text ov) rest j ->
  ((exists m, models_like note_shape j m) -> (forall m, ~ models_doc j m) -> from_clipboard_text ov t = Panic) /\
  ((exists e, score_like note_shape j e) -> (forall e, ~ score_doc j e) -> score_from_clipboard_text ov t = Panic).
Proof.
  intros ov t rest j B P.
  split; intros [m S] N; [apply (proj2 (clipboard_panic ov read_models t))|apply (proj2 (clipboard_panic ov read_score t))];
    exists rest, j; (split; [exact B|split; [exact P|]]); apply outcome_cases.
  - apply ends_models.
  - eapply (proj2 reads_models_doc), S.
  - intros a E. apply (proj1 reads_models_doc) in E. exact (N a E).
  - apply ends_score.
  - eapply (proj2 reads_score_doc), S.
  - intros a E. apply (proj1 reads_score_doc) in E. exact (N a E).
Qed.
Print Assumptions C70_panics.

Theorem C70_project_panics : forall j, (exists e, project_like note_shape j e) -> (forall e, ~ project_doc j e) ->
  read_project j = Panic.
Proof.
  intros j [e S] N. unfold read_project.
  assert (E : read_exported j = Panic); [|now rewrite E].
  apply outcome_cases.
  - change (ends (read_exported j)). unfold read_exported. repeat go_ends; auto using ends_models, ends_rhythm; [unfold read_key|unfold read_grid]; repeat go_ends.
  - eapply (proj2 reads_exported_doc), S.
  - intros a E. apply (proj1 reads_exported_doc) in E. exact (N a E).
Qed.
Print Assumptions C70_project_panics.

(** Every other document is refused, if no such pitch or trimmer is in it. *)
Theorem C70_refuses : forall ov t rest j, begins_with ov t (JInt 1) rest -> padded (json_text ov) rest j ->
  (forall x, within x j -> ~ bad_pitch x /\ ~ bad_trimmer x) ->
  ((forall m, ~ models_doc j m) -> from_clipboard_text ov t = Ret (Err (CannotParse t))) /\
  ((forall e, ~ score_doc j e) -> score_from_clipboard_text ov t = Ret (Err (CannotParse t))).
Proof.
  intros ov t rest j B P C. 
  split; intros N; [apply (proj2 (clipboard_cannot ov read_models t t))|apply (proj2 (clipboard_cannot ov read_score t t))]; (split; [reflexivity|right]); exists rest; (split; [exact B|right]);
    exists j; (split; [exact P|]).
  - destruct (read_models j) as [[m|]| |] eqn:E; [exfalso|reflexivity|exfalso|exfalso].
    + apply (proj1 reads_models_doc) in E. exact (N m E).
    + apply caused_models in E as (x & W & D). specialize (C x W). tauto.
    + exact (ends_models j E).
  - destruct (read_score j) as [[m|]| |] eqn:E; [exfalso|reflexivity|exfalso|exfalso].
    + apply (proj1 reads_score_doc) in E. exact (N m E).
    + apply caused_score in E as (x & W & D). specialize (C x W). tauto.
    + exact (ends_score j E).
Qed.
Print Assumptions C70_refuses.

(** ** Cases *)

(** Records as arrays and words as objects are accepted, velocities, tempos and tuplet
    numbers are put in range, unknown bits of the marks are dropped, a missing key is
    no key. *)
Definition terse : text :=
  quoted "1[[[7,[{'C':null},'Oct4','Null'],['Quarter',0,9],true,false,200,[[1,2,3,4]],[[[1000],[1000],[1000],[1000]]],{'values':[0,0,0,0]},200]],[{'repeats':[63489],'start_tick':5,'rhythm':null},[6,[0,'D64'],-100,[0]]],[[8,0],[9,60000]],[],[[1,128,3]]]".

Example C70_case : exists m, from_clipboard_text none terse = Ret (Ok m) /\
  (exists rest j, begins_with none terse (JInt 1) rest /\ padded (json_text none) rest j /\ models_doc j m) /\
  map n_base_velocity (m_notes m) = [127] /\ map (fun n => d_den (n_duration n)) (m_notes m) = [2] /\
  m_bars m = [mkBar 5 None None (ms_of [Start; Var4] - 1024); mkBar 6 (Some (mkRhythm 0 D64)) (Some (-100)) 0] /\
  m_tempos m = [mkTempo 8 1; mkTempo 9 999] /\ m_softs m = [mkCtrl 1 127 3].
Proof.
  assert (E : exists m, from_clipboard_text none terse = Ret (Ok m) /\
    map n_base_velocity (m_notes m) = [127] /\ map (fun n => d_den (n_duration n)) (m_notes m) = [2] /\
    m_bars m = [mkBar 5 None None (ms_of [Start; Var4] - 1024); mkBar 6 (Some (mkRhythm 0 D64)) (Some (-100)) 0] /\
    m_tempos m = [mkTempo 8 1; mkTempo 9 999] /\ m_softs m = [mkCtrl 1 127 3]).
  { eexists. split; [vm_compute; reflexivity|]. repeat split; vm_compute; reflexivity. }
  destruct E as (m & E & Rest). exists m. split; [exact E|]. split; [now apply C70_selection|exact Rest].
Qed.

(** A selection of one note that would be a C flat below MIDI. *)
Definition low_note : json :=
  JArr [JInt 7; JArr [JStr (words "C"); JStr (words "OctM2"); JStr (words "Flat")]; JArr [JStr (words "Quarter"); JInt 2; JInt 0];
        JBool true; JBool false; JInt 64; JArr [JArr [JInt 0; JInt 0; JInt 0; JInt 0]];
        JArr [JArr [JArr [JInt 1000]; JArr [JInt 1000]; JArr [JInt 1000]; JArr [JInt 1000]]];
        JArr [JArr [JInt 0; JInt 0; JInt 0; JInt 0]]; JInt 0].
Definition low : json := JArr [JArr [low_note]; JArr []; JArr []; JArr []; JArr []].

Example C70_panics_case : (exists m, models_like note_shape low m) /\ (forall m, ~ models_doc low m).
Proof.
  split.
  - exists (mkModels [mkNote 7 (P_Pitch.canon SC O4 NoAccidental) (mkDur Quarter 2 0) true false 64 trimmer_zero (rate_from_array 1000 1000 1000 1000) trimmer_zero 0] [] [] [] []).
    assert (H : forall A names x i (v : json) (P : json -> A -> Prop) a, field_is names x i v -> P v a -> holds names x i P a) by (intros; eexists; eauto).
    assert (I : forall lo hi z, lo <= z <= hi -> int_doc lo hi (JInt z) z) by (intros; split; auto).
    assert (F : forall a b c d x, x = JArr [JArr [JInt a; JInt b; JInt c; JInt d]] -> i16 a -> i16 b -> i16 c -> i16 d -> four_numbers x a b c d).
    { intros a b c d x -> A B C D. eapply H; [split; reflexivity|]. exists [JInt a; JInt b; JInt c; JInt d]. split; [reflexivity|]. repeat (constructor; [now apply I|]). constructor. }
    assert (Z0 : i16 0) by (split; vm_compute; congruence).
    assert (E : forall A (P : json -> A -> Prop), list_doc P (JArr []) []) by (intros; eexists; split; [reflexivity|constructor]).
    repeat split; try (eapply H; [split; reflexivity|]; apply E).
    eapply H; [split; reflexivity|]. exists [low_note]. split; [reflexivity|]. constructor; [|constructor].
    repeat match goal with |- _ /\ _ => split | |- note_shape _ _ => unfold note_shape, note_like end; (eapply H; [split; reflexivity|]).
    + apply I. cbn; lia.
    + exists SC, OM2, Flat. repeat split; (eapply H; [split; reflexivity|]); left; reflexivity.
    + exists 2. repeat split; (eapply H; [split; reflexivity|]); [left; reflexivity|apply I; lia|apply I; cbn; lia].
    + reflexivity.
    + reflexivity.
    + exists 64. split; [apply I; lia|reflexivity].
    + exists 0, 0, 0, 0. now apply F.
    + assert (U : forall z, u16 z -> number_doc 65535 (JArr [JInt z]) z) by (intros z Hz; eapply H; [split; reflexivity|]; now apply I).
      assert (U0 : u16 1000) by (split; vm_compute; congruence).
      split; [|repeat split; vm_compute; congruence].
      eapply H; [split; reflexivity|]. eexists. split; [reflexivity|]. repeat (constructor; [now apply U|]). constructor.
    + exists 0, 0, 0, 0. now apply F.
    + apply I. cbn; lia.
  - intros m D. apply (proj1 reads_models_doc) in D.
    assert (P : read_models low = Panic) by (vm_compute; reflexivity). congruence.
Qed.
(** A project with that note. *)
Definition low_project : json := JArr [JArr [JInt 4; JStr (words "D4")]; JInt 0; JArr [JInt 60]; low].
Example C70_project_panics_case : (exists e, project_like note_shape low_project e) /\ (forall e, ~ project_doc low_project e).
Proof.
  split.
  - destruct (proj1 C70_panics_case) as [m M]. exists (mkExported (mkRhythm 4 D4) 0 60 m).
    assert (H : forall A names x i (v : json) (P : json -> A -> Prop) a, field_is names x i v -> P v a -> holds names x i P a) by (intros; eexists; eauto).
    assert (I : forall lo hi z, lo <= z <= hi -> int_doc lo hi (JInt z) z) by (intros; split; auto).
    split; [|split; [|split]]; (eapply H; [split; reflexivity|]).
    + split; (eapply H; [split; reflexivity|]); [apply I; cbn; lia|left; reflexivity].
    + apply I. cbn; lia.
    + eapply H; [split; reflexivity|]. apply I. cbn; lia.
    + exact M.
  - intros e D. apply (proj1 reads_exported_doc) in D.
    assert (P : read_exported low_project = Panic) by (vm_compute; reflexivity). congruence.
Qed.
(** A document that lacks its bars is refused as a selection and as a score. *)
Example C70_refuses_case : let t := quoted "1{'notes':[],'tempos':[],'dumpers':[],'softs':[]}" in exists rest j,
  begins_with none t (JInt 1) rest /\ padded (json_text none) rest j /\
  (forall x, within x j -> ~ bad_pitch x /\ ~ bad_trimmer x) /\ (forall m, ~ models_doc j m) /\ (forall e, ~ score_doc j e).
Proof.
  cbv zeta. eexists. exists (JObj [(words "notes", JArr []); (words "tempos", JArr []); (words "dumpers", JArr []); (words "softs", JArr [])]).
  split; [apply first_some; vm_compute; reflexivity|]. split; [apply document_iff; vm_compute; reflexivity|].
  split; [|split].
  - assert (V : forall x, within x (JArr []) -> x = JArr []).
    { intros x W. inversion W as [|v l I|]; [reflexivity|destruct I]. }
    assert (N : forall i n v, ~ field_of (JArr []) i n v).
    { intros i n v [(l & E & _)|(l & E & K)]; [discriminate E|]. inversion E; subst. destruct i; discriminate K. }
    intros x W. inversion W as [|v l I|k v l I W']; subst.
    + split.
      * intros (s & o & a & js & jo & ja & F & _). destruct F as [(l & E & K)|(l & E & _)]; [|discriminate E].
        inversion E; subst. cbn in K. intuition discriminate.
      * intros (a & b & c & d & F & _). destruct F as [(l & E & K)|(l & E & _)]; [|discriminate E].
        inversion E; subst. cbn in K. intuition discriminate.
    + assert (Ev : v = JArr []) by (cbn in I; intuition congruence). subst v. apply V in W'. subst x. split.
      * intros (s & o & a & js & jo & ja & F & _). exact (N _ _ _ F).
      * intros (a & b & c & d & F & _). exact (N _ _ _ F).
  - intros m D. apply (proj1 reads_models_doc) in D. vm_compute in D. discriminate D.
  - intros e D. apply (proj1 reads_score_doc) in D. vm_compute in D. discriminate D.
Qed.
