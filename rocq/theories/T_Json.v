(** Property theorems about clipboard texts and saved projects: C35, C36, C52, C53. *)
From Coq Require Import ZArith List Bool Lia Permutation Ascii String.
From Verif Require Import Base M_Pitch M_Duration M_Percent M_Scalar M_Bar M_Note M_Models M_Store M_Tuple M_Project M_Text M_Json.
From Verif Require Import S_Pitch S_Note S_Percent S_Project S_Text S_Json P_Base P_Percent P_Query P_Json P_Savable.
From Verif Require T_Project.
Import ListNotations.
Open Scope Z_scope.
Open Scope list_scope.

(** Everything below holds whatever numbers f64 can hold ([ov], see M_Json). *)

(** A selection for the examples: trimmed notes, a bar with everything, a bar
    with nothing, tempos and pedal events. *)
Definition ex_pitch : pitch := match pitch_new SF O5 DoubleSharp with Ret p => p | _ => mkPitch SF O5 DoubleSharp 0 0 end.
Definition ex_note : note :=
  mkNote 4294967295 ex_pitch (mkDur N64th 9 7) true false 127 (trimmer_new (-3) 32767 (-32768) 4)
    (rate_from_array 900 1500 1100 1000) (trimmer_new 0 1 2 3) 15.
Definition ex_models : models :=
  mkModels [ex_note; T_Project.ex_note 480 SC]
    [mkBar 960 None None 0; mkBar 1920 (Some (mkRhythm 3 D8)) (Some (-7)) (18)]
    [mkTempo 0 1; mkTempo 5 999] [mkCtrl 0 127 3] [mkCtrl 7 0 0].

Lemma ex_models_savable : savable ex_models.
Proof. apply (read_models_savable (write_models ex_models)). vm_compute. reflexivity. Qed.

(** * C35 *)

(** A selection put on the clipboard and taken from it again is the same. *)
Theorem C35_models : forall ov m, savable m -> from_clipboard_text ov (to_clipboard_text m) = Ret (Ok m).
Proof. exact models_roundtrip. Qed.
Print Assumptions C35_models.

(** The other kind of text, with a key and a rhythm. *)
Theorem C35_score : forall ov e, savable_score e ->
  score_from_clipboard_text ov (chars "1" ++ show_json (write_score e)) = Ret (Ok e).
Proof. exact score_roundtrip. Qed.
Print Assumptions C35_score.

Example C35_example : savable ex_models /\ savable_score (mkScore (Some (-3)) None ex_models) /\
  firstn 57 (to_clipboard_text ex_models) =
    chars "1{" ++ show_string (chars "notes") ++ chars ":[{" ++ show_string (chars "base_start_tick") ++ chars ":4294967295," ++
    show_string (chars "pitch") ++ chars ":{" ++ show_string (chars "solfa").
Proof.
  split; [exact ex_models_savable|]. split; [|vm_compute; reflexivity].
  split; [intros k H; inversion H; unfold savable_key; lia|]. split; [discriminate | exact ex_models_savable].
Qed.

(** Without the conditions it is false.  A trimmer whose sums do not fit i16: the
    text can be made, reading it panics. *)
Theorem C35_refuted_trimmer : exists n, valid_trimmer (n_tick_trimmer n) /\
  forall ov, from_clipboard_text ov (to_clipboard_text (mkModels [n] [] [] [] [])) = Panic.
Proof.
  exists (mkNote 0 ex_pitch (mkDur Quarter 2 0) false false 64 (trimmer_new 32767 1 0 0) rate_one trimmer_zero 0).
  split; [split; [repeat constructor; vm_compute; congruence | reflexivity]|].
  intros ov. rewrite models_written by (vm_compute; reflexivity).
  match goal with |- bind ?m _ = _ => let v := eval vm_compute in m in replace m with v by (vm_compute; reflexivity) end.
  reflexivity.
Qed.
Print Assumptions C35_refuted_trimmer.

(** A tempo of 0 comes back as 1. *)
Theorem C35_refuted_tempo : tempo_value_new 0 = Ret 0 /\
  forall ov, from_clipboard_text ov (to_clipboard_text (mkModels [] [] [mkTempo 0 0] [] [])) =
    Ret (Ok (mkModels [] [] [mkTempo 0 1] [] [])).
Proof.
  split; [reflexivity|]. intros ov. rewrite models_written by (vm_compute; reflexivity).
  match goal with |- bind ?m _ = _ => let v := eval vm_compute in m in replace m with v by (vm_compute; reflexivity) end.
  reflexivity.
Qed.
Print Assumptions C35_refuted_tempo.

(** A rate trimmer made from rates that are no multiples of a thousandth comes
    back with another effect: here 1.003 becomes 1. *)
Theorem C35_refuted_rate :
  let r := f32_div (f32_of_Z 10009) (f32_of_Z 10000) in
  let n t := mkNote 0 ex_pitch (mkDur Quarter 2 0) false false 64 trimmer_zero t trimmer_zero 0 in
  r_sum (rate_new r r r r) = 1003 /\
  forall ov, from_clipboard_text ov (to_clipboard_text (mkModels [n (rate_new r r r r)] [] [] [] [])) =
    Ret (Ok (mkModels [n rate_one] [] [] [] [])).
Proof.
  cbv zeta. split; [vm_compute; reflexivity|]. intros ov. rewrite models_written by (vm_compute; reflexivity).
  match goal with |- bind ?m _ = _ => let v := eval vm_compute in m in replace m with v by (vm_compute; reflexivity) end.
  reflexivity.
Qed.
Print Assumptions C35_refuted_rate.

(** * C36 *)

(** Blank texts. *)
Theorem C36_empty : forall ov t, from_clipboard_text ov t = Ret (Err EmptyString) <-> blank t.
Proof. exact (fun ov => clipboard_empty ov read_models). Qed.
Print Assumptions C36_empty.

(** Another version. *)
Theorem C36_version : forall ov t v, from_clipboard_text ov t = Ret (Err (VersionErr v)) <->
  exists rest, begins_with ov t (JInt v) rest /\ 0 <= v /\ v <> 1.
Proof. exact (fun ov => clipboard_version_err ov read_models). Qed.
Print Assumptions C36_version.

(** A first value that is not a natural number. *)
Theorem C36_not_u64 : forall ov t s, from_clipboard_text ov t = Ret (Err (VersionNotU64 s)) <->
  s = t /\ exists j rest, begins_with ov t j rest /\ forall v, j = JInt v -> v < 0.
Proof. exact (fun ov => clipboard_not_u64 ov read_models). Qed.
Print Assumptions C36_not_u64.

(** No first value at all, or version 1 but no JSON text of a selection after it. *)
Theorem C36_cannot_parse : forall ov t s, from_clipboard_text ov t = Ret (Err (CannotParse s)) <->
  s = t /\ ((~ blank t /\ forall j rest, ~ begins_with ov t j rest) \/
            (exists rest, begins_with ov t (JInt 1) rest /\
               ((forall j, ~ padded (json_text ov) rest j) \/ (exists j, padded (json_text ov) rest j /\ read_models j = Ret None)))).
Proof. exact (fun ov => clipboard_cannot ov read_models). Qed.
Print Assumptions C36_cannot_parse.

(** It succeeds exactly with the number 1 and one JSON text of a selection. *)
Theorem C36_accepts : forall ov t m, from_clipboard_text ov t = Ret (Ok m) <->
  exists rest j, begins_with ov t (JInt 1) rest /\ padded (json_text ov) rest j /\ read_models j = Ret (Some m).
Proof. exact (fun ov => clipboard_ok ov read_models). Qed.
Print Assumptions C36_accepts.

(** It always ends. *)
Theorem C36_ends : forall ov t, from_clipboard_text ov t <> Hang.
Proof. exact (fun ov t => clipboard_ends ov read_models t ends_models). Qed.
Print Assumptions C36_ends.

(** "It never panics" is false, but only for one of two reasons: a pitch beyond
    MIDI, or a trimmer whose sums do not fit i16, somewhere in the text. *)
Theorem C36_panic : forall ov t, from_clipboard_text ov t = Panic ->
  exists rest j x, begins_with ov t (JInt 1) rest /\ padded (json_text ov) rest j /\ within x j /\ (bad_pitch x \/ bad_trimmer x).
Proof.
  intros ov t H. unfold from_clipboard_text in H. apply clipboard_panic in H as (rest & j & B & P & R). apply caused_models in R as (x & W & C). exists rest, j, x. auto.
Qed.
Print Assumptions C36_panic.

(** the texts of the examples *)
Definition quoted (s : string) : text := map (fun c => if c =? 39 then 34 else c) (chars s).
(** no number of the examples overflows *)
Definition none : text -> bool := fun _ => false.
Definition ex_notes_text (pitch trimmer : string) : text :=
  quoted ("1{'notes':[{'base_start_tick':0,'pitch':" ++ pitch ++ ",'duration':{'numerator':'Quarter','denominator':2,'dots':0},'tie':false,'tied':false,'base_velocity':64,'start_tick_trimmer':{'values':" ++ trimmer ++ "},'duration_trimmer':{'values':[{'value':1000},{'value':1000},{'value':1000},{'value':1000}]},'velocity_trimmer':{'values':[0,0,0,0]},'channel':0}],'bars':[],'tempos':[],'dumpers':[],'softs':[]}")%string.

Theorem C36_refuted_no_panic :
  from_clipboard_text none (ex_notes_text "{'solfa':'C','octave':'OctM2','sharp_flat':'Flat'}" "[0,0,0,0]") = Panic /\
  from_clipboard_text none (ex_notes_text "{'solfa':'C','octave':'Oct4','sharp_flat':'Flat'}" "[32767,1,0,0]") = Panic.
Proof. split; vm_compute; reflexivity. Qed.
Print Assumptions C36_refuted_no_panic.

(** The same for the other kind of text. *)
Theorem C36_score : forall ov t,
  (score_from_clipboard_text ov t = Ret (Err EmptyString) <-> blank t) /\
  (forall v, score_from_clipboard_text ov t = Ret (Err (VersionErr v)) <->
     exists rest, begins_with ov t (JInt v) rest /\ 0 <= v /\ v <> 1) /\
  (forall s, score_from_clipboard_text ov t = Ret (Err (VersionNotU64 s)) <->
     s = t /\ exists j rest, begins_with ov t j rest /\ forall v, j = JInt v -> v < 0) /\
  (forall e, score_from_clipboard_text ov t = Ret (Ok e) <->
     exists rest j, begins_with ov t (JInt 1) rest /\ padded (json_text ov) rest j /\ read_score j = Ret (Some e)) /\
  (forall s, score_from_clipboard_text ov t = Ret (Err (CannotParse s)) <->
     s = t /\ ((~ blank t /\ forall j rest, ~ begins_with ov t j rest) \/
            (exists rest, begins_with ov t (JInt 1) rest /\
               ((forall j, ~ padded (json_text ov) rest j) \/ (exists j, padded (json_text ov) rest j /\ read_score j = Ret None))))) /\
  (score_from_clipboard_text ov t = Panic ->
     exists rest j x, begins_with ov t (JInt 1) rest /\ padded (json_text ov) rest j /\ within x j /\ (bad_pitch x \/ bad_trimmer x)) /\
  score_from_clipboard_text ov t <> Hang.
Proof.
  intros ov t. unfold score_from_clipboard_text. split; [apply clipboard_empty|]. split; [intros; apply clipboard_version_err|].
  split; [intros; apply clipboard_not_u64|]. split; [intros; apply clipboard_ok|]. split; [intros; apply clipboard_cannot|].
  split; [|apply clipboard_ends, ends_score].
  intros H. apply clipboard_panic in H as (rest & j & B & P & R). apply caused_score in R as (x & W & C). exists rest, j, x. auto.
Qed.
Print Assumptions C36_score.

(** The first value of a text, and what follows it, are unique; so is the
    document: the cases above exclude each other. *)
Theorem C36_unique : forall ov t,
  (forall j r j' r', begins_with ov t j r -> begins_with ov t j' r' -> j = j' /\ r = r') /\
  (forall j r, begins_with ov t j r -> ~ blank t) /\
  (forall j j', padded (json_text ov) t j -> padded (json_text ov) t j' -> j = j').
Proof.
  intros ov t. split; [intros; eapply begins_unique; eauto|]. split; [apply begins_not_blank | apply padded_unique].
Qed.
Print Assumptions C36_unique.

Example C36_example :
  from_clipboard_text none (quoted " ") = Ret (Err EmptyString) /\
  from_clipboard_text none (quoted "2{}") = Ret (Err (VersionErr 2)) /\
  from_clipboard_text none (quoted "12") = Ret (Err (VersionErr 12)) /\
  from_clipboard_text none (quoted "-1{}") = Ret (Err (VersionNotU64 (quoted "-1{}"))) /\
  from_clipboard_text none (quoted "1.0{}") = Ret (Err (VersionNotU64 (quoted "1.0{}"))) /\
  from_clipboard_text none (quoted "'1'{}") = Ret (Err (VersionNotU64 (quoted "'1'{}"))) /\
  from_clipboard_text none (quoted "01{}") = Ret (Err (CannotParse (quoted "01{}"))) /\
  from_clipboard_text none (quoted "1x") = Ret (Err (CannotParse (quoted "1x"))) /\
  from_clipboard_text none (quoted "1{'notes':[]}") = Ret (Err (CannotParse (quoted "1{'notes':[]}"))) /\
  from_clipboard_text none (quoted " 1 { 'softs' : [ ] ,'x':[null],'notes':[],'bars':[],'tempos':[], 'dumpers':[]} ") =
    Ret (Ok (mkModels [] [] [] [] [])).
Proof. repeat split; vm_compute; reflexivity. Qed.

(** * C52 *)

(** Whatever is accepted is in range, so that copying it again loses nothing. *)
Theorem C52_savable : forall ov t m, from_clipboard_text ov t = Ret (Ok m) ->
  savable m /\ from_clipboard_text ov (to_clipboard_text m) = Ret (Ok m).
Proof.
  intros ov t m H. unfold from_clipboard_text in H. apply clipboard_ok in H as (rest & j & _ & _ & R). apply read_models_savable in R.
  split; [exact R | now apply models_roundtrip].
Qed.
Print Assumptions C52_savable.
Theorem C52_score_savable : forall ov t e, score_from_clipboard_text ov t = Ret (Ok e) ->
  savable_score e /\ from_clipboard_text ov (to_clipboard_text (score_to_models e)) = Ret (Ok (score_to_models e)).
Proof.
  intros ov t e H. unfold score_from_clipboard_text in H. apply clipboard_ok in H as (rest & j & _ & _ & R). apply read_score_savable in R.
  split; [exact R | apply models_roundtrip, R].
Qed.
Print Assumptions C52_score_savable.

(** So exactly the selections in range survive copying. *)
Theorem C35_exact : forall ov m, from_clipboard_text ov (to_clipboard_text m) = Ret (Ok m) <-> savable m.
Proof. intros ov m. split; [intros H; now apply C52_savable in H | apply C35_models]. Qed.
Print Assumptions C35_exact.
Theorem C35_score_exact : forall ov e,
  score_from_clipboard_text ov (chars "1" ++ show_json (write_score e)) = Ret (Ok e) <-> savable_score e.
Proof. intros ov e. split; [intros H; now apply C52_score_savable in H | apply C35_score]. Qed.
Print Assumptions C35_score_exact.

(** But the ranges are those of the numbers' types: eight dots (no constructor
    allows more than seven), channel 200, key 100 and the rhythm 0/4 are accepted. *)
Theorem C52_refuted_checked :
  (exists n, from_clipboard_text none (quoted "1{'notes':[{'base_start_tick':0,'pitch':{'solfa':'C','octave':'Oct4','sharp_flat':'Null'},'duration':{'numerator':'Quarter','denominator':2,'dots':8},'tie':false,'tied':false,'base_velocity':64,'start_tick_trimmer':{'values':[0,0,0,0]},'duration_trimmer':{'values':[{'value':1000},{'value':1000},{'value':1000},{'value':1000}]},'velocity_trimmer':{'values':[0,0,0,0]},'channel':200}],'bars':[],'tempos':[],'dumpers':[],'softs':[]}") =
     Ret (Ok (mkModels [n] [] [] [] [])) /\ d_dots (n_duration n) = 8 /\ n_channel n = 200) /\
  from_clipboard_text none (quoted "1{'notes':[],'bars':[{'start_tick':0,'rhythm':{'numerator':0,'denominator':'D4'},'key':100,'repeats':{'value':0}}],'tempos':[],'dumpers':[],'softs':[]}") =
     Ret (Ok (mkModels [] [mkBar 0 (Some (mkRhythm 0 D4)) (Some 100) 0] [] [] [])).
Proof.
  split; [|vm_compute; reflexivity].
  exists (mkNote 0 (mkPitch SC O4 NoAccidental 72 42) (mkDur Quarter 2 8) false false 64 trimmer_zero rate_one trimmer_zero 200).
  split; [vm_compute; reflexivity | split; reflexivity].
Qed.
Print Assumptions C52_refuted_checked.

(** Order of members, further members, blanks and escapes do not matter. *)
Theorem C52_layout : forall ov m t rest j, savable m ->
  begins_with ov t (JInt 1) rest -> padded (json_text ov) rest j -> same_content (write_models m) j ->
  from_clipboard_text ov t = Ret (Ok m).
Proof.
  intros ov m t rest j V B P S. unfold from_clipboard_text. apply clipboard_ok. exists rest, j. split; [exact B|]. split; [exact P | now apply (reads_models m V)].
Qed.
Print Assumptions C52_layout.

Example C52_example : exists rest j,
  begins_with none (quoted " 1 { 'tempos':[ {'value':120, 'x':{},'start_tick':7}],'softs':[],'notes':[],'bars':[], 'dumpers':[]}") (JInt 1) rest /\
  padded (json_text none) rest j /\ same_content (write_models (mkModels [] [] [mkTempo 7 120] [] [])) j.
Proof.
  eexists _, _. split; [apply first_some; vm_compute; reflexivity|]. split; [apply document_iff; vm_compute; reflexivity|].
  apply same_object with
    (l1 := [(chars "notes", JArr []); (chars "bars", JArr []);
            (chars "tempos", JArr [JObj [(chars "value", JInt 120); (chars "x", JObj []); (chars "start_tick", JInt 7)]]);
            (chars "dumpers", JArr []); (chars "softs", JArr [])])
    (more := []).
  - repeat (constructor; [split; [reflexivity|]; apply same_array|]); repeat constructor.
    apply same_object with (l1 := [(chars "start_tick", JInt 7); (chars "value", JInt 120)]) (more := [(chars "x", JObj [])]).
    + repeat constructor.
    + intros k v [E|[]] I. inversion E; subst. cbn in I. intuition discriminate.
    + change (Permutation [(chars "start_tick", JInt 7); (chars "value", JInt 120); (chars "x", JObj [])]
               ([(chars "value", JInt 120); (chars "x", JObj [])] ++ (chars "start_tick", JInt 7) :: [])).
      apply Permutation_cons_app. reflexivity.
  - intros k v [].
  - match goal with |- Permutation _ ?l => change (Permutation
      [(chars "notes", JArr []); (chars "bars", JArr []);
       (chars "tempos", JArr [JObj [(chars "value", JInt 120); (chars "x", JObj []); (chars "start_tick", JInt 7)]]);
       (chars "dumpers", JArr []); (chars "softs", JArr [])]
      [(chars "tempos", JArr [JObj [(chars "value", JInt 120); (chars "x", JObj []); (chars "start_tick", JInt 7)]]);
       (chars "softs", JArr []); (chars "notes", JArr []); (chars "bars", JArr []); (chars "dumpers", JArr [])]) end.
    generalize (JArr [JObj [(chars "value", JInt 120); (chars "x", JObj []); (chars "start_tick", JInt 7)]]). intros t.
    apply (Permutation_cons_app [(chars "tempos", t); (chars "softs", JArr [])] [(chars "bars", JArr []); (chars "dumpers", JArr [])]).
    apply (Permutation_cons_app [(chars "tempos", t); (chars "softs", JArr [])] [(chars "dumpers", JArr [])]).
    apply perm_skip. apply perm_swap.
Qed.

(** The two kinds of text are exchangeable: a text with key and rhythm is read as
    the selection in it; a text without them as one with neither. *)
Theorem C52_score_as_models : forall ov t e rest l,
  begins_with ov t (JInt 1) rest -> padded (json_text ov) rest (JObj l) ->
  score_from_clipboard_text ov t = Ret (Ok e) -> from_clipboard_text ov t = Ret (Ok (score_to_models e)).
Proof.
  intros ov t e rest l B P H. unfold score_from_clipboard_text in H. unfold from_clipboard_text. apply clipboard_ok in H as (rest' & j & B' & P' & R).
  destruct (begins_unique _ _ _ _ _ _ B B') as (_ & <-). pose proof (padded_unique _ _ _ _ P P'). subst j.
  apply clipboard_ok. exists rest, (JObj l). split; [exact B|]. split; [exact P | now apply score_as_models].
Qed.
Print Assumptions C52_score_as_models.

Example C52_score_as_models_case :
  let t := quoted "1{'key':3,'rhythm':{'numerator':3,'denominator':'D4'},'notes':[],'bars':[],'tempos':[{'start_tick':7,'value':120}],'dumpers':[],'softs':[]}" in
  exists rest l e, begins_with none t (JInt 1) rest /\ padded (json_text none) rest (JObj l) /\
    score_from_clipboard_text none t = Ret (Ok e) /\ es_key e = Some 3 /\ score_to_models e = mkModels [] [] [mkTempo 7 120] [] [].
Proof.
  cbv zeta. eexists. eexists. eexists. split; [apply first_some; vm_compute; reflexivity|]. split; [apply document_iff; vm_compute; reflexivity|].
  split; [vm_compute; reflexivity|]. split; reflexivity.
Qed.
Theorem C52_models_as_score : forall ov m, savable m ->
  score_from_clipboard_text ov (to_clipboard_text m) = Ret (Ok (mkScore None None m)).
Proof.
  intros ov m V. unfold score_from_clipboard_text. apply clipboard_ok. exists (show_json (write_models m)), (write_models m).
  split; [unfold to_clipboard_text, write_models; apply begins_one|]. split; [apply show_document; [now apply writable_models | pose proof (nesting_models m); lia]|].
  apply models_as_score; [reflexivity | apply (reads_models m V), writable_same, writable_models, V].
Qed.
Print Assumptions C52_models_as_score.

(** * C53 *)

(** A project saved as JSON and loaded again is the same project. *)
Theorem C53_project : forall ov p, project_ok p -> savable_project p ->
  exists j, parse_document ov (show_json (write_project p)) = Some j /\ read_project j = Ret (Some p).
Proof. intros ov p O V. apply project_roundtrip; [now apply T_Project.C33_export_import | exact V]. Qed.
Print Assumptions C53_project.

(** Whatever is loaded is a proper project that can be saved again. *)
Theorem C53_load : forall ov j p, read_project j = Ret (Some p) ->
  project_ok p /\ savable_project p /\
  exists j', parse_document ov (show_json (write_project p)) = Some j' /\ read_project j' = Ret (Some p).
Proof.
  intros ov j p H. apply read_project_ok in H as (O & V). split; [exact O|]. split; [exact V|]. now apply C53_project.
Qed.
Print Assumptions C53_load.

(** So exactly the proper projects with everything in range survive being saved. *)
Theorem C53_exact : forall ov p,
  (exists j, parse_document ov (show_json (write_project p)) = Some j /\ read_project j = Ret (Some p)) <->
  project_ok p /\ savable_project p.
Proof.
  intros ov p. split; [|intros [O V]; now apply C53_project].
  intros (j & _ & R). destruct (C53_load ov j p R) as (O & V & _). now split.
Qed.
Print Assumptions C53_exact.

(** The order of members, further members, blanks and escapes do not matter. *)
Theorem C53_layout : forall ov t p j, project_ok p -> savable_project p ->
  padded (json_text ov) t j -> same_content (write_project p) j ->
  exists j', parse_document ov t = Some j' /\ read_project j' = Ret (Some p).
Proof.
  intros ov t p j O V P S. exists j. split; [now apply document_iff|].
  apply reads_project; auto. now apply T_Project.C33_export_import.
Qed.
Print Assumptions C53_layout.

(** What the library accepts as JSON is what RFC 8259 says, up to 127 levels and
    numbers in range. *)
Theorem C53_json : forall ov t j, parse_document ov t = Some j <-> padded (json_text ov) t j.
Proof. exact document_iff. Qed.
Print Assumptions C53_json.

Example C53_example : project_ok T_Project.ex_project /\ savable_project T_Project.ex_project /\
  same_content (write_project T_Project.ex_project) (write_project T_Project.ex_project) /\
  json_text none (show_json (write_project T_Project.ex_project)) (write_project T_Project.ex_project).
Proof.
  assert (R : read_project (write_project T_Project.ex_project) = Ret (Some T_Project.ex_project)) by (vm_compute; reflexivity).
  destruct (read_project_ok _ _ R) as (O & V). split; [exact O|]. split; [exact V|].
  pose proof (writable_project _ V) as W. split; [now apply writable_same|].
  split; [now apply show_denotes | pose proof (nesting_project T_Project.ex_project); lia].
Qed.
