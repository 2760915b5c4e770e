(** Property theorems about the binary form of projects and commands: C80. *)
From Coq Require Import ZArith List Bool Lia Permutation Ascii String.
From Verif Require Import Base M_Pitch M_Duration M_Percent M_Scalar M_Bar M_Note M_Models M_Store M_Tuple M_Project M_Event M_Text M_Json M_Disk M_Bin.
From Verif Require Import S_Pitch S_Note S_Percent S_Project S_Event S_Json S_Disk S_Bin.
From Verif Require Import P_Base P_Store P_Query P_Edit P_History P_Savable P_Disk P_Bin.
From Verif Require T_Project T_Json T_Event T_Disk.
Import ListNotations.
Open Scope Z_scope.
Open Scope list_scope.

(** ** Bytes and JSON values fare the same *)

Lemma as_json {A} (g : breader A) bs r more : agree g bs r -> from_bytes g (bs ++ more) = r.
Proof. intro H. unfold from_bytes. rewrite H, bind_opt_assoc. destruct r as [[a|]| |]; reflexivity. Qed.

(** Whatever is in the project, the binary form, with any bytes behind it, is read
    as the JSON form is: as the same project, refused, or with a panic. *)
Theorem C80_as_json : forall p more, typed_project p ->
  bin_project (put_project p ++ more) = read_project (write_project p).
Proof. intros p more T. unfold bin_project, read_project. now rewrite (as_json _ _ _ more (agree_project p T)). Qed.
Print Assumptions C80_as_json.

(** The same for commands, and so for reopening. *)
Theorem C80_cmd_as_json : forall cm more, typed_cmd (fst cm) ->
  from_bytes get_cmd (put_cmd cm ++ more) = read_cmd (write_cmd cm).
Proof. intros cm more T. apply as_json. now apply agree_cmd. Qed.
Print Assumptions C80_cmd_as_json.

Theorem C80_reopen_as_json : forall p log, typed_project p -> Forall (fun cm => typed_cmd (fst cm)) log ->
  bin_reopen (put_project p) (map put_cmd log) = reopen (write_project p) (map write_cmd log).
Proof.
  intros p log T L. unfold bin_reopen, reopen. rewrite <- (app_nil_r (put_project p)), (as_json _ _ _ [] (agree_project p T)).
  assert (E : from_bytes_all get_cmd (map put_cmd log) = read_all read_cmd (map write_cmd log)).
  { induction L as [|cm log C _ IH]; [reflexivity|]. cbn [map from_bytes_all read_all].
    rewrite <- (app_nil_r (put_cmd cm)), (as_json _ _ _ [] (agree_cmd cm C)), IH. reflexivity. }
  rewrite E. reflexivity.
Qed.
Print Assumptions C80_reopen_as_json.

(** ** What survives *)

Lemma got_exported p : savable_project p -> counts_project p -> forall more,
  get_exported (put_project p ++ more) = Ret (Some (export p, more)).
Proof.
  intros S C more. rewrite (agree_project p (savable_typed_project p S C)).
  rewrite (reads_self read_exported _ (export p) (reads_exported p S) (writable_project p S)). reflexivity.
Qed.

(** A project comes back from its bytes, whatever follows them. *)
Theorem C80_project : forall p more, project_ok p -> savable_project p -> counts_project p ->
  bin_project (put_project p ++ more) = Ret (Some p).
Proof.
  intros p more O S C. unfold bin_project, from_bytes. rewrite got_exported by assumption. cbn [bind_opt bind fst].
  now rewrite (import_export p O).
Qed.
Print Assumptions C80_project.

Lemma storable_iff cm : storable cm <-> logged_ok cm /\ counts_cmd (fst cm).
Proof. destruct cm as [[a b|a b|a b|a b] m]; unfold storable, logged_ok; cbn; tauto. Qed.

Lemma got_cmd cm : storable cm -> forall more, get_cmd (put_cmd cm ++ more) = Ret (Some (cm, more)).
Proof.
  intros S more. apply storable_iff in S as [L C]. rewrite (agree_cmd cm (savable_typed_cmd _ (proj1 L) C)).
  now rewrite (cmd_back cm L).
Qed.

(** So does a command with what it says about the selection. *)
Theorem C80_cmd : forall cm more, storable cm -> from_bytes get_cmd (put_cmd cm ++ more) = Ret (Some cm).
Proof. intros cm more S. unfold from_bytes. rewrite got_cmd by exact S. reflexivity. Qed.
Print Assumptions C80_cmd.

(** Commands written one behind the other can be told apart. *)
Theorem C80_log : forall l l', Forall storable l -> Forall storable l' ->
  concat (map put_cmd l) = concat (map put_cmd l') -> l = l'.
Proof.
  assert (N : forall cm, storable cm -> forall more, put_cmd cm ++ more <> []).
  { intros cm S more E. pose proof (got_cmd cm S more) as G. rewrite E in G. discriminate. }
  induction l as [|a l IH]; intros l' F F' E.
  - destruct l' as [|b l']; [reflexivity|]. inversion F'; subst. cbn in E. symmetry in E. now apply N in E.
  - inversion F as [|? ? A FL]; subst. destruct l' as [|b l']; [cbn in E; now apply N in E|].
    inversion F' as [|? ? B FL']; subst. cbn [map concat] in E. pose proof (got_cmd a A (concat (map put_cmd l))) as G.
    rewrite E, (got_cmd b B) in G. injection G as -> G. f_equal. now apply IH.
Qed.
Print Assumptions C80_log.

(** ** Arbitrary bytes *)

Lemma bulk_counts {V} (key : V -> Z) (l : list V) :
  (List.length (fst (s_bulk_add (map (fun v => (key v, v)) l) [])) <= List.length l)%nat.
Proof.
  rewrite bulk_add_fst. unfold add_all.
  assert (H : forall (m : list (Z * V)) s, (List.length (fold_left (fun s kv => fst (s_add (fst kv) (snd kv) s)) m s) <= List.length m + List.length s)%nat).
  { assert (H1 : forall k (v : V) s, (List.length (fst (s_add k v s)) <= S (List.length s))%nat).
    { intros k v. induction s as [|[k' v'] s IH]; cbn [s_add]; [cbn; lia|]. destruct (k =? k'); [cbn; lia|]. destruct (k <? k'); [cbn; lia|].
      destruct (s_add k v s). cbn in *. lia. }
    induction m as [|[k v] m IH]; intro s; cbn [fold_left List.length]; [lia|]. specialize (IH (fst (s_add k v s))). specialize (H1 k v s).
    cbn [fst snd] in *. lia. }
  specialize (H (map (fun v => (key v, v)) l) []). rewrite map_length in H. cbn [List.length] in H. rewrite Nat.add_0_r in H. exact H.
Qed.

Lemma import_savable e : savable_exported e -> project_ok (import e) /\ savable_project (import e) /\ counts_project (import e).
Proof.
  intros (R & K & G & (A & B & C & D & E) & (CA & CB & CC & CD & CE)). split; [|split].
  - apply import_ok. constructor.
    + eapply Forall_impl; [|exact B]. intros ? X; apply X.
    + eapply Forall_impl; [|exact C]. intros ? X; apply X.
    + eapply Forall_impl; [|exact D]. intros ? X; apply X.
    + eapply Forall_impl; [|exact E]. intros ? X; apply X.
  - unfold savable_project, import. cbn [pj_rhythm pj_key pj_grid pj_notes pj_bars pj_tempos pj_dumpers pj_softs].
    split; [exact R|]. split; [exact K|]. split; [exact G|]. split.
    + rewrite Forall_forall in *. intros v I. apply in_map_iff in I as ([k u] & <- & I).
      eapply Permutation_in in I; [|apply b_bulk_add_perm]. rewrite app_nil_r in I.
      apply in_map_iff in I as (w & Ew & I). inversion Ew; subst. now apply A.
    + repeat split; apply stored_forall; assumption.
  - unfold counts_project, counts, import in *. cbn [pj_notes pj_bars pj_tempos pj_dumpers pj_softs].
    split; [|split; [|split; [|split]]].
    2: eapply Z.le_lt_trans; [apply inj_le, (bulk_counts b_tick) | exact CB].
    2: eapply Z.le_lt_trans; [apply inj_le, (bulk_counts tp_tick) | exact CC].
    2: eapply Z.le_lt_trans; [apply inj_le, (bulk_counts cc_tick) | exact CD].
    2: eapply Z.le_lt_trans; [apply inj_le, (bulk_counts cc_tick) | exact CE].
    erewrite Permutation_length; [|apply b_bulk_add_perm]. rewrite app_nil_r, map_length. exact CA.
Qed.

(** What is read from any bytes is a proper project that comes back from its own bytes. *)
Theorem C80_load : forall bs p, Forall byte bs -> bin_project bs = Ret (Some p) ->
  project_ok p /\ savable_project p /\ counts_project p /\ bin_project (put_project p) = Ret (Some p).
Proof.
  intros bs p Y E. unfold bin_project, from_bytes in E. pose proof (good_exported bs Y) as G.
  destruct (get_exported bs) as [[[e r]|]| |]; cbn [bind_opt bind fst] in E; try discriminate. destruct G as (u & _ & S & _).
  assert (p = import e) as -> by (injection E; auto). destruct (import_savable e S) as (A & B & C). split; [exact A|].
  split; [exact B|]. split; [exact C|]. rewrite <- (app_nil_r (put_project _)). now apply C80_project.
Qed.
Print Assumptions C80_load.

Theorem C80_load_cmd : forall bs cm, Forall byte bs -> from_bytes get_cmd bs = Ret (Some cm) -> storable cm.
Proof.
  intros bs cm Y E. unfold from_bytes in E. pose proof (good_cmd bs Y) as G.
  destruct (get_cmd bs) as [[[c r]|]| |]; cbn [bind_opt bind fst] in E; try discriminate. destruct G as (u & _ & S & _).
  injection E as <-. now apply storable_iff.
Qed.
Print Assumptions C80_load_cmd.

Lemma put_bytes p : Forall byte (put_project p).
Proof.
  assert (O : forall (V : Type) (w : V -> bytes) o, (forall a, Forall byte (w a)) -> Forall byte (put_option w o)).
  { intros V w [a|] H; cbn; repeat constructor; cbn; try lia. apply H. }
  assert (L : forall (V : Type) (w : V -> bytes) l, (forall a, Forall byte (w a)) -> Forall byte (put_vec w l)).
  { intros V w l H. unfold put_vec. apply Forall_app. split; [apply put_int_bytes|]. apply Forall_concat, Forall_map.
    rewrite Forall_forall. intros; apply H. }
  assert (B : forall b, Forall byte (put_bool b)) by (intros []; repeat constructor; cbn; lia).
  assert (R : forall r, Forall byte (put_rhythm r)) by (intro r; apply Forall_app; split; apply put_int_bytes).
  assert (K : forall k, Forall byte (put_key k)) by (intro; apply put_int_bytes).
  assert (I : forall n z, Forall byte (put_int n z)) by apply put_int_bytes.
  assert (J : forall a b, Forall byte a -> Forall byte b -> Forall byte (a ++ b)) by (intros; apply Forall_app; auto).
  assert (HN : forall n, Forall byte (put_note n)).
  { intro n. unfold put_note, put_pitch, put_duration, put_trimmer, put_rate, put_variant. auto 40. }
  assert (HB : forall b, Forall byte (put_bar b)) by (intro b; unfold put_bar, put_marks; auto 20).
  assert (HT : forall t, Forall byte (put_tempo t)) by (intro t; unfold put_tempo; auto).
  assert (HC : forall c, Forall byte (put_ctrl c)) by (intro c; unfold put_ctrl; auto).
  unfold put_project, put_models. auto 20.
Qed.

(** So exactly the proper projects with everything in range survive. *)
Theorem C80_exact : forall p, counts_project p ->
  bin_project (put_project p) = Ret (Some p) <-> project_ok p /\ savable_project p.
Proof.
  intros p C. split; [intro E; destruct (C80_load _ p (put_bytes p) E) as (A & B & _); now split|].
  intros [O S]. rewrite <- (app_nil_r (put_project p)). now apply C80_project.
Qed.
Print Assumptions C80_exact.

(** Bytes that are cut short anywhere are refused; they are not read as another
    project, and reading does not panic. *)
Theorem C80_cut : forall p k, savable_project p -> counts_project p -> (k < List.length (put_project p))%nat ->
  bin_project (firstn k (put_project p)) = Ret None.
Proof.
  intros p k S C L. unfold bin_project, from_bytes.
  rewrite (cut_short _ _ _ _ (export p) k good_exported (put_bytes p)); [reflexivity| |exact L].
  pose proof (got_exported p S C []) as G. now rewrite app_nil_r in G.
Qed.
Print Assumptions C80_cut.

(** Reading ends for all bytes, and panics only where they hold a pitch outside 0 to
    127 or a trimmer whose sum leaves i16. *)
Theorem C80_panic : forall bs, Forall byte bs -> bin_project bs <> Hang /\
  (bin_project bs = Panic -> exists pre x post, bs = pre ++ x ++ post /\ (bad_pitch_bytes x \/ bad_trimmer_bytes x)).
Proof.
  intros bs Y. unfold bin_project, from_bytes. pose proof (good_exported bs Y) as G.
  destruct (get_exported bs) as [[[e r]|]| |]; cbn [bind_opt bind fst]; try (split; discriminate); [|destruct G].
  split; [discriminate|]. intros _. destruct G as (u & r & -> & (pre & x & post & -> & H) & _).
  exists pre, x, (post ++ r). rewrite <- !app_assoc. auto.
Qed.
Print Assumptions C80_panic.

(** ** How many bytes *)

Lemma size_vec {A} (w : A -> bytes) (f : A -> Z) l : (forall a, Z.of_nat (List.length (w a)) = f a) ->
  Z.of_nat (List.length (put_vec w l)) = 8 + total f l.
Proof.
  intro H. unfold put_vec. rewrite app_length, put_int_length, Nat2Z.inj_add. f_equal. unfold total.
  induction l as [|a l IH]; cbn [map concat fold_right]; [reflexivity|]. rewrite app_length, Nat2Z.inj_add, H, IH. reflexivity.
Qed.
Lemma total_const {A} c (l : list A) : total (fun _ => c) l = c * Z.of_nat (List.length l).
Proof. unfold total. induction l as [|a l IH]; cbn [fold_right List.length]; lia. Qed.

(** Nothing but the number of elements, and which bars set a rhythm or a key, decides
    how many bytes a project takes. *)
Theorem C80_size : forall p, Z.of_nat (List.length (put_project p)) = size_project p.
Proof.
  intro p. unfold put_project, put_models, put_rhythm, put_key, put_variant. rewrite !app_length, !put_int_length, !Nat2Z.inj_add.
  assert (N : forall n, Z.of_nat (List.length (put_note n)) = size_note).
  { intro n. unfold put_note, put_pitch, put_duration, put_trimmer, put_rate, put_variant. rewrite !app_length, !put_int_length. reflexivity. }
  assert (T : forall n, Z.of_nat (List.length (put_tempo n)) = size_tempo) by reflexivity.
  assert (K : forall n, Z.of_nat (List.length (put_ctrl n)) = size_ctrl) by reflexivity.
  assert (B : forall b, Z.of_nat (List.length (put_bar b)) = size_bar b).
  { intros [t [r|] [k|] m]; reflexivity. }
  rewrite (size_vec _ (fun _ => size_note) _ N), (size_vec _ size_bar _ B), (size_vec _ (fun _ => size_tempo) _ T), !(size_vec _ (fun _ => size_ctrl) _ K).
  rewrite !total_const. cbn [export ex_models m_notes m_bars m_tempos m_dumpers m_softs]. rewrite !map_length.
  unfold size_project, size_note, size_tempo, size_ctrl. lia.
Qed.
Print Assumptions C80_size.

(** ** Reopening *)

Lemma history_storable p limit os h s k q log :
  project_ok p -> savable_project p -> hist_wf (mkSnap [] p [] limit) os -> Forall hop_savable os ->
  hist_run (history_new p limit) os = Ret h -> snap_run (mkSnap [] p [] limit) os = Ret s ->
  nth_error (sn_now s :: sn_past s) k = Some q -> map fst log = rev (firstn k (h_undo h)) ->
  Forall (fun cm : cmd * metadata => match fst cm with ModelChanged _ _ => True | _ => snd cm = meta_new end) log ->
  savable_project q /\ Forall logged_ok log.
Proof.
  intros O P W SA E E' N L M.
  assert (K0 : kept (history_new p limit) (mkSnap [] p [] limit)) by (constructor; cbn; auto using sim_new).
  destruct (kept_run os _ _ h K0 W SA E) as (s' & E'' & [S KN KP KF KU KR]).
  rewrite E' in E''. apply ret_inj in E''. subst s'. split.
  - apply nth_error_In in N as [<-|N]; [exact KN|]. rewrite Forall_forall in KP. auto.
  - assert (X : Forall savable_cmd (map fst log)) by (rewrite L; apply Forall_rev; now apply Forall_firstn).
    rewrite Forall_map in X. rewrite Forall_forall in *. intros cm I. split; auto. apply (M _ I).
Qed.

(** Whatever was done in a session, the bytes of the project as it was k commands ago
    and those of the last k commands are read back as the project the session ended
    with and as these commands. *)
Theorem C80_reopen : forall p limit l s sn k q,
  project_ok p -> savable_project p ->
  hist_wf (mkSnap [] p [] limit) (flat_map hops l) -> Forall hop_savable (flat_map hops l) ->
  Forall (fun a => a <> Clear false) l ->
  acts_run (session_new p limit) l = Ret s ->
  snap_run (mkSnap [] p [] limit) (flat_map hops l) = Ret sn ->
  nth_error (sn_now sn :: sn_past sn) k = Some q ->
  counts_project q -> Forall (fun cm => counts_cmd (fst cm)) (ss_undo s) ->
  exists r, bin_reopen (put_project q) (map put_cmd (rev (firstn k (ss_undo s)))) = Ret (Some r) /\
    same_project (ro_model r) (ss_model s) /\ ro_log r = rev (firstn k (ss_undo s)).
Proof.
  intros p limit l s sn k q O P W SA K E E' N CQ CL.
  destruct (T_Disk.C54_reopen p limit l s sn k q O P W SA K E E' N) as (r & R & M & L). exists r. split; [|auto].
  rewrite <- R. destruct (T_Disk.acts_meta l _ _ E (Forall_nil _) (Forall_nil _)) as [MU _].
  destruct (history_storable p limit _ (T_Event.forget s) sn k q (rev (firstn k (ss_undo s))) O P W SA
              (T_Disk.acts_history l _ _ K E) E' N) as [SQ SL].
  - unfold T_Event.forget. cbn [h_undo]. rewrite map_rev, firstn_map. reflexivity.
  - apply Forall_rev, Forall_firstn. exact MU.
  - apply C80_reopen_as_json; [now apply savable_typed_project|].
    apply Forall_rev. apply (Forall_firstn _ k) in CL. rewrite Forall_forall in *. intros cm I.
    apply savable_typed_cmd; [|now apply CL]. apply SL. now apply in_rev in I.
Qed.
Print Assumptions C80_reopen.

(** ** Concrete cases *)


(** one note, one bar that sets a rhythm and a key, a tempo and two pedals *)
Definition ex_one : project :=
  import (mkExported (mkRhythm 3 D4) (-2) 120
    (mkModels [T_Project.ex_note 480 SD] [mkBar 960 (Some (mkRhythm 6 D8)) (Some 3) 2] [mkTempo 70000 200]
       [mkCtrl 0 127 0] [mkCtrl 10 0 0])).
Lemma ex_one_savable : project_ok ex_one /\ savable_project ex_one.
Proof.
  assert (R : read_project (write_project ex_one) = Ret (Some ex_one)) by (vm_compute; reflexivity).
  exact (read_project_ok _ _ R).
Qed.

Example C80_case : project_ok ex_one /\ savable_project ex_one /\ counts_project ex_one /\ typed_project ex_one /\
  size_project ex_one = 132 /\
  firstn 18 (put_project ex_one) = [3; 1; 0; 0; 0; 254; 120; 0; 0; 0; 1; 0; 0; 0; 0; 0; 0; 0] /\
  firstn 58 (skipn 68 (put_project ex_one)) =
    [1; 0; 0; 0; 0; 0; 0; 0;  192; 3; 0; 0;  1; 6; 2; 0; 0; 0;  1; 3;  2; 0;
     1; 0; 0; 0; 0; 0; 0; 0;  112; 17; 1; 0;  200; 0;
     1; 0; 0; 0; 0; 0; 0; 0;  0; 0; 0; 0;  127; 0;
     1; 0; 0; 0; 0; 0; 0; 0] /\
  bin_project (put_project ex_one ++ [9; 9]) = Ret (Some ex_one).
Proof.
  destruct ex_one_savable as [O S]. split; [exact O|]. split; [exact S|].
  assert (C : counts_project ex_one) by (repeat split; vm_compute; reflexivity). split; [exact C|].
  split; [exact (savable_typed_project _ S C)|]. split; [reflexivity|]. split; [vm_compute; reflexivity|].
  split; [vm_compute; reflexivity|]. exact (C80_project ex_one [9; 9] O S C).
Qed.

(** bytes cut in the middle, a byte behind the note's pitch that names no variant, and
    one that names a variant of a pitch that is too high *)
Example C80_cut_case :
  bin_project (firstn 131 (put_project ex_one)) = Ret None /\
  bin_project (firstn 26 (put_project ex_one) ++ [11] ++ skipn 27 (put_project ex_one)) = Ret None /\
  bin_project (firstn 22 (put_project ex_one) ++ [6; 0; 0; 0; 10; 0; 0; 0] ++ skipn 30 (put_project ex_one)) = Panic.
Proof.
  split; [|split; vm_compute; reflexivity].
  destruct ex_one_savable as [O S]. apply C80_cut; [exact S|repeat split; vm_compute; reflexivity|].
  pose proof (C80_size ex_one) as E. change (size_project ex_one) with 132 in E. lia.
Qed.

(** what the log holds after two calls, and that it is read back *)
Definition ex_log : list (cmd * metadata) :=
  [(SetKey 0 (-2), meta_new); (ModelChanged (mkModels [] [mkBar 500 None None 0] [] [] []) models_empty, mkMeta (Some true) false)].
Example C80_log_case : Forall storable ex_log /\
  put_cmd (SetKey 0 (-2), meta_new) = [1; 0; 0; 0; 0; 254] /\
  List.length (concat (map put_cmd ex_log)) = 101%nat /\
  from_bytes_all get_cmd (map put_cmd ex_log) = Ret (Some ex_log).
Proof.
  split; [|split; [reflexivity|split; [reflexivity|vm_compute; reflexivity]]].
  constructor; [cbn; unfold savable_key; split; [lia|]; split; [lia|reflexivity]|]. constructor; [|constructor].
  assert (B : savable_bar (mkBar 500 None None 0)) by (apply blank_savable; unfold u32, u32_max; lia).
  split; [unfold savable; cbn; auto 10|]. split; [apply savable_empty|]. split; repeat split; vm_compute; reflexivity.
Qed.

Example C80_reopen_case : exists s sn q r,
  acts_run (session_new T_Project.ex_project 10) T_Disk.ex_acts = Ret s /\
  snap_run (mkSnap [] T_Project.ex_project [] 10) (flat_map hops T_Disk.ex_acts) = Ret sn /\
  nth_error (sn_now sn :: sn_past sn) 2 = Some q /\ counts_project q /\ Forall (fun cm => counts_cmd (fst cm)) (ss_undo s) /\
  bin_reopen (put_project q) (map put_cmd (rev (firstn 2 (ss_undo s)))) = Ret (Some r) /\
  ro_model r = ss_model s /\ ro_model r <> q.
Proof.
  do 4 eexists. split; [vm_compute; reflexivity|]. split; [vm_compute; reflexivity|].
  split; [cbn [nth_error sn_now sn_past]; reflexivity|].
  split; [repeat split; vm_compute; reflexivity|]. split; [repeat constructor; vm_compute; reflexivity|].
  split; [vm_compute; reflexivity|]. split; [vm_compute; reflexivity|]. vm_compute; discriminate.
Qed.

(** Without the condition on what is in the project it is false: a note moved by
    trimming until its sum leaves i16 can be put in and written, and the bytes cannot be
    read; a tempo of 0 comes back as 1. *)
Definition ex_far : project := import (mkExported (mkRhythm 4 D4) 0 120 (mkModels [T_Disk.far_note] [] [] [] [])).
Definition ex_still : project := import (mkExported (mkRhythm 4 D4) 0 120 (mkModels [] [] [mkTempo 0 0] [] [])).
Theorem C80_refuted :
  (exists n, note_with_tick_added (T_Project.ex_note 480 SC) 40000 true = Ret (Ok n) /\ map snd (pj_notes ex_far) = [n]) /\
  typed_project ex_far /\ bin_project (put_project ex_far) = Panic /\
  tempo_value_new 0 = Ret 0 /\ map snd (pj_tempos ex_still) = [mkTempo 0 0] /\ typed_project ex_still /\
  exists q, bin_project (put_project ex_still) = Ret (Some q) /\ map snd (pj_tempos q) = [mkTempo 0 1].
Proof.
  split; [exists T_Disk.far_note; split; [vm_compute; reflexivity | reflexivity]|].
  assert (C : forall A (l : list A), (List.length l <= 1)%nat -> counts l) by (intros A l H; unfold counts; lia).
  assert (K : forall p, (List.length (pj_notes p) <= 1)%nat -> (List.length (pj_bars p) <= 1)%nat -> (List.length (pj_tempos p) <= 1)%nat ->
    (List.length (pj_dumpers p) <= 1)%nat -> (List.length (pj_softs p) <= 1)%nat -> counts_project p) by (intros; repeat split; auto).
  split.
  { unfold typed_project. split; [cbn; unfold typed_rhythm, u8, u8_max; cbn; lia|]. split; [cbn; unfold typed_key; lia|].
    split; [cbn; unfold u32, u32_max; lia|]. split.
    - change (map snd (pj_notes ex_far)) with [T_Disk.far_note]. constructor; [|constructor].
      set (n := T_Disk.far_note). unfold typed_note, typed_trimmer, typed_rate, u32, u8, u16, i16, u32_max, u8_max, u16_max, i16_min, i16_max.
      vm_compute in n. subst n. cbn. lia.
    - do 4 (split; [constructor|]). apply K; cbn; lia. }
  split; [vm_compute; reflexivity|]. split; [reflexivity|]. split; [reflexivity|]. split.
  { unfold typed_project. split; [cbn; unfold typed_rhythm, u8, u8_max; cbn; lia|]. split; [cbn; unfold typed_key; lia|].
    split; [cbn; unfold u32, u32_max; lia|]. split; [constructor|]. split; [constructor|]. split.
    - cbn. constructor; [|constructor]. unfold typed_tempo, u32, u16, u32_max, u16_max. cbn. lia.
    - do 2 (split; [constructor|]). apply K; cbn; lia. }
  eexists. split; [vm_compute; reflexivity|]. reflexivity.
Qed.
Print Assumptions C80_refuted.
