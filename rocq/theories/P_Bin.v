(** Lemmas about the binary form of projects and commands. *)
From Coq Require Import ZArith List Bool Lia Ascii String.
From Verif Require Import Base M_Pitch M_Duration M_Percent M_Scalar M_Bar M_Note M_Models M_Store M_Tuple M_Project M_Event M_Text M_Json M_Disk M_Bin.
From Verif Require Import S_Pitch S_Note S_Percent S_Project S_Json S_Disk S_Bin.
From Verif Require Import P_Base P_Pitch P_Percent P_Note P_Query P_Edit P_History P_Savable P_Disk.
Import ListNotations.
Open Scope Z_scope.
Open Scope list_scope.

(** ** Integers *)

Lemma put_int_length n : forall z, List.length (put_int n z) = n.
Proof. induction n; intro z; cbn [put_int List.length]; auto. Qed.

Lemma put_int_bytes n : forall z, Forall byte (put_int n z).
Proof.
  induction n as [|n IH]; intro z; cbn [put_int]; constructor; auto. unfold byte. pose proof (Z.mod_pos_bound z 256 eq_refl). lia.
Qed.

Lemma get_bytes_app n : forall l rest, List.length l = n -> get_bytes n (l ++ rest) = Ret (Some (l, rest)).
Proof.
  induction n as [|n IH]; intros [|b l] rest E; try discriminate; [reflexivity|]. cbn [get_bytes app].
  rewrite IH by (injection E; auto). reflexivity.
Qed.

Lemma pow256 n : 256 ^ Z.of_nat (S n) = 256 * 256 ^ Z.of_nat n.
Proof. rewrite Nat2Z.inj_succ, Z.pow_succ_r by lia. reflexivity. Qed.

(** what is put is the number modulo the range *)
Lemma int_of_put n : forall z, int_of (put_int n z) = z mod 256 ^ Z.of_nat n.
Proof.
  induction n as [|n IH]; intro z; [cbn; now rewrite Z.mod_1_r|]. cbn [put_int int_of]. rewrite IH, pow256.
  rewrite Z.rem_mul_r by lia. reflexivity.
Qed.

Lemma int_of_range l : Forall byte l -> 0 <= int_of l < 256 ^ Z.of_nat (List.length l).
Proof.
  induction 1 as [|b l B _ IH]; [cbn; lia|]. cbn [int_of List.length]. rewrite pow256. unfold byte in B. lia.
Qed.

Lemma put_of_int l : Forall byte l -> put_int (List.length l) (int_of l) = l.
Proof.
  induction 1 as [|b l B _ IH]; [reflexivity|]. cbn [int_of List.length put_int]. unfold byte in B.
  replace (b + 256 * int_of l) with (b + int_of l * 256) by lia.
  rewrite Z.mod_add, Z.div_add, (Z.mod_small b), (Z.div_small b) by lia. cbn [Z.add]. now rewrite IH.
Qed.

Lemma put_int_mod n : forall z, put_int n (z mod 256 ^ Z.of_nat n) = put_int n z.
Proof.
  intro z. rewrite <- int_of_put. rewrite <- (put_int_length n z) at 1. apply put_of_int, put_int_bytes.
Qed.

Lemma got_unsigned n z rest : 0 <= z < 256 ^ Z.of_nat n -> get_unsigned n (put_int n z ++ rest) = Ret (Some (z, rest)).
Proof.
  intro H. unfold get_unsigned, bthen. rewrite get_bytes_app by apply put_int_length. cbn [bind_opt bind fst snd].
  unfold bret. rewrite int_of_put, Z.mod_small by exact H. reflexivity.
Qed.

Lemma bits n : 2 ^ (8 * Z.of_nat n) = 256 ^ Z.of_nat n.
Proof. rewrite Z.pow_mul_r by lia. reflexivity. Qed.
Lemma half n : (0 < n)%nat -> 256 ^ Z.of_nat n = 2 * 2 ^ (8 * Z.of_nat n - 1).
Proof. intro. rewrite <- bits. rewrite <- Z.pow_succ_r by lia. f_equal. lia. Qed.

Lemma got_signed n z rest : (0 < n)%nat -> - 2 ^ (8 * Z.of_nat n - 1) <= z < 2 ^ (8 * Z.of_nat n - 1) ->
  get_signed n (put_int n z ++ rest) = Ret (Some (z, rest)).
Proof.
  intros N H. unfold get_signed. unfold bthen at 1.
  rewrite <- put_int_mod, got_unsigned by (apply Z.mod_pos_bound; lia). cbn [bind_opt bind fst snd]. unfold bret.
  pose proof (half n N) as E. rewrite bits, E. set (h := 2 ^ (8 * Z.of_nat n - 1)) in *.
  destruct (Z.lt_ge_cases z 0) as [L|L].
  - replace (z mod (2 * h)) with (z + 2 * h).
    + destruct (Z.ltb_spec (z + 2 * h) h); [lia|]. do 3 f_equal. lia.
    + rewrite <- (Z.mod_add z 1) by lia. rewrite Z.mul_1_l. symmetry. apply Z.mod_small. lia.
  - rewrite Z.mod_small by lia. destruct (Z.ltb_spec z h); [reflexivity|lia].
Qed.

(** ** Bytes and JSON values fare the same *)

Definition agree {A} (g : breader A) (bs : bytes) (r : outcome (option A)) : Prop :=
  forall rest, g (bs ++ rest) = bind_opt r (fun a => Ret (Some (a, rest))).

Lemma bind_opt_assoc {A B C} (m : outcome (option A)) (k : A -> outcome (option B)) (h : B -> outcome (option C)) :
  bind_opt (bind_opt m k) h = bind_opt m (fun a => bind_opt (k a) h).
Proof. destruct m as [[a|]| |]; reflexivity. Qed.
Lemma bind_opt_ext {A B} (m : outcome (option A)) (k h : A -> outcome (option B)) : (forall a, k a = h a) -> bind_opt m k = bind_opt m h.
Proof. intro H. destruct m as [[a|]| |]; try reflexivity. apply H. Qed.
Lemma agree_then {A B} (g : breader A) bs r (k : A -> breader B) more :
  agree g bs r -> bthen g k (bs ++ more) = bind_opt r (fun a => k a more).
Proof. intro H. unfold bthen. rewrite H, bind_opt_assoc. apply bind_opt_ext. reflexivity. Qed.
Lemma agree_ret {A} (g : breader A) bs a r : (forall rest, g (bs ++ rest) = Ret (Some (a, rest))) -> r = Ret (Some a) -> agree g bs r.
Proof. intros H -> rest. rewrite H. reflexivity. Qed.

Lemma agree_unsigned n z hi : 0 <= z < 256 ^ Z.of_nat n -> z <= hi -> agree (get_unsigned n) (put_int n z) (read_int 0 hi (JInt z)).
Proof.
  intros H L. apply (agree_ret _ _ z); [intro; now apply got_unsigned|]. apply (reads_int 0 hi z); [lia|constructor].
Qed.
Lemma agree_bool b : agree get_bool (put_bool b) (read_bool (JBool b)).
Proof. intro rest. destruct b; reflexivity. Qed.
Lemma agree_variant {A} (all : list A) (place : A -> Z) (name : A -> text) a :
  nth_error all (Z.to_nat (place a)) = Some a -> 0 <= place a < 2 ^ 32 -> lookup (map (fun a => (name a, a)) all) (name a) = Some a ->
  agree (get_variant all) (put_variant (place a)) (read_enum (map (fun a => (name a, a)) all) (JStr (name a))).
Proof.
  intros N P L. apply (agree_ret _ _ a).
  - intro rest. unfold get_variant, put_variant, bthen. rewrite got_unsigned by (cbn; lia). cbn [bind_opt bind fst snd]. rewrite N. reflexivity.
  - unfold read_enum. now rewrite L.
Qed.
Lemma agree_option {A} (g : breader A) (w : A -> bytes) (r : reader A) (v : A -> json) o :
  (forall a, o = Some a -> agree g (w a) (r (v a)) /\ v a <> JNull) ->
  agree (get_option g) (put_option w o) (optional r (Some (write_option v o))).
Proof.
  intros H rest. destruct o as [a|]; [|reflexivity]. destruct (H a eq_refl) as (G & N).
  cbn [put_option optional write_option app]. unfold get_option, bthen at 1. change (get_unsigned 1 (1 :: w a ++ rest)) with (Ret (Some (1, w a ++ rest))).
  cbn [bind_opt bind fst snd Z.eqb]. cbn [Z.eqb Pos.eqb]. rewrite (agree_then _ _ _ _ _ G). unfold read_option.
  assert (E : match v a with JNull => Ret (Some None) | _ => bind_opt (r (v a)) (fun x => Ret (Some (Some x))) end
              = bind_opt (r (v a)) (fun x => Ret (Some (Some x)))) by (destruct (v a); try reflexivity; congruence).
  rewrite E, bind_opt_assoc. apply bind_opt_ext. reflexivity.
Qed.
Lemma agree_times {A} (g : breader A) (w : A -> bytes) (r : reader A) (v : A -> json) l :
  Forall (fun a => agree g (w a) (r (v a))) l -> agree (get_times (List.length l) g) (concat (map w l)) (read_all r (map v l)).
Proof.
  induction 1 as [|a l H _ IH]; intro rest; [reflexivity|]. cbn [List.length get_times concat map read_all].
  rewrite <- app_assoc, (agree_then _ _ _ _ _ H), bind_opt_assoc. apply bind_opt_ext. intro b.
  rewrite (agree_then _ _ _ _ _ IH), bind_opt_assoc. reflexivity.
Qed.
Lemma agree_vec {A} (g : breader A) (w : A -> bytes) (r : reader A) (v : A -> json) l : counts l ->
  Forall (fun a => agree g (w a) (r (v a))) l -> agree (get_vec g) (put_vec w l) (read_vec r (JArr (map v l))).
Proof.
  intros C H rest. unfold get_vec, put_vec, bthen. rewrite <- app_assoc. unfold counts in C.
  rewrite got_unsigned by (cbn; lia). cbn [bind_opt bind fst snd]. rewrite Nat2Z.id. cbn [read_vec]. now apply agree_times.
Qed.
Lemma agree_four {A} (g : breader A) (r : reader A) ba bb bc bd a b c d :
  agree g ba (r a) -> agree g bb (r b) -> agree g bc (r c) -> agree g bd (r d) ->
  agree (get_four g) (ba ++ bb ++ bc ++ bd) (read_four r (JArr [a; b; c; d])).
Proof.
  intros HA HB HC HD rest. unfold get_four. cbn [read_four]. rewrite <- !app_assoc.
  rewrite (agree_then _ _ _ _ _ HA), bind_opt_assoc. apply bind_opt_ext. intro.
  rewrite (agree_then _ _ _ _ _ HB), bind_opt_assoc. apply bind_opt_ext. intro.
  rewrite (agree_then _ _ _ _ _ HC), bind_opt_assoc. apply bind_opt_ext. intro.
  rewrite (agree_then _ _ _ _ _ HD), bind_opt_assoc. apply bind_opt_ext. intro. reflexivity.
Qed.

Ltac take H :=
  rewrite (agree_then _ _ _ _ _ H), bind_opt_assoc; apply bind_opt_ext; intro.
Ltac as_struct f w :=
  match goal with
  | |- _ = bind_opt (f ?j) _ =>
      let ns := fresh in
      unfold f at 1; unfold w at 1;
      match goal with |- context [struct ?n (JObj (combine ?n ?vs))] => change (struct n (JObj (combine n vs))) with (Some (map Some vs)) end;
      cbn [map required]; cbv iota
  end.

Lemma agree_pitch p : agree get_pitch (put_pitch p) (read_pitch (write_pitch p)).
Proof.
  intro rest. as_struct read_pitch write_pitch. unfold get_pitch, put_pitch. rewrite <- !app_assoc.
  take (agree_variant solfa_all solfa_place solfa_name (p_solfa p) ltac:(destruct (p_solfa p); reflexivity)
    ltac:(destruct (p_solfa p); cbn; lia) ltac:(destruct (p_solfa p); reflexivity)).
  take (agree_variant octave_all octave_place octave_name (p_octave p) ltac:(destruct (p_octave p); reflexivity)
    ltac:(destruct (p_octave p); cbn; lia) ltac:(destruct (p_octave p); reflexivity)).
  take (agree_variant [Sharp; DoubleSharp; Flat; DoubleFlat; Natural; NoAccidental] sharp_flat_place sharp_flat_name (p_sharp_flat p)
    ltac:(destruct (p_sharp_flat p); reflexivity) ltac:(destruct (p_sharp_flat p); cbn; lia) ltac:(destruct (p_sharp_flat p); reflexivity)).
  unfold bconv. destruct (pitch_new a a0 a1); reflexivity.
Qed.

Lemma agree_u8 z : u8 z -> agree (get_unsigned 1) (put_int 1 z) (read_int 0 u8_max (JInt z)).
Proof. unfold u8, u8_max. intro. apply agree_unsigned; [cbn|]; lia. Qed.
Lemma agree_u16 z : u16 z -> agree (get_unsigned 2) (put_int 2 z) (read_int 0 u16_max (JInt z)).
Proof. unfold u16, u16_max. intro. apply agree_unsigned; [cbn|]; lia. Qed.
Lemma agree_u32 z : u32 z -> agree (get_unsigned 4) (put_int 4 z) (read_int 0 u32_max (JInt z)).
Proof. unfold u32, u32_max. intro. apply agree_unsigned; [cbn|]; lia. Qed.
Lemma agree_i16 z : i16 z -> agree (get_signed 2) (put_int 2 z) (read_int i16_min i16_max (JInt z)).
Proof.
  unfold i16, i16_min, i16_max. intro. apply (agree_ret _ _ z); [intro; apply got_signed; cbn; lia|].
  apply (reads_int (-32768) 32767 z); [lia|constructor].
Qed.
Lemma agree_key z : typed_key z -> agree get_key (put_key z) (read_key (JInt z)).
Proof.
  unfold typed_key. intro. apply (agree_ret _ _ z); [intro; apply got_signed; cbn; lia|].
  apply (reads_int (-128) 127 z); [lia|constructor].
Qed.

Lemma agree_duration d : u8 (d_den d) -> u8 (d_dots d) -> agree get_duration (put_duration d) (read_duration (write_duration d)).
Proof.
  intros A B rest. as_struct read_duration write_duration. unfold get_duration, put_duration. rewrite <- !app_assoc.
  take (agree_variant [Whole; Half; Quarter; N8th; N16th; N32nd; N64th; N128th] numerator_place numerator_name (d_num d)
    ltac:(destruct (d_num d); reflexivity) ltac:(destruct (d_num d); cbn; lia) ltac:(destruct (d_num d); reflexivity)).
  take (agree_u8 _ A). take (agree_u8 _ B). reflexivity.
Qed.

Lemma agree_trimmer t : typed_trimmer t -> agree get_trimmer (put_trimmer t) (read_trimmer (write_trimmer t)).
Proof.
  intros (A & B & C & D) rest. as_struct read_trimmer write_trimmer. unfold get_trimmer, put_trimmer.
  take (agree_four _ _ _ _ _ _ _ _ _ _ (agree_i16 _ A) (agree_i16 _ B) (agree_i16 _ C) (agree_i16 _ D)).
  destruct a as [[[a b] c] d]. unfold bconv. destruct (trimmer_from_array a b c d); reflexivity.
Qed.

Lemma agree_percent z : u16 z -> agree (get_unsigned 2) (put_int 2 z) (read_percent_value (write_percent z)).
Proof. intros U rest. as_struct read_percent_value write_percent. now apply agree_u16. Qed.

Lemma agree_rate t : typed_rate t -> agree get_rate (put_rate t) (read_rate (write_rate t)).
Proof.
  intros (A & B & C & D) rest. as_struct read_rate write_rate. unfold get_rate, put_rate.
  take (agree_four _ _ _ _ _ _ _ _ _ _ (agree_percent _ A) (agree_percent _ B) (agree_percent _ C) (agree_percent _ D)).
  destruct a as [[[a b] c] d]. reflexivity.
Qed.

Lemma agree_velocity z : u8 z -> agree get_velocity (put_int 1 z) (read_velocity_value (JInt z)).
Proof. intros U rest. unfold get_velocity, read_velocity_value. take (agree_u8 _ U). reflexivity. Qed.

Lemma agree_note n : typed_note n -> agree get_note (put_note n) (read_note (write_note n)).
Proof.
  intros (T & DD & DO & V & TT & RT & VT & C) rest. as_struct read_note write_note. unfold get_note, put_note. rewrite <- !app_assoc.
  take (agree_u32 _ T). take (agree_pitch (n_pitch n)). take (agree_duration _ DD DO). take (agree_bool (n_tie n)). take (agree_bool (n_tied n)).
  take (agree_velocity _ V). take (agree_trimmer _ TT). take (agree_rate _ RT). take (agree_trimmer _ VT). take (agree_u8 _ C). reflexivity.
Qed.

Lemma agree_rhythm r : typed_rhythm r -> agree get_rhythm (put_rhythm r) (read_rhythm (write_rhythm r)).
Proof.
  intros U rest. as_struct read_rhythm write_rhythm. unfold get_rhythm, put_rhythm. rewrite <- !app_assoc.
  take (agree_u8 _ U).
  take (agree_variant [D2; D4; D8; D16; D32; D64] rhythm_den_place rhythm_den_name (rh_den r)
    ltac:(destruct (rh_den r); reflexivity) ltac:(destruct (rh_den r); cbn; lia) ltac:(destruct (rh_den r); reflexivity)). reflexivity.
Qed.

Lemma agree_marks s : u16 s -> agree get_marks (put_marks s) (read_marks (write_marks s)).
Proof. intros U rest. as_struct read_marks write_marks. unfold get_marks, put_marks. take (agree_u16 _ U). reflexivity. Qed.

Lemma agree_bar b : typed_bar b -> agree get_bar (put_bar b) (read_bar (write_bar b)).
Proof.
  intros (T & R & K & M) rest. as_struct read_bar write_bar. unfold get_bar, put_bar. rewrite <- !app_assoc.
  take (agree_u32 _ T).
  take (agree_option get_rhythm put_rhythm read_rhythm write_rhythm (b_rhythm b) ltac:(intros r E; split; [apply agree_rhythm, R, E | discriminate])).
  take (agree_option get_key put_key read_key JInt (b_key b) ltac:(intros k E; split; [apply agree_key, K, E | discriminate])).
  take (agree_marks _ M). reflexivity.
Qed.

Lemma agree_tempo t : typed_tempo t -> agree get_tempo (put_tempo t) (read_tempo_elem (write_tempo t)).
Proof.
  intros (T & V) rest. as_struct read_tempo_elem write_tempo. unfold get_tempo, put_tempo. rewrite <- !app_assoc.
  take (agree_u32 _ T). take (agree_u16 _ V). reflexivity.
Qed.
Lemma agree_ctrl t : typed_ctrl t -> agree get_ctrl (put_ctrl t) (read_ctrl (write_ctrl t)).
Proof.
  intros (T & V & C) rest. as_struct read_ctrl write_ctrl. unfold get_ctrl, put_ctrl. rewrite <- !app_assoc.
  take (agree_u32 _ T). take (agree_velocity _ V). take (agree_u8 _ C). reflexivity.
Qed.

Lemma Forall_agree {A} (P : A -> Prop) (g : breader A) (w : A -> bytes) (r : reader A) (v : A -> json) l :
  (forall a, P a -> agree g (w a) (r (v a))) -> Forall P l -> Forall (fun a => agree g (w a) (r (v a))) l.
Proof. intros H F. eapply Forall_impl; [|exact F]. exact H. Qed.

Lemma agree_models m : typed_models m -> agree get_models (put_models m) (read_models (write_models m)).
Proof.
  intros (N & B & T & D & S & CN & CB & CT & CD & CS) rest.
  unfold read_models, write_models, models_values.
  match goal with |- context [struct ?n (JObj (combine ?n ?vs))] => change (struct n (JObj (combine n vs))) with (Some (map Some vs)) end.
  cbn [map]. cbv iota. unfold read_models_fields. cbn [required]. unfold get_models, put_models. rewrite <- !app_assoc.
  take (agree_vec _ _ _ _ _ CN (Forall_agree _ _ _ _ _ _ agree_note N)).
  take (agree_vec _ _ _ _ _ CB (Forall_agree _ _ _ _ _ _ agree_bar B)).
  take (agree_vec _ _ _ _ _ CT (Forall_agree _ _ _ _ _ _ agree_tempo T)).
  take (agree_vec _ _ _ _ _ CD (Forall_agree _ _ _ _ _ _ agree_ctrl D)).
  take (agree_vec _ _ _ _ _ CS (Forall_agree _ _ _ _ _ _ agree_ctrl S)). reflexivity.
Qed.

Lemma agree_grid g : u32 g -> agree (get_unsigned 4) (put_int 4 g) (read_grid (write_grid g)).
Proof. intros U rest. as_struct read_grid write_grid. now apply agree_u32. Qed.

Lemma typed_export p : typed_project p -> typed_models (ex_models (export p)).
Proof.
  intros (_ & _ & _ & N & B & T & D & S & CN & CB & CT & CD & CS).
  unfold typed_models, counts_models, counts in *. cbn [export ex_models m_notes m_bars m_tempos m_dumpers m_softs]. rewrite !map_length. auto 10.
Qed.

Lemma agree_project p : typed_project p -> agree get_exported (put_project p) (read_exported (write_project p)).
Proof.
  intros T rest. pose proof (typed_export p T) as M. destruct T as (R & K & G & _). unfold read_exported, write_project.
  match goal with |- context [struct ?n (JObj (combine ?n ?vs))] => change (struct n (JObj (combine n vs))) with (Some (map Some vs)) end.
  cbn [map required]. cbv iota. unfold get_exported, put_project. rewrite <- !app_assoc. cbn [export ex_rhythm ex_key ex_grid].
  take (agree_rhythm _ R). take (agree_key _ K). take (agree_grid _ G). take (agree_models _ M). reflexivity.
Qed.

Lemma agree_metadata m : agree get_metadata (put_metadata m) (read_metadata (write_metadata m)).
Proof. intro rest. destruct m as [[[]|] []]; reflexivity. Qed.

Lemma agree_cmd cm : typed_cmd (fst cm) -> agree get_cmd (put_cmd cm) (read_cmd (write_cmd cm)).
Proof.
  destruct cm as [[a b|a b|a b|a b] m]; intros (A & B) rest; cbn [put_cmd write_cmd fst].
  - change (read_cmd (JObj [(chars "SetRhythm", JArr [write_rhythm a; write_rhythm b])]))
      with (read_pair read_rhythm (fun a b => (SetRhythm a b, meta_new)) (JArr [write_rhythm a; write_rhythm b])).
    unfold read_pair. rewrite <- !app_assoc.
    change (get_cmd (put_variant 0 ++ put_rhythm a ++ put_rhythm b ++ rest))
      with ((let# a := get_rhythm in let# b := get_rhythm in bret (SetRhythm a b, meta_new)) (put_rhythm a ++ put_rhythm b ++ rest)).
    take (agree_rhythm _ A). take (agree_rhythm _ B). reflexivity.
  - change (read_cmd (JObj [(chars "SetKey", JArr [JInt a; JInt b])]))
      with (read_pair read_key (fun a b => (SetKey a b, meta_new)) (JArr [JInt a; JInt b])).
    unfold read_pair. rewrite <- !app_assoc.
    change (get_cmd (put_variant 1 ++ put_key a ++ put_key b ++ rest))
      with ((let# a := get_key in let# b := get_key in bret (SetKey a b, meta_new)) (put_key a ++ put_key b ++ rest)).
    take (agree_key _ A). take (agree_key _ B). reflexivity.
  - change (read_cmd (JObj [(chars "SetGrid", JArr [write_grid a; write_grid b])]))
      with (read_pair read_grid (fun a b => (SetGrid a b, meta_new)) (JArr [write_grid a; write_grid b])).
    unfold read_pair. rewrite <- !app_assoc.
    change (get_cmd (put_variant 2 ++ put_int 4 a ++ put_int 4 b ++ rest))
      with ((let# a := get_unsigned 4 in let# b := get_unsigned 4 in bret (SetGrid a b, meta_new)) (put_int 4 a ++ put_int 4 b ++ rest)).
    take (agree_grid _ A). take (agree_grid _ B). reflexivity.
  - change (read_cmd (JObj [(chars "ModelChanged", JObj (combine changed_fields [write_models a; write_models b; write_metadata m]))]))
      with (read_changed (JObj (combine changed_fields [write_models a; write_models b; write_metadata m]))).
    unfold read_changed.
    match goal with |- context [struct ?n (JObj (combine ?n ?vs))] => change (struct n (JObj (combine n vs))) with (Some (map Some vs)) end.
    cbn [map required]. cbv iota. rewrite <- !app_assoc.
    change (get_cmd (put_variant 3 ++ put_models a ++ put_models b ++ put_metadata m ++ rest))
      with ((let# a := get_models in let# r := get_models in let# m := get_metadata in bret (ModelChanged a r, m))
              (put_models a ++ put_models b ++ put_metadata m ++ rest)).
    take (agree_models _ A). take (agree_models _ B). take (agree_metadata m). reflexivity.
Qed.

(** ** What can be saved is typed *)

Lemma savable_typed_trimmer t : savable_trimmer t -> typed_trimmer t.
Proof.
  intros (F & _). unfold trim_values in F. inversion F as [|? ? A F1]; subst. inversion F1 as [|? ? B F2]; subst.
  inversion F2 as [|? ? C F3]; subst. inversion F3; subst. unfold typed_trimmer. auto.
Qed.
Lemma savable_typed_note n : savable_note n -> typed_note n.
Proof.
  intros (T & _ & D & K & V & TT & (R0 & R1 & R2 & R3 & _) & VT & C). unfold typed_note, u8, u8_max. split; [exact T|].
  split; [lia|]. split; [exact K|]. split; [lia|]. split; [now apply savable_typed_trimmer|]. split; [exact (conj R0 (conj R1 (conj R2 R3)))|].
  split; [now apply savable_typed_trimmer | lia].
Qed.
Lemma savable_typed_bar b : savable_bar b -> typed_bar b.
Proof. intros (T & R & K & M). split; [exact T|]. split; [exact R|]. split; [exact K|]. unfold u16, u16_max. cbn in M. lia. Qed.
Lemma savable_typed_tempo t : savable_tempo t -> typed_tempo t.
Proof. intros (T & V). split; [exact T|]. unfold u16, u16_max. lia. Qed.
Lemma savable_typed_ctrl t : savable_ctrl t -> typed_ctrl t.
Proof. intros (T & V & C). split; [exact T|]. unfold u8, u8_max. lia. Qed.
Lemma savable_typed m : savable m -> counts_models m -> typed_models m.
Proof.
  intros (N & B & T & D & S) C. unfold typed_models.
  split; [eapply Forall_impl; [apply savable_typed_note | exact N]|].
  split; [eapply Forall_impl; [apply savable_typed_bar | exact B]|].
  split; [eapply Forall_impl; [apply savable_typed_tempo | exact T]|].
  split; [eapply Forall_impl; [apply savable_typed_ctrl | exact D]|].
  split; [eapply Forall_impl; [apply savable_typed_ctrl | exact S] | exact C].
Qed.
Lemma savable_typed_project p : savable_project p -> counts_project p -> typed_project p.
Proof.
  intros (R & K & G & N & B & T & D & S) C. unfold typed_project. split; [exact R|]. split; [exact K|]. split; [exact G|].
  split; [eapply Forall_impl; [apply savable_typed_note | exact N]|].
  split; [eapply Forall_impl; [apply savable_typed_bar | exact B]|].
  split; [eapply Forall_impl; [apply savable_typed_tempo | exact T]|].
  split; [eapply Forall_impl; [apply savable_typed_ctrl | exact D]|].
  split; [eapply Forall_impl; [apply savable_typed_ctrl | exact S] | exact C].
Qed.
Lemma savable_typed_cmd c : savable_cmd c -> counts_cmd c -> typed_cmd c.
Proof. destruct c; cbn; auto. intros [A B] [C D]. split; now apply savable_typed. Qed.

(** ** What reading does to arbitrary bytes *)

(** [P] holds of what is read and the bytes it is read from, [B] of the bytes up to
    where it panics; it never hangs, and further bytes change nothing. *)
Definition good {A} (P : A -> bytes -> Prop) (B : bytes -> Prop) (g : breader A) : Prop :=
  forall bs, Forall byte bs ->
  match g bs with
  | Ret (Some (a, rest)) => exists u, bs = u ++ rest /\ P a u /\ forall x, g (bs ++ x) = Ret (Some (a, rest ++ x))
  | Ret None => True
  | Panic => exists u r, bs = u ++ r /\ B u /\ forall x, g (bs ++ x) = Panic
  | Hang => False
  end.
Definition never (bs : bytes) : Prop := False.

Lemma good_weaken {A} (P Q : A -> bytes -> Prop) (B C : bytes -> Prop) g :
  (forall a u, Forall byte u -> P a u -> Q a u) -> (forall u, B u -> C u) -> good P B g -> good Q C g.
Proof.
  intros HP HB G bs Y. specialize (G bs Y). destruct (g bs) as [[[a rest]|]| |]; auto.
  - destruct G as (u & E & p & X). exists u. subst. apply Forall_app in Y as [Y _]. auto.
  - destruct G as (u & r & E & b & X). exists u, r. auto.
Qed.
Lemma good_ret {A} (P : A -> bytes -> Prop) B a : P a [] -> good P B (bret a).
Proof. intros p bs _. cbn. exists []. auto. Qed.
Lemma good_fail {A} (P : A -> bytes -> Prop) B : good P B bfail.
Proof. intros bs _. exact Logic.I. Qed.
Lemma good_conv {A} (P : A -> bytes -> Prop) (B : bytes -> Prop) o :
  (forall a, o = Ret a -> P a []) -> (o = Panic -> B []) -> o <> Hang -> good P B (bconv o).
Proof.
  intros p b h bs _. unfold bconv. destruct o as [a| |]; cbn [bind]; [|exists [], bs; auto|congruence].
  exists []. auto.
Qed.
Lemma good_then {A C} (P : A -> bytes -> Prop) (Q : C -> bytes -> Prop) (B B1 : bytes -> Prop) (g : breader A) (k : A -> breader C) :
  good P B1 g -> (forall u, B1 u -> B u) ->
  (forall a u, Forall byte u -> P a u -> good (fun c v => Q c (u ++ v)) (fun v => B (u ++ v)) (k a)) ->
  good Q B (bthen g k).
Proof.
  intros G HB K bs Y. specialize (G bs Y). unfold bthen. destruct (g bs) as [[[a rest]|]| |] eqn:E; cbn [bind_opt bind fst snd]; auto.
  - destruct G as (u & Eu & p & X). subst bs. apply Forall_app in Y as [Yu Yr]. specialize (K a u Yu p rest Yr).
    destruct (k a rest) as [[[c r2]|]| |] eqn:Ek; auto.
    + destruct K as (v & Ev & q & Z). exists (u ++ v). subst rest. split; [apply app_assoc|]. split; [exact q|].
      intro x. rewrite X. cbn [bind_opt bind fst snd]. apply Z.
    + destruct K as (v & r & Ev & q & Z). exists (u ++ v), r. subst rest. split; [apply app_assoc|]. split; [exact q|].
      intro x. rewrite X. cbn [bind_opt bind fst snd]. apply Z.
  - destruct G as (u & r & Eu & b & X). exists u, r. split; [exact Eu|]. split; [auto|]. intro x. rewrite X. reflexivity.
Qed.

Lemma good_bytes n : good (fun l u => l = u /\ List.length u = n) never (get_bytes n).
Proof.
  induction n as [|n IH]; [now apply good_ret|]. intros [|b bs] Y; [exact Logic.I|]. cbn [get_bytes]. inversion Y as [|? ? Yb Ys]; subst.
  specialize (IH bs Ys). destruct (get_bytes n bs) as [[[l rest]|]| |] eqn:E; cbn [bind_opt bind fst snd]; auto.
  - destruct IH as (u & -> & [-> L] & X). exists (b :: u). split; [reflexivity|]. split; [cbn; auto|]. intro x. cbn [app]. now rewrite X.
  - destruct IH as (u & r & _ & [] & _).
Qed.
Lemma good_unsigned n : good (fun z u => u = put_int n z /\ 0 <= z < 256 ^ Z.of_nat n) never (get_unsigned n).
Proof.
  eapply good_then; [apply good_bytes | auto|]. intros l u Y [-> L]. apply good_ret. rewrite app_nil_r. rewrite <- L.
  split; [now rewrite put_of_int | now apply int_of_range].
Qed.
Lemma good_signed n : (0 < n)%nat ->
  good (fun z u => u = put_int n z /\ - 2 ^ (8 * Z.of_nat n - 1) <= z < 2 ^ (8 * Z.of_nat n - 1)) never (get_signed n).
Proof.
  intro N. eapply good_then; [apply good_unsigned | auto|]. intros z u Y [-> R]. apply good_ret. rewrite app_nil_r.
  pose proof (half n N) as H. rewrite bits. destruct (Z.ltb_spec z (2 ^ (8 * Z.of_nat n - 1))).
  - split; [reflexivity | lia].
  - split; [|lia]. rewrite <- (put_int_mod n (z - _)). replace (z - 256 ^ Z.of_nat n) with (z + (-1) * 256 ^ Z.of_nat n) by lia.
    rewrite Z.mod_add, Z.mod_small by lia. reflexivity.
Qed.
Lemma good_bool (P : bool -> bytes -> Prop) : (forall b u, P b u) -> good P never get_bool.
Proof.
  intro H. eapply good_then; [apply good_unsigned | auto|]. intros z u _ _.
  destruct (z =? 0); [apply good_ret, H|]. destruct (z =? 1); [apply good_ret, H | apply good_fail].
Qed.
Lemma good_variant {A} (all : list A) (place : A -> Z) :
  (forall i a, nth_error all i = Some a -> place a = Z.of_nat i) ->
  good (fun a u => u = put_variant (place a)) never (get_variant all).
Proof.
  intro H. eapply good_then; [apply good_unsigned | auto|]. intros z u _ [-> R].
  destruct (nth_error all (Z.to_nat z)) as [a|] eqn:E; [|apply good_fail]. apply good_ret. rewrite app_nil_r.
  rewrite (H _ _ E), Z2Nat.id by lia. reflexivity.
Qed.

Lemma good_option {A} (P : A -> bytes -> Prop) (B : bytes -> Prop) (g : breader A) : (forall u v, B v -> B (u ++ v)) ->
  good P B g -> good (fun o _ => forall a, o = Some a -> exists v, P a v) B (get_option g).
Proof.
  intros HB G. eapply good_then; [apply good_unsigned | intros ? []|]. intros z u _ _.
  destruct (z =? 0); [apply good_ret; discriminate|]. destruct (z =? 1); [|apply good_fail].
  eapply good_then; [exact G | auto|]. intros a v _ p. apply good_ret. intros b E. injection E as <-. eauto.
Qed.
Lemma good_times {A} (P : A -> Prop) (B : bytes -> Prop) (g : breader A) : (forall u v, B v -> B (u ++ v)) ->
  good (fun a _ => P a) B g -> forall n, good (fun l _ => Forall P l /\ List.length l = n) B (get_times n g).
Proof.
  intros HB G. induction n as [|n IH]; cbn [get_times]; [apply good_ret; auto|].
  eapply good_then; [exact G | auto|]. intros a u _ p. eapply good_then; [exact IH | auto|].
  intros l v _ [F L]. apply good_ret. split; [now constructor | cbn; now rewrite L].
Qed.
Lemma good_vec {A} (P : A -> Prop) (B : bytes -> Prop) (g : breader A) : (forall u v, B v -> B (u ++ v)) ->
  good (fun a _ => P a) B g -> good (fun l _ => Forall P l /\ counts l) B (get_vec g).
Proof.
  intros HB G. eapply good_then; [apply good_unsigned | intros ? []|]. intros z u _ [_ R].
  eapply good_weaken; [| |apply (good_times P B g HB G)]; [|auto].
  intros l v _ [F L]. split; [exact F|]. unfold counts. rewrite L, Z2Nat.id by lia. cbn in R. lia.
Qed.
Lemma good_four {A} (P : A -> bytes -> Prop) (g : breader A) : good P never g ->
  good (fun x u => let '(a, b, c, d) := x in exists ua ub uc ud, u = ua ++ ub ++ uc ++ ud /\ P a ua /\ P b ub /\ P c uc /\ P d ud)
    never (get_four g).
Proof.
  intro G. eapply good_then; [exact G | auto|]. intros a ua _ pa. eapply good_then; [exact G | intros ? []|]. intros b ub _ pb.
  eapply good_then; [exact G | intros ? []|]. intros c uc _ pc. eapply good_then; [exact G | intros ? []|]. intros d ud _ pd.
  apply good_ret. exists ua, ub, uc, ud. rewrite app_nil_r. auto 10.
Qed.

(** the bytes hold a pitch or a trimmer that does not exist *)
Definition faulty (bs : bytes) : Prop := exists pre x post, bs = pre ++ x ++ post /\ (bad_pitch_bytes x \/ bad_trimmer_bytes x).
Lemma faulty_after u v : faulty v -> faulty (u ++ v).
Proof. intros (a & x & b & -> & H). exists (u ++ a), x, b. now rewrite app_assoc. Qed.
Lemma faulty_self x : bad_pitch_bytes x \/ bad_trimmer_bytes x -> faulty x.
Proof. intro. exists [], x, []. rewrite app_nil_r. auto. Qed.
Local Hint Resolve faulty_after : core.

Ltac placed :=
  let i := fresh in let a := fresh in let E := fresh in
  intros i a E; repeat (destruct i as [|i]; [injection E as <-; reflexivity|]); destruct i; discriminate.

Lemma good_pitch : good (fun p _ => valid_pitch p) faulty get_pitch.
Proof.
  eapply good_then; [apply (good_variant _ solfa_place); placed | intros ? []|]. intros s u1 _ ->.
  eapply good_then; [apply (good_variant _ octave_place); placed | intros ? []|]. intros o u2 _ ->.
  eapply good_then; [apply (good_variant _ sharp_flat_place); placed | intros ? []|]. intros a u3 _ ->.
  apply good_conv; unfold pitch_new.
  - intros p E. destruct (pitch_value_of s o a) as [q|] eqn:V; [|discriminate]. injection E as <-. eapply value_of_valid; eauto.
  - intro E. rewrite app_nil_r. apply faulty_self. left. exists s, o, a. split; [reflexivity|]. intro M. rewrite value_of_ok in E by exact M. discriminate.
  - destruct (pitch_value_of s o a); discriminate.
Qed.

Lemma good_duration : good (fun d _ => 2 <= d_den d <= 255 /\ 0 <= d_dots d <= 255) faulty get_duration.
Proof.
  eapply good_then; [apply (good_variant _ numerator_place); placed | intros ? []|]. intros n u1 _ _.
  eapply good_then; [apply good_unsigned | intros ? []|]. intros d u2 _ [_ D].
  eapply good_then; [apply good_unsigned | intros ? []|]. intros k u3 _ [_ K]. apply good_ret. cbn [d_den d_dots].
  cbn in D, K. unfold denominator_deser, denominator_from_value. destruct (Z.ltb_spec d 2); lia.
Qed.

Lemma good_i16 : good (fun z u => u = put_int 2 z /\ i16 z) never (get_signed 2).
Proof.
  eapply good_weaken; [| |apply good_signed; lia]; [|auto]. intros z u _ [E R]. split; [exact E|]. unfold i16, i16_min, i16_max. cbn in R. lia.
Qed.
Lemma good_u16 : good (fun z u => u = put_int 2 z /\ u16 z) never (get_unsigned 2).
Proof. eapply good_weaken; [| |apply good_unsigned]; [|auto]. intros z u _ [E R]. split; [exact E|]. unfold u16, u16_max. cbn in R. lia. Qed.
Lemma good_u32 : good (fun z u => u32 z) faulty (get_unsigned 4).
Proof. eapply good_weaken; [| |apply good_unsigned]; [|intros ? []]. intros z u _ [E R]. unfold u32, u32_max. cbn in R. lia. Qed.
Lemma good_u8 : good (fun z u => u8 z) faulty (get_unsigned 1).
Proof. eapply good_weaken; [| |apply good_unsigned]; [|intros ? []]. intros z u _ [E R]. unfold u8, u8_max. cbn in R. lia. Qed.
Lemma good_key : good (fun z u => savable_key z) faulty get_key.
Proof. eapply good_weaken; [| |apply good_signed; lia]; [|intros ? []]. intros z u _ [E R]. unfold savable_key. cbn in R. lia. Qed.

Lemma good_trimmer : good (fun t _ => savable_trimmer t) faulty get_trimmer.
Proof.
  eapply good_then; [apply (good_four _ _ good_i16) | intros ? []|]. intros [[[a b] c] d] u _ (ua & ub & uc & ud & -> & [-> A] & [-> B] & [-> C] & [-> D]).
  apply good_conv.
  - intros t E. destruct (from_array_valid _ _ _ _ _ A B C D E) as (Et & V1 & V2).
    assert (R : i16 (a + b) /\ i16 (a + b + c) /\ i16 (a + b + c + d)).
    { clear - E. unfold trimmer_from_array, chk_i16 in E. bind_inv.
      repeat match goal with H : chk _ _ _ = Ret _ |- _ => apply chk_inv in H as [-> ?] end. unfold i16. auto. }
    destruct R as (R1 & R2 & R3). subst t. unfold savable_trimmer, trim_total, trim_values, trimmer_new in *. cbn in *.
    rewrite !Z.add_0_r in *. rewrite !Z.add_assoc in *. auto 10.
  - intro E. rewrite app_nil_r. apply faulty_self. right. exists a, b, c, d. split; [reflexivity|]. do 4 (split; [assumption|]).
    intro R. rewrite (proj1 (from_array_iff _ _ _ _) R) in E. discriminate.
  - unfold trimmer_from_array, chk_i16, chk. destruct (in_range _ _ (a + b)); cbn [bind]; [|discriminate].
    destruct (in_range _ _ (a + b + c)); cbn [bind]; [|discriminate]. destruct (in_range _ _ (a + b + c + d)); cbn [bind]; discriminate.
Qed.
Lemma good_rate : good (fun r _ => savable_rate r) faulty get_rate.
Proof.
  eapply good_then; [apply (good_four _ _ good_u16) | intros ? []|]. intros [[[a b] c] d] u _ (ua & ub & uc & ud & _ & [_ A] & [_ B] & [_ C] & [_ D]).
  apply good_ret. unfold savable_rate, rate_from_array. cbn [r_v0 r_v1 r_v2 r_v3 r_sum]. auto 10.
Qed.
Lemma good_velocity : good (fun v _ => 0 <= v <= 127) faulty get_velocity.
Proof. eapply good_then; [apply good_u8 | auto|]. intros v u _ V. apply good_ret. now apply velocity_new_ok. Qed.

Ltac item H :=
  eapply good_then; [apply H | solve [intros ? [] | intros; repeat apply faulty_after; assumption]|]; intros ? ? _ ?.

Lemma good_flag : good (fun (b : bool) _ => True) never get_bool. Proof. now apply good_bool. Qed.
Lemma good_note : good (fun n _ => savable_note n) faulty get_note.
Proof.
  item good_u32. item good_pitch. item good_duration. item good_flag. item good_flag. item good_velocity.
  item good_trimmer. item good_rate. item good_trimmer. item good_u8. apply good_ret.
  unfold savable_note. cbn [n_base_tick n_pitch n_duration n_base_velocity n_tick_trimmer n_duration_trimmer n_velocity_trimmer n_channel].
  unfold Base.u8, u8_max in *. tauto.
Qed.
Lemma good_rhythm : good (fun r _ => savable_rhythm r) faulty get_rhythm.
Proof.
  item good_u8. eapply good_then; [apply (good_variant _ rhythm_den_place); placed | intros ? []|]. intros d u2 _ _. apply good_ret. assumption.
Qed.
Lemma good_marks : good (fun s _ => 0 <= s < 2 ^ 11) faulty get_marks.
Proof.
  eapply good_then; [apply good_u16 | intros ? []|]. intros v u _ [_ U]. apply good_ret.
  assert (E : ms_of all_marks = Z.ones 11) by reflexivity. rewrite E, Z.land_ones by lia. apply Z.mod_pos_bound. reflexivity.
Qed.
Lemma good_bar : good (fun b _ => savable_bar b) faulty get_bar.
Proof.
  item good_u32. eapply good_then; [apply (good_option _ _ _ faulty_after good_rhythm) | auto|]. intros ro ? _ H0.
  eapply good_then; [apply (good_option _ _ _ faulty_after good_key) | auto|]. intros ko ? _ H1. item good_marks. apply good_ret.
  unfold savable_bar. cbn [b_tick b_rhythm b_key b_marks]. split; [assumption|].
  split; [intros r E; edestruct H0 as [? ?]; [exact E|]; assumption|].
  split; [|assumption]. intros k E. edestruct H1 as [? ?]; [exact E|]. assumption.
Qed.
Lemma good_tempo : good (fun t _ => savable_tempo t) faulty get_tempo.
Proof.
  item good_u32. eapply good_then; [apply good_u16 | intros ? []|]. intros v u2 _ [_ U]. apply good_ret. split; [assumption|].
  cbn [tp_value]. unfold tempo_value_deser, min_tempo, max_tempo.
  destruct (Z.ltb_spec 999 v); [lia|]. destruct (Z.ltb_spec v 1); lia.
Qed.
Lemma good_ctrl : good (fun t _ => savable_ctrl t) faulty get_ctrl.
Proof. item good_u32. item good_velocity. item good_u8. apply good_ret. unfold savable_ctrl. cbn. unfold Base.u8, u8_max in *. tauto. Qed.

Lemma good_models : good (fun m _ => savable m /\ counts_models m) faulty get_models.
Proof.
  item (good_vec _ _ _ faulty_after good_note). item (good_vec _ _ _ faulty_after good_bar). item (good_vec _ _ _ faulty_after good_tempo).
  item (good_vec _ _ _ faulty_after good_ctrl). item (good_vec _ _ _ faulty_after good_ctrl). apply good_ret.
  unfold savable, counts_models. cbn [m_notes m_bars m_tempos m_dumpers m_softs]. cbv beta in *.
  repeat match goal with H : _ /\ _ |- _ => destruct H end. auto 12.
Qed.
Definition savable_exported (e : exported) : Prop :=
  savable_rhythm (ex_rhythm e) /\ savable_key (ex_key e) /\ u32 (ex_grid e) /\ savable (ex_models e) /\ counts_models (ex_models e).
Lemma good_exported : good (fun e _ => savable_exported e) faulty get_exported.
Proof. item good_rhythm. item good_key. item good_u32. item good_models. apply good_ret. unfold savable_exported. cbn. tauto. Qed.
Lemma good_select : good (fun (o : option bool) _ => True) faulty (get_option get_bool).
Proof.
  eapply good_weaken; [| |eapply (good_option (fun _ _ => True) faulty)]; auto.
  eapply good_weaken; [| |apply good_flag]; auto. intros ? [].
Qed.
Lemma good_metadata : good (fun (m : metadata) _ => True) faulty get_metadata.
Proof. item good_select. item good_flag. now apply good_ret. Qed.
Lemma good_cmd : good (fun cm _ => logged_ok cm /\ counts_cmd (fst cm)) faulty get_cmd.
Proof.
  eapply good_then; [apply good_unsigned | intros ? []|]. intros i u _ _. unfold logged_ok.
  destruct (i =? 0); [item good_rhythm; item good_rhythm; apply good_ret; cbn; auto|].
  destruct (i =? 1); [item good_key; item good_key; apply good_ret; cbn; auto|].
  destruct (i =? 2); [item good_u32; item good_u32; apply good_ret; cbn; auto|].
  destruct (i =? 3); [|apply good_fail].
  item good_models. item good_models. item good_metadata. apply good_ret. cbn [fst snd savable_cmd counts_cmd]. cbv beta in *.
  repeat match goal with H : _ /\ _ |- _ => destruct H end. auto 12.
Qed.

(** ** Bytes cut short *)
Lemma cut_short {A} (P : A -> bytes -> Prop) (B : bytes -> Prop) (g : breader A) bs a k : good P B g -> Forall byte bs -> g bs = Ret (Some (a, [])) ->
  (k < List.length bs)%nat -> g (firstn k bs) = Ret None.
Proof.
  intros G Y E L. assert (Y' : Forall byte (firstn k bs)) by now apply Forall_firstn.
  assert (N : skipn k bs <> []). { intro X. apply (f_equal (@List.length Z)) in X. rewrite skipn_length in X. cbn in X. lia. }
  specialize (G _ Y'). destruct (g (firstn k bs)) as [[[b r]|]| |]; auto.
  - destruct G as (u & _ & _ & X). specialize (X (skipn k bs)). rewrite firstn_skipn, E in X. injection X as _ X.
    destruct r; [cbn in X; congruence | discriminate].
  - destruct G as (u & r & _ & _ & X). specialize (X (skipn k bs)). rewrite firstn_skipn, E in X. discriminate.
  - destruct G.
Qed.
