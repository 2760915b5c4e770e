From Verif Require Import P_Base M_Pitch S_Pitch.

Definition canon (s : solfa) (o : octave) (a : sharp_flat) : pitch := mkPitch s o a (midi s o a) (staff s o).

Lemma valid_canon p : valid_pitch p -> p = canon (p_solfa p) (p_octave p) (p_sharp_flat p).
Proof. destruct p as [s o a v so]; intros [H1 [H2 H3]]; cbn in *; subst; reflexivity. Qed.

Lemma staff_range s o : 0 <= staff s o <= 76.
Proof. destruct s, o; vm_compute; split; discriminate. Qed.

Lemma to_value_midi s o a : pitch_to_value s o a = midi s o a.
Proof. destruct s, o, a; reflexivity. Qed.

Lemma staff_cast s o : as_i8 (solfa_score_offset s + 7 * octave_offset o) = staff s o.
Proof. destruct s, o; reflexivity. Qed.

Lemma value_of_ok s o a : midi_ok (midi s o a) -> pitch_value_of s o a = Ok (canon s o a).
Proof.
  intros [H1 H2]. unfold pitch_value_of. rewrite to_value_midi, staff_cast.
  unfold pitch_min_value, pitch_max_value.
  destruct (Z.ltb_spec (midi s o a) 0); [lia|].
  destruct (Z.ltb_spec 127 (midi s o a)); [lia|].
  rewrite as_u8_id by (unfold u8, u8_max; lia). reflexivity.
Qed.

Lemma value_of_err s o a : ~ midi_ok (midi s o a) -> exists e, pitch_value_of s o a = Err e.
Proof.
  intros H. unfold pitch_value_of. rewrite to_value_midi. unfold pitch_min_value, pitch_max_value.
  destruct (Z.ltb_spec (midi s o a) 0); [eauto|].
  destruct (Z.ltb_spec 127 (midi s o a)); [eauto|].
  exfalso; apply H; unfold midi_ok; lia.
Qed.

Lemma midi_ok_dec v : {midi_ok v} + {~ midi_ok v}.
Proof.
  unfold midi_ok. destruct (Z_le_dec 0 v); destruct (Z_le_dec v 127);
    [left | right | right | right]; lia.
Qed.

Lemma value_of_spec s o a : named_or_error (pitch_value_of s o a) s o a.
Proof.
  destruct (midi_ok_dec (midi s o a)) as [H|H].
  - rewrite (value_of_ok _ _ _ H). cbn. unfold valid_pitch; cbn. tauto.
  - unfold pitch_value_of. rewrite to_value_midi. unfold pitch_min_value, pitch_max_value.
    destruct (Z.ltb_spec (midi s o a) 0); [left; auto|].
    destruct (Z.ltb_spec 127 (midi s o a)); [right; auto|].
    exfalso; apply H; unfold midi_ok; lia.
Qed.

Lemma refused_not e s o a : pitch_refused e s o a -> ~ midi_ok (midi s o a).
Proof. unfold pitch_refused, midi_ok. intuition lia. Qed.

Lemma value_of_inv s o a p : pitch_value_of s o a = Ok p -> p = canon s o a /\ midi_ok (midi s o a).
Proof.
  intros H. destruct (midi_ok_dec (midi s o a)) as [Hm|Hm].
  - rewrite (value_of_ok _ _ _ Hm) in H. inv H. auto.
  - destruct (value_of_err _ _ _ Hm) as [e He]. congruence.
Qed.

Lemma value_of_valid s o a p : pitch_value_of s o a = Ok p -> valid_pitch p.
Proof. intros H; apply value_of_inv in H as [-> Hm]. unfold valid_pitch; cbn; auto. Qed.

(** Staff positions and names. *)
Lemma staff_inj s o s' o' : staff s o = staff s' o' -> s = s' /\ o = o'.
Proof. destruct s, o, s', o'; cbv; intros H; try discriminate H; auto. Qed.

Definition so_ok (n : Z) : bool :=
  match score_offset_to_solfa_octave n with Ret (s, o) => staff s o =? n | _ => false end.

Lemma to_solfa_octave n : 0 <= n <= 76 ->
  exists s o, score_offset_to_solfa_octave n = Ret (s, o) /\ staff s o = n.
Proof.
  intros H. assert (E : so_ok n = true).
  { apply (zrange_forall so_ok 0 77); [vm_compute; reflexivity | lia]. }
  unfold so_ok in E. destruct (score_offset_to_solfa_octave n) as [[s o]| |]; try discriminate.
  exists s, o; split; auto. lia.
Qed.

Lemma to_solfa_octave_staff s o : score_offset_to_solfa_octave (staff s o) = Ret (s, o).
Proof. destruct s, o; vm_compute; reflexivity. Qed.

(** up and down *)
Definition up_name (s : solfa) (o : octave) : option (solfa * octave) :=
  match score_offset_to_solfa_octave (staff s o + 1) with Ret x => Some x | _ => None end.

Lemma up_spec s o a v so :
  pitch_up (mkPitch s o a v so) =
  if staff s o =? 76 then Ret (Err (TooHigh s o a (-1)))
  else match score_offset_to_solfa_octave (staff s o + 1) with
       | Ret (s', o') => Ret (pitch_value_of s' o' a)
       | _ => Panic
       end.
Proof. destruct s, o; vm_compute; reflexivity. Qed.

Lemma down_spec s o a v so :
  pitch_down (mkPitch s o a v so) =
  if staff s o =? 0 then Ret (Err (TooLow s o a (-1)))
  else match score_offset_to_solfa_octave (staff s o - 1) with
       | Ret (s', o') => Ret (pitch_value_of s' o' a)
       | _ => Panic
       end.
Proof. destruct s, o; vm_compute; reflexivity. Qed.

Lemma up_result p : valid_pitch p ->
  exists r, pitch_up p = Ret r /\
  match r with
  | Ok q => valid_pitch q /\ p_score_offset q = p_score_offset p + 1 /\ p_sharp_flat q = p_sharp_flat p
  | Err _ => forall s o, staff s o = p_score_offset p + 1 -> ~ midi_ok (midi s o (p_sharp_flat p))
  end.
Proof.
  intros Hv. rewrite (valid_canon _ Hv). destruct p as [s o a v so]. cbn [canon p_solfa p_octave p_sharp_flat p_score_offset].
  unfold canon. rewrite up_spec. cbn [p_solfa p_octave p_sharp_flat p_score_offset]. pose proof (staff_range s o).
  destruct (Z.eqb_spec (staff s o) 76) as [E|E].
  - eexists; split; [reflexivity|]. intros s' o' E'. pose proof (staff_range s' o'). lia.
  - destruct (to_solfa_octave (staff s o + 1)) as (s' & o' & -> & Hs); [lia|].
    eexists; split; [reflexivity|].
    pose proof (value_of_spec s' o' a) as N. destruct (pitch_value_of s' o' a) as [q|e] eqn:Hq.
    + apply value_of_inv in Hq as [-> Hm]. cbn. repeat split; auto; apply Hm.
    + cbn in N. intros s2 o2 E2. rewrite <- Hs in E2. apply staff_inj in E2 as [-> ->]. exact (refused_not _ _ _ _ N).
Qed.

Lemma down_result p : valid_pitch p ->
  exists r, pitch_down p = Ret r /\
  match r with
  | Ok q => valid_pitch q /\ p_score_offset q = p_score_offset p - 1 /\ p_sharp_flat q = p_sharp_flat p
  | Err _ => forall s o, staff s o = p_score_offset p - 1 -> ~ midi_ok (midi s o (p_sharp_flat p))
  end.
Proof.
  intros Hv. rewrite (valid_canon _ Hv). destruct p as [s o a v so]. cbn [canon p_solfa p_octave p_sharp_flat p_score_offset].
  unfold canon. rewrite down_spec. cbn [p_solfa p_octave p_sharp_flat p_score_offset]. pose proof (staff_range s o).
  destruct (Z.eqb_spec (staff s o) 0) as [E|E].
  - eexists; split; [reflexivity|]. intros s' o' E'. pose proof (staff_range s' o'). lia.
  - destruct (to_solfa_octave (staff s o - 1)) as (s' & o' & -> & Hs); [lia|].
    eexists; split; [reflexivity|].
    pose proof (value_of_spec s' o' a) as N. destruct (pitch_value_of s' o' a) as [q|e] eqn:Hq.
    + apply value_of_inv in Hq as [-> Hm]. cbn. repeat split; auto; apply Hm.
    + cbn in N. intros s2 o2 E2. rewrite <- Hs in E2. apply staff_inj in E2 as [-> ->]. exact (refused_not _ _ _ _ N).
Qed.

(** the errors *)
Lemma up_error p e : valid_pitch p -> pitch_up p = Ret (Err e) ->
  exists s o, staff s o = p_score_offset p + 1 /\ pitch_refused e s o (p_sharp_flat p).
Proof.
  intros Hv. pose proof Hv as Hv'. rewrite (valid_canon _ Hv). destruct p as [s o a v so]. cbn [canon p_solfa p_octave p_sharp_flat p_score_offset].
  unfold canon. rewrite up_spec. cbn [p_solfa p_octave p_sharp_flat p_score_offset]. pose proof (staff_range s o).
  destruct (Z.eqb_spec (staff s o) 76) as [E|E].
  - exfalso. destruct Hv' as [V [_ M]]. cbn in V, M. subst v. destruct s, o; cbv in E; try discriminate E. destruct a; cbv in M; intuition congruence.
  - destruct (to_solfa_octave (staff s o + 1)) as (s' & o' & -> & Hs); [lia|]. intros Q. exists s', o'. split; [exact Hs|].
    pose proof (value_of_spec s' o' a) as N. injection Q as Q. rewrite Q in N. exact N.
Qed.

Lemma down_error p e : valid_pitch p -> pitch_down p = Ret (Err e) ->
  p_score_offset p = 0 /\ e = TooLow (p_solfa p) (p_octave p) (p_sharp_flat p) (-1) \/
  exists s o, staff s o = p_score_offset p - 1 /\ pitch_refused e s o (p_sharp_flat p).
Proof.
  intros Hv. rewrite (valid_canon _ Hv). destruct p as [s o a v so]. cbn [canon p_solfa p_octave p_sharp_flat p_score_offset].
  unfold canon. rewrite down_spec. cbn [p_solfa p_octave p_sharp_flat p_score_offset]. pose proof (staff_range s o).
  destruct (Z.eqb_spec (staff s o) 0) as [E|E].
  - intros Q. left. split; [exact E|congruence].
  - destruct (to_solfa_octave (staff s o - 1)) as (s' & o' & -> & Hs); [lia|]. intros Q. right. exists s', o'. split; [exact Hs|].
    pose proof (value_of_spec s' o' a) as N. injection Q as Q. rewrite Q in N. exact N.
Qed.

Lemma shift_error p d e : pitch_with_score_offset_delta p d = Ret (Err e) ->
  ~ 0 <= p_score_offset p + d <= 74 /\ e = InvalidScoreOffset (p_score_offset p + d) \/
  exists s o, staff s o = p_score_offset p + d /\ pitch_refused e s o (p_sharp_flat p).
Proof.
  unfold pitch_with_score_offset_delta. set (n := p_score_offset p + d). unfold chk_i32, chk. destruct (in_range i32_min i32_max n); [|discriminate]. cbn [bind].
  unfold min_score_offset, max_score_offset.
  destruct (Z.ltb_spec n 0); cbn [orb]; [intros Q; left; split; [lia|congruence]|].
  destruct (Z.ltb_spec 74 n); [intros Q; left; split; [lia|congruence]|].
  destruct (to_solfa_octave n) as (s' & o' & -> & Hs); [lia|]. cbn [bind]. intros Q. right. exists s', o'. split; [exact Hs|].
  pose proof (value_of_spec s' o' (p_sharp_flat p)) as N. injection Q as Q. rewrite Q in N. exact N.
Qed.

Lemma valid_unique p q : valid_pitch p -> valid_pitch q ->
  p_score_offset p = p_score_offset q -> p_sharp_flat p = p_sharp_flat q -> p = q.
Proof.
  intros Hp Hq E1 E2. rewrite (valid_canon _ Hp), (valid_canon _ Hq).
  destruct Hp as [_ [Hp _]], Hq as [_ [Hq _]]. rewrite Hp, Hq in E1.
  apply staff_inj in E1 as [-> ->]. rewrite E2. reflexivity.
Qed.

Lemma up_down p q : valid_pitch p -> pitch_up p = Ret (Ok q) -> pitch_down q = Ret (Ok p).
Proof.
  intros Hp Hu. destruct (up_result p Hp) as (r & Hr & Hspec). rewrite Hu in Hr. inv Hr.
  destruct Hspec as (Hq & Hso & Hacc).
  destruct (down_result q Hq) as ([q'|e] & Hr & Hspec); rewrite Hr.
  - destruct Hspec as (Hq' & Hso' & Hacc'). do 2 f_equal. apply valid_unique; auto; try congruence. lia.
  - exfalso. destruct Hp as (Hv & Hs & Hm). rewrite Hv in Hm.
    refine (Hspec (p_solfa p) (p_octave p) _ _); [lia|]. rewrite Hacc; exact Hm.
Qed.

Lemma down_up p q : valid_pitch p -> pitch_down p = Ret (Ok q) -> pitch_up q = Ret (Ok p).
Proof.
  intros Hp Hu. destruct (down_result p Hp) as (r & Hr & Hspec). rewrite Hu in Hr. inv Hr.
  destruct Hspec as (Hq & Hso & Hacc).
  destruct (up_result q Hq) as ([q'|e] & Hr & Hspec); rewrite Hr.
  - destruct Hspec as (Hq' & Hso' & Hacc'). do 2 f_equal. apply valid_unique; auto; try congruence. lia.
  - exfalso. destruct Hp as (Hv & Hs & Hm). rewrite Hv in Hm.
    refine (Hspec (p_solfa p) (p_octave p) _ _); [lia|]. rewrite Hacc; exact Hm.
Qed.

(** transposition *)
Lemma shift_result p d : valid_pitch p -> i32 (p_score_offset p + d) ->
  exists r, pitch_with_score_offset_delta p d = Ret r /\
  match r with
  | Ok q => valid_pitch q /\ p_score_offset q = p_score_offset p + d /\ p_sharp_flat q = p_sharp_flat p
            /\ 0 <= p_score_offset p + d <= 74
  | Err _ => ~ (0 <= p_score_offset p + d <= 74) \/
             forall s o, staff s o = p_score_offset p + d -> ~ midi_ok (midi s o (p_sharp_flat p))
  end.
Proof.
  intros Hv Hi. unfold pitch_with_score_offset_delta, chk_i32. rewrite chk_ret by apply Hi. cbn [bind].
  unfold min_score_offset, max_score_offset. set (n := p_score_offset p + d) in *.
  destruct (Z.ltb_spec n 0); cbn [orb]; [eexists; split; [reflexivity|]; cbn; lia|].
  destruct (Z.ltb_spec 74 n); [eexists; split; [reflexivity|]; cbn; lia|].
  destruct (to_solfa_octave n) as (s' & o' & -> & Hs); [lia|]. cbn [bind].
  eexists; split; [reflexivity|].
  pose proof (value_of_spec s' o' (p_sharp_flat p)) as N.
  destruct (pitch_value_of s' o' (p_sharp_flat p)) as [q|e] eqn:Hq.
  - apply value_of_inv in Hq as [-> Hm]. cbn. repeat split; auto; try apply Hm; lia.
  - cbn in N. right. intros s2 o2 E2. rewrite <- Hs in E2. apply staff_inj in E2 as [-> ->]. exact (refused_not _ _ _ _ N).
Qed.

Lemma shift_valid p d q : valid_pitch p -> pitch_with_score_offset_delta p d = Ret (Ok q) ->
  valid_pitch q /\ p_score_offset q = p_score_offset p + d /\ p_sharp_flat q = p_sharp_flat p
  /\ 0 <= p_score_offset p + d <= 74.
Proof.
  intros Hp H.
  assert (Hi : i32 (p_score_offset p + d)).
  { unfold pitch_with_score_offset_delta in H. apply bind_ret in H as (x & Hx & _).
    apply chk_inv in Hx as [_ Hx]. exact Hx. }
  destruct (shift_result p d Hp Hi) as (r & Hr & Hspec). rewrite H in Hr. inv Hr. exact Hspec.
Qed.

Lemma shift_compose p a b q r : valid_pitch p ->
  pitch_with_score_offset_delta p a = Ret (Ok q) ->
  pitch_with_score_offset_delta q b = Ret (Ok r) ->
  pitch_with_score_offset_delta p (a + b) = Ret (Ok r).
Proof.
  intros Hp Ha Hb. apply shift_valid in Ha as (Hq & Hqs & Hqa & Hqr); auto.
  apply shift_valid in Hb as (Hr & Hrs & Hra & Hrr); auto.
  destruct (shift_result p (a + b) Hp) as ([x|e] & Hx & Hspec).
  { unfold i32, i32_min, i32_max. lia. }
  - rewrite Hx. destruct Hspec as (Hx1 & Hx2 & Hx3 & _). do 2 f_equal. apply valid_unique; auto; try congruence. lia.
  - exfalso. destruct Hspec as [Hspec|Hspec]; [lia|].
    destruct Hr as (Hv & Hs & Hm). rewrite Hv in Hm. refine (Hspec (p_solfa r) (p_octave r) _ _); [lia|].
    rewrite <- Hqa, <- Hra. exact Hm.
Qed.

Lemma from_score_offset_spec n :
  exists p, pitch_from_score_offset n = Ret p /\ valid_pitch p /\ p_sharp_flat p = NoAccidental /\
    p_score_offset p = Z.max 0 (Z.min 74 n).
Proof.
  unfold pitch_from_score_offset, min_score_offset, max_score_offset.
  set (m := if n <? 0 then 0 else if 74 <? n then 74 else n).
  assert (Hm : m = Z.max 0 (Z.min 74 n)).
  { unfold m. destruct (Z.ltb_spec n 0); [lia|]. destruct (Z.ltb_spec 74 n); lia. }
  set (ok := fun k => match score_offset_to_solfa_octave k with
     | Ret (s, o) => match pitch_value_of s o NoAccidental with
          | Ok q => (p_score_offset q =? k) && (match p_sharp_flat q with NoAccidental => true | _ => false end)
          | Err _ => false end
     | _ => false end).
  assert (Hall : ok m = true).
  { apply (zrange_forall ok 0 75); [vm_compute; reflexivity | lia]. }
  unfold ok in Hall.
  destruct (score_offset_to_solfa_octave m) as [[s o]| |]; try discriminate. cbn [bind].
  destruct (pitch_value_of s o NoAccidental) as [q|e] eqn:Hq; try discriminate.
  exists q. cbn [unwrap]. repeat split; auto; try (apply value_of_valid in Hq; destruct Hq as (A & B & C); auto; apply C).
  - apply value_of_inv in Hq as [-> _]. reflexivity.
  - lia.
Qed.

(** keys *)
Lemma letter_eqb_eq a b : solfa_eqb a b = true <-> a = b.
Proof. destruct a, b; cbn; split; intros H; congruence. Qed.

Lemma in_existsb s l : existsb (solfa_eqb s) l = true <-> In s l.
Proof.
  rewrite existsb_exists. split.
  - intros (x & Hx & E). apply letter_eqb_eq in E; subst; auto.
  - intros H; exists s; split; auto. apply letter_eqb_eq; auto.
Qed.

Definition affected (k : Z) (s : solfa) : bool :=
  match key_solfas k with Some l => existsb (solfa_eqb s) l | None => false end.

Definition sig_count_ok (k : Z) : bool :=
  forallb (fun s =>
    Bool.eqb (affected k s)
      (existsb (fun i => match (if k <? 0 then nth_flat i else nth_sharp i) with
                         | Some x => solfa_eqb s x | None => false end)
               (seq 0 (Z.to_nat (Z.abs k))))) letters.

Lemma all_letters s : In s letters.
Proof. destruct s; cbn; tauto. Qed.

Lemma affected_spec k s : -7 <= k <= 7 ->
  affected k s = true <->
  exists i, (i < Z.to_nat (Z.abs k))%nat /\ (if k <? 0 then nth_flat i else nth_sharp i) = Some s.
Proof.
  intros Hk. assert (H : sig_count_ok k = true).
  { apply (zrange_forall sig_count_ok (-7) 15); [vm_compute; reflexivity|lia]. }
  unfold sig_count_ok in H. rewrite forallb_forall in H. specialize (H s (all_letters s)).
  apply Bool.eqb_prop in H. rewrite H, existsb_exists. split.
  - intros (i & Hi & E). exists i. apply in_seq in Hi. split; [lia|].
    destruct (if k <? 0 then nth_flat i else nth_sharp i); [|discriminate].
    apply letter_eqb_eq in E; congruence.
  - intros (i & Hi & E). exists i. rewrite in_seq. split; [lia|]. rewrite E. apply letter_eqb_eq; auto.
Qed.

Lemma key_solfas_out k : ~ (-7 <= k <= 7) -> key_solfas k = None.
Proof.
  intros H. destruct k as [|p|p]; [lia| |].
  - destruct p as [[[p|p|]|[p|p|]|]|[[p|p|]|[p|p|]|]|]; cbn; try reflexivity; lia.
  - destruct p as [[[p|p|]|[p|p|]|]|[[p|p|]|[p|p|]|]|]; cbn; try reflexivity; lia.
Qed.

Lemma sig_iff k s : (exists a, signature k s a) <-> affected k s = true.
Proof.
  split.
  - intros [a Ha]. inv Ha; apply affected_spec; auto; exists i; split; try lia;
      destruct (Z.ltb_spec k 0); auto; lia.
  - intros H. assert (Hk : -7 <= k <= 7).
    { destruct (Z_le_dec (-7) k); destruct (Z_le_dec k 7); try lia;
        unfold affected in H; rewrite key_solfas_out in H by lia; discriminate. }
    apply affected_spec in H as (i & Hi & E); auto.
    destruct (Z.ltb_spec k 0).
    + exists Flat. econstructor; eauto; lia.
    + exists Sharp. econstructor; eauto; lia.
Qed.

Lemma sig_fun k s a : signature k s a -> a = if k <? 0 then Flat else Sharp.
Proof. intros H; inv H; destruct (Z.ltb_spec k 0); auto; lia. Qed.

Lemma apply_key_spec p k : valid_pitch p ->
  (forall a, p_sharp_flat p = NoAccidental -> signature k (p_solfa p) a ->
     named_or_error (pitch_apply_key p k) (p_solfa p) (p_octave p) a) /\
  (p_sharp_flat p <> NoAccidental \/ (forall a, ~ signature k (p_solfa p) a) -> pitch_apply_key p k = Ok p).
Proof.
  intros Hv. unfold pitch_apply_key. split.
  - intros a Hn Hs. rewrite Hn. cbn [is_null].
    pose proof (sig_fun _ _ _ Hs) as Ea. assert (Haf : affected k (p_solfa p) = true) by (apply sig_iff; eauto).
    unfold affected in Haf. destruct (key_solfas k) as [l|]; [|discriminate]. rewrite Haf.
    unfold key_is_flat. rewrite <- Ea. apply value_of_spec.
  - intros H. destruct (p_sharp_flat p) eqn:Ea; cbn [is_null]; try reflexivity.
    destruct H as [H|H]; [congruence|].
    destruct (affected k (p_solfa p)) eqn:Haf.
    + apply sig_iff in Haf as [a Ha]. destruct (H _ Ha).
    + unfold affected in Haf. destruct (key_solfas k) as [l|]; auto. rewrite Haf; auto.
Qed.

Lemma apply_key_idem p k q : valid_pitch p -> pitch_apply_key p k = Ok q -> pitch_apply_key q k = Ok q.
Proof.
  intros Hv H. unfold pitch_apply_key in H.
  destruct (p_sharp_flat p) eqn:Ea; cbn [is_null] in H;
    try (inv H; unfold pitch_apply_key; rewrite Ea; reflexivity).
  destruct (key_solfas k) as [l|] eqn:El.
  2: { inv H; unfold pitch_apply_key; rewrite Ea, El; reflexivity. }
  destruct (existsb (solfa_eqb (p_solfa p)) l) eqn:Ex.
  2: { inv H; unfold pitch_apply_key; rewrite Ea, El, Ex; reflexivity. }
  apply value_of_inv in H as [-> _]. unfold pitch_apply_key, canon; cbn [p_sharp_flat].
  destruct (key_is_flat k); reflexivity.
Qed.

(** obtainable = valid *)
Lemma obtainable_valid p : obtainable p -> valid_pitch p.
Proof.
  induction 1 as [s o a p H|s o a p H|n p H|p q _ IH H|p q _ IH H|p q _ IH H|p q _ IH H|p q _ IH H|p k q _ IH H|p d q _ IH H].
  - eapply value_of_valid; eauto.
  - unfold pitch_new in H. destruct (pitch_value_of s o a) eqn:E; inv H. eapply value_of_valid; eauto.
  - destruct (from_score_offset_spec n) as (q & Hq & Hv & _). congruence.
  - destruct (up_result p IH) as (r & Hr & Hs). rewrite H in Hr. inv Hr. apply Hs.
  - destruct (down_result p IH) as (r & Hr & Hs). rewrite H in Hr. inv Hr. apply Hs.
  - eapply value_of_valid; eauto.
  - eapply value_of_valid; eauto.
  - eapply value_of_valid; eauto.
  - unfold pitch_apply_key in H. destruct (is_null (p_sharp_flat p)); [|inv H; auto].
    destruct (key_solfas k) as [l|]; [|inv H; auto].
    destruct (existsb (solfa_eqb (p_solfa p)) l); [|inv H; auto]. eapply value_of_valid; eauto.
  - apply shift_valid in H; tauto.
Qed.

Lemma valid_obtainable p : valid_pitch p -> obtainable p.
Proof.
  intros H. pose proof H as (Hv & Hs & Hm). rewrite Hv in Hm.
  apply (ob_value_of (p_solfa p) (p_octave p) (p_sharp_flat p)).
  rewrite (value_of_ok _ _ _ Hm), <- (valid_canon _ H). reflexivity.
Qed.

(** toggles *)
Lemma toggle_sharp_spec p :
  named_or_error (pitch_toggle_sharp p) (p_solfa p) (p_octave p) (sharp_cycle (p_sharp_flat p)).
Proof. unfold pitch_toggle_sharp. destruct (p_sharp_flat p); apply value_of_spec. Qed.
Lemma toggle_flat_spec p :
  named_or_error (pitch_toggle_flat p) (p_solfa p) (p_octave p) (flat_cycle (p_sharp_flat p)).
Proof. unfold pitch_toggle_flat. destruct (p_sharp_flat p); apply value_of_spec. Qed.
Lemma toggle_natural_spec p :
  named_or_error (pitch_toggle_natural p) (p_solfa p) (p_octave p) (natural_cycle (p_sharp_flat p)).
Proof. unfold pitch_toggle_natural. destruct (p_sharp_flat p); apply value_of_spec. Qed.

(** octaves *)
Lemma octave_from_ok i : 0 <= i <= 10 ->
  exists o, octave_from_score_offset i = Ret (Ok o) /\ octave_number o = i - 2.
Proof.
  intros H. set (f := fun i => match octave_from_score_offset i with
     | Ret (Ok o) => octave_number o =? i - 2 | _ => false end).
  assert (E : f i = true) by (apply (zrange_forall f 0 11); [vm_compute; reflexivity|lia]).
  unfold f in E. destruct (octave_from_score_offset i) as [[o|e]| |]; try discriminate. exists o; split; auto; lia.
Qed.

Lemma octave_from_err i : i < 0 \/ 11 < i -> octave_from_score_offset i = Ret (Err i).
Proof.
  intros H. unfold octave_from_score_offset. cbn [length octave_all].
  replace (Z.of_nat 11) with 11 by reflexivity.
  destruct (Z.ltb_spec i 0); cbn [orb]; auto. destruct (Z.ltb_spec 11 i); auto; lia.
Qed.

Lemma octave_value_of_ok v : -2 <= v <= 8 ->
  exists o, octave_value_of v = Ret (Ok o) /\ octave_number o = v.
Proof.
  intros H. unfold octave_value_of, octave_bias, chk_i32. rewrite chk_ret by (unfold i32_min, i32_max; lia). cbn [bind].
  destruct (octave_from_ok (v + 2)) as (o & Ho & En); [lia|]. exists o; split; auto; lia.
Qed.

Lemma octave_value_of_err v : i32 (v + 2) -> v < -2 \/ 9 < v -> octave_value_of v = Ret (Err (v + 2)).
Proof.
  intros Hi H. unfold octave_value_of, octave_bias, chk_i32. rewrite chk_ret by apply Hi. cbn [bind].
  apply octave_from_err; lia.
Qed.

Lemma octave_value_of_9 : octave_value_of 9 = Panic.
Proof. reflexivity. Qed.
