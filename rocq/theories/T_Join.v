(** Property theorems about putting one score behind another: C85. *)
From Coq Require Import ZArith List Bool Lia Sorted.
From Verif Require Import M_Pitch M_Store M_Models M_Project M_Json S_Project S_Score S_Json S_Tuple P_Store P_Replenish P_Edit P_Tuple.
From Verif Require P_Savable T_Json T_Project T_Paste.
From Verif Require Import Base M_Duration M_Scalar M_Bar M_Repeat S_Note S_Repeat S_Join P_Base P_Chunk P_Machine P_Order P_Jump P_Heard P_Panic T_Repeat T_Twice.
Import ListNotations.
Open Scope Z_scope.

(** ** The same layout later *)
Definition later_section (d : Z) (s : section) : section :=
  match s with
  | Plain l => Plain (map (later d) l)
  | Repeated l => Repeated (map (later d) l)
  | Varied c vs => Varied (map (later d) c) (map (map (later d)) vs)
  end.
Definition later_rest (d : Z) (r : list (bar * section)) : list (bar * section) := map (fun p => (later d (fst p), later_section d (snd p))) r.

Lemma has_later d b m : has (later d b) m = has b m.
Proof. reflexivity. Qed.
Lemma later_all (P : bar -> Prop) d l : (forall b, P b -> P (later d b)) -> Forall P l -> Forall P (map (later d) l).
Proof. intros H F. apply Forall_map. eapply Forall_impl; [|exact F]. exact H. Qed.
Lemma later_numbered d vs : forall k, numbered k vs -> numbered k (map (map (later d)) vs).
Proof.
  induction vs as [|v vs IH]; intros k; cbn [map numbered]; [auto|]. intros (A & B & C & D & E).
  split; [destruct v; [congruence|discriminate]|]. split; [apply later_all; auto|]. split; [apply later_all; auto|]. split; [apply later_all; auto|]. auto.
Qed.
Lemma later_inside d first s : inside first s -> inside first (later_section d s).
Proof.
  destruct s as [l|l|c vs]; cbn [inside later_section].
  - intros [A B]. split; [apply later_all; auto|]. intros E. apply later_all; auto.
  - intros (A & B & C). split; [apply later_all; auto|]. split; [apply later_all; auto|]. intros E. apply later_all; auto.
  - intros (A & B & C & D & E & F). split; [apply later_all; auto|]. split; [apply later_all; auto|]. split; [intros Q; apply later_all; auto|].
    split; [apply later_numbered; exact D|]. split; [destruct vs; [congruence|discriminate]|]. rewrite map_length. exact F.
Qed.
Lemma later_plain d s : is_plain (later_section d s) = is_plain s.
Proof. destruct s; reflexivity. Qed.
Lemma later_follows d r : forall s, follows s r -> follows (later_section d s) (later_rest d r).
Proof.
  induction r as [|[b c] r IH]; intros s; cbn [follows later_rest map fst snd]; [rewrite later_plain; auto|].
  intros ((B1 & B2 & B3 & B4) & I & F). split; [|split; [apply later_inside; exact I|apply IH; exact F]].
  unfold boundary. rewrite !later_plain. replace (is_repeated (later_section d s)) with (is_repeated s) by (destruct s; reflexivity). auto.
Qed.
Lemma later_section_bars d s : section_bars (later_section d s) = map (later d) (section_bars s).
Proof. destruct s as [l|l|c vs]; cbn; auto. rewrite map_app, concat_map. reflexivity. Qed.
Lemma later_rest_bars d r : rest_bars (later_rest d r) = map (later d) (rest_bars r).
Proof.
  induction r as [|[b c] r IH]; [reflexivity|]. unfold rest_bars in *. cbn [later_rest map flat_map fst snd].
  fold (later_rest d r). rewrite IH, later_section_bars. cbn [map app]. rewrite map_app. reflexivity.
Qed.
Lemma later_starts d vs : starts_of (map (map (later d)) vs) = map (fun t => t + d) (starts_of vs).
Proof. induction vs as [|[|b v] vs IH]; cbn; auto. unfold starts_of in IH. rewrite IH. reflexivity. Qed.

(** ** What it plays *)
Lemma from_to_later d s e : from_to (s + d) (e + d) = map (Z.add d) (from_to s e).
Proof.
  remember (Z.to_nat (e - s)) as n eqn:N. revert s N. induction n as [|n IH]; intros s N; [rewrite !from_to_nil by lia; reflexivity|].
  rewrite (from_to_cons (s + d)), (from_to_cons s) by lia. cbn [map]. f_equal; [lia|]. rewrite <- IH by lia. f_equal. lia.
Qed.
Lemma hd_later d e l : hd (e + d) (map (fun t => t + d) l) = hd e l + d.
Proof. destruct l; reflexivity. Qed.
Lemma spans_later d e l : spans (map (fun t => t + d) l) (e + d) = map (fun p => (fst p + d, snd p + d)) (spans l e).
Proof. induction l as [|a l IH]; [reflexivity|]. cbn [map spans fst snd]. rewrite IH, hd_later. reflexivity. Qed.
Lemma later_played d s sec e : play_section (s + d, later_section d sec, e + d) = map (Z.add d) (play_section (s, sec, e)).
Proof.
  destruct sec as [l|l|c vs]; cbn [later_section play_section].
  - apply from_to_later.
  - rewrite from_to_later, map_app. reflexivity.
  - rewrite later_starts, hd_later, spans_later. generalize (hd e (starts_of vs)). intros h.
    induction (spans (starts_of vs) e) as [|p l IH]; [reflexivity|]. cbn [map flat_map fst snd]. rewrite IH, !from_to_later, !map_app. reflexivity.
Qed.
Lemma until_none x l : ~ In x l -> until x l = l.
Proof. intros H. rewrite <- (app_nil_r l) at 1. rewrite until_app by exact H. apply app_nil_r. Qed.
Lemma until_from x s e : s <= x <= e -> until x (from_to s e) = from_to s x.
Proof.
  intros H. destruct (Z.eq_dec x e) as [->|N]; [apply until_none; rewrite from_to_In; lia|]. apply until_full. lia.
Qed.
Lemma play_later d rest : 0 <= d -> forall s lo sec, chain s lo (timed s sec rest) -> follows sec rest ->
  s + d <= u32_max -> Forall (fun p => b_tick (fst p) + d < u32_max) rest ->
  flat_map play_section (timed (s + d) (later_section d sec) (later_rest d rest)) =
  map (Z.add d) (until (u32_max - d) (flat_map play_section (timed s sec rest))).
Proof.
  intros D. induction rest as [|[b c] rest IH]; intros s lo sec C PL SU F; cbn [timed later_rest map fst snd] in *.
  - destruct sec as [l|l|cc vs]; cbn [follows is_plain] in PL; try discriminate. cbn [flat_map later_section]. rewrite !app_nil_r. cbn [play_section].
    rewrite until_from by lia. rewrite <- from_to_later. f_equal. lia.
  - fold (later_rest d rest). cbn [flat_map]. apply Forall_cons_iff in F as [FB F]. cbn [chain] in C. destruct C as (_ & C1 & C2 & C3 & _ & C).
    change (b_tick (later d b)) with (b_tick b + d). cbn [fst] in FB. rewrite later_played.
    rewrite until_app by (rewrite (section_in s lo) by (auto; lia); lia). rewrite map_app. f_equal.
    apply (IH (b_tick b) (b_tick b + 1) c); auto; [|lia]. apply PL.
Qed.

(** ** Two layouts joined *)
Fixpoint glue (sec : section) (rest : list (bar * section)) (lb : list bar) (more : list (bar * section)) : section * list (bar * section) :=
  match rest with
  | [] => (match sec with Plain la => Plain (la ++ lb) | _ => sec end, more)
  | (x, c) :: r => (sec, (x, fst (glue c r lb more)) :: snd (glue c r lb more))
  end.

Lemma glue_plain rest lb more : forall sec, is_plain (fst (glue sec rest lb more)) = is_plain sec.
Proof. destruct rest as [|[x c] r]; intros [l|l|cc vs]; reflexivity. Qed.
Lemma glue_laid lb more : inside true (Plain lb) -> follows (Plain lb) more -> forall rest first sec, inside first sec -> follows sec rest ->
  inside first (fst (glue sec rest lb more)) /\ follows (fst (glue sec rest lb more)) (snd (glue sec rest lb more)).
Proof.
  intros [IR IV] FM. induction rest as [|[x c] r IH]; intros first sec I F; cbn [follows glue fst snd] in *.
  - destruct sec as [la|la|cc vs]; cbn [is_plain] in F; try discriminate. destruct I as [A B]. split.
    + split; [apply Forall_app; auto|]. intros E. apply Forall_app. auto.
    + destruct more as [|[y cy] more]; [reflexivity|]. exact FM.
  - split; [exact I|]. destruct F as ((B1 & B2 & B3 & B4) & IC & F). destruct (IH false c IC F) as [I' F']. split; [|auto].
    unfold boundary. rewrite glue_plain. auto.
Qed.
Lemma glue_bars lb more rest : forall first sec, inside first sec -> follows sec rest ->
  layout_bars (glue sec rest lb more) = layout_bars (sec, rest) ++ lb ++ rest_bars more.
Proof.
  induction rest as [|[x c] r IH]; intros first sec I F; unfold layout_bars, rest_bars in *; cbn [glue follows fst snd flat_map] in *.
  - destruct sec as [la|la|cc vs]; cbn [is_plain] in F; try discriminate. cbn [section_bars]. rewrite app_nil_r, <- app_assoc. reflexivity.
  - destruct F as (_ & IC & F). specialize (IH false c IC F). rewrite <- !app_assoc. cbn [app]. do 2 f_equal.
    rewrite IH. rewrite <- !app_assoc. reflexivity.
Qed.
Lemma glue_played d lb more : forall rest s lo sec, chain s lo (timed s sec rest) -> follows sec rest -> s <= d <= u32_max ->
  Forall (fun p => b_tick (fst p) <= d) rest ->
  match more with [] => True | (x, _) :: _ => d <= b_tick x end ->
  flat_map play_section (timed s (fst (glue sec rest lb more)) (snd (glue sec rest lb more))) =
  until d (flat_map play_section (timed s sec rest)) ++ flat_map play_section (timed d (Plain lb) more).
Proof.
  induction rest as [|[x c] r IH]; intros s lo sec C FO SD F M; cbn [glue timed follows fst snd] in *.
  - destruct sec as [la|la|cc vs]; cbn [is_plain] in FO; try discriminate. cbn [flat_map]. rewrite app_nil_r. cbn [play_section].
    rewrite until_from by lia. destruct more as [|[y cy] more]; cbn [timed flat_map play_section].
    + rewrite !app_nil_r. symmetry. apply from_to_app. lia.
    + rewrite app_assoc. rewrite (from_to_app s d (b_tick y)) by lia. reflexivity.
  - cbn [flat_map]. cbn [chain] in C. destruct C as (_ & C1 & C2 & C3 & _ & C). apply Forall_cons_iff in F as [FX F]. cbn [fst] in FX.
    rewrite until_app by (rewrite (section_in s lo) by (auto; lia); lia). rewrite <- app_assoc. f_equal.
    apply (IH (b_tick x) (b_tick x + 1) c); tauto || (try lia). 
Qed.
Lemma glue_varied x c vs e lb more d rest : forall s sec, follows sec rest ->
  (In (x, Varied c vs, e) (timed s (fst (glue sec rest lb more)) (snd (glue sec rest lb more))) <->
   In (x, Varied c vs, e) (timed s sec rest) \/ In (x, Varied c vs, e) (timed d (Plain lb) more)).
Proof.
  induction rest as [|[y cy] r IH]; intros s sec F; cbn [glue timed follows fst snd] in *.
  - destruct sec as [la|la|cc ws]; cbn [is_plain] in F; try discriminate. destruct more as [|[z cz] more]; cbn [timed In]; intuition congruence.
  - cbn [In]. rewrite (IH (b_tick y) cy) by tauto. tauto.
Qed.

(** The variations start at bars of the score. *)
Lemma starts_bars vs t : In t (starts_of vs) -> exists b, In b (concat vs) /\ b_tick b = t.
Proof.
  induction vs as [|[|b v] vs IH]; cbn [starts_of flat_map concat app]; [intros []|auto|].
  intros [<-|I]; [exists b; cbn; auto|]. destruct (IH I) as (b0 & I0 & E). exists b0. split; [|exact E]. right. apply in_app_iff. auto.
Qed.
Lemma varied_bars x c vs e t rest : forall s sec, In (x, Varied c vs, e) (timed s sec rest) -> In t (starts_of vs) ->
  exists b, In b (layout_bars (sec, rest)) /\ b_tick b = t.
Proof.
  unfold layout_bars. cbn [fst snd].
  induction rest as [|[y cy] r IH]; intros s sec; cbn [timed In].
  - intros [H|[]] I. inversion H; subst. destruct (starts_bars vs t I) as (b & B & E). exists b. split; [|exact E]. apply in_app_iff. left. apply in_app_iff. auto.
  - intros [H|H] I.
    + inversion H; subst. destruct (starts_bars vs t I) as (b & B & E). exists b. split; [|exact E]. apply in_app_iff. left. apply in_app_iff. auto.
    + destruct (IH _ _ H I) as (b & B & E). exists b. split; [|exact E]. apply in_app_iff. right. unfold rest_bars. cbn [flat_map fst snd app]. right. exact B.
Qed.
Lemma varied_some x c vs e rest : forall first s sec, inside first sec -> follows sec rest -> In (x, Varied c vs, e) (timed s sec rest) -> starts_of vs <> [].
Proof.
  assert (Q : forall first, inside first (Varied c vs) -> starts_of vs <> []).
  { intros first (_ & _ & _ & N & V & _). destruct vs as [|v vs]; [congruence|]. destruct N as [NV _]. destruct v; [congruence|]. discriminate. }
  induction rest as [|[y cy] r IH]; intros first s sec I F; cbn [timed In follows] in *.
  - intros [H|[]]. inversion H; subst. eauto.
  - intros [H|H]; [inversion H; subst; eauto|]. apply (IH false _ _ (proj1 (proj2 F)) (proj2 (proj2 F)) H).
Qed.
Lemma later_varied d x c vs e rest : forall s sec, In (x, Varied c vs, e) (timed (s + d) (later_section d sec) (later_rest d rest)) -> follows sec rest ->
  exists x' c' vs' e', In (x', Varied c' vs', e') (timed s sec rest) /\ x = x' + d /\ vs = map (map (later d)) vs' /\ e = e' + d.
Proof.
  induction rest as [|[y cy] r IH]; intros s sec; cbn [timed In later_rest map fst snd].
  - intros [H|[]] P. destruct sec; cbn in *; discriminate.
  - fold (later_rest d r). intros [H|H] P.
    + destruct sec as [l|l|cc ws]; cbn [later_section] in H; try discriminate. inversion H; subst. exists s, cc, ws, (b_tick y). auto.
    + change (b_tick (later d y)) with (b_tick y + d) in H. destruct (IH _ _ H) as (x' & c' & vs' & e' & I & E).
      * apply P.
      * exists x', c', vs', e'. auto.
Qed.
Lemma later_varied_back d x c vs e rest : forall s sec, In (x, Varied c vs, e) (timed s sec rest) -> follows sec rest ->
  In (x + d, Varied (map (later d) c) (map (map (later d)) vs), e + d) (timed (s + d) (later_section d sec) (later_rest d rest)).
Proof.
  induction rest as [|[y cy] r IH]; intros s sec; cbn [timed In later_rest map fst snd].
  - intros [H|[]] P. inversion H; subst. cbn in P. discriminate.
  - fold (later_rest d r). intros [H|H] P.
    + inversion H; subst. left. reflexivity.
    + right. change (b_tick (later d y)) with (b_tick y + d). apply IH; [exact H|]. apply P.
Qed.
Lemma hd_in (e : Z) l : l <> [] -> In (hd e l) l.
Proof. destruct l; [congruence|]. cbn. auto. Qed.
Lemma last_in (e : Z) l : l <> [] -> In (last l e) l.
Proof. induction l as [|a [|b l] IH]; [congruence|cbn; auto|]. intros _. right. apply IH. discriminate. Qed.
Lemma later_hd d e vs : hd (e + d) (starts_of (map (map (later d)) vs)) = hd e (starts_of vs) + d.
Proof. rewrite later_starts. apply hd_later. Qed.
Lemma later_last d e vs : last (starts_of (map (map (later d)) vs)) (e + d) = last (starts_of vs) e + d.
Proof. rewrite later_starts. induction (starts_of vs) as [|a [|b l] IH]; [reflexivity|reflexivity|]. exact IH. Qed.

(** ** Marks of the joined score *)
Lemma marked_app m a b : marked m (a ++ b) = marked m a ++ marked m b.
Proof. unfold marked. rewrite filter_app, map_app. reflexivity. Qed.
Lemma marked_later m d b : marked m (map (later d) b) = map (fun t => t + d) (marked m b).
Proof. unfold marked. induction b as [|x b IH]; [reflexivity|]. cbn [map filter]. rewrite has_later. destruct (has x m); cbn [map]; rewrite IH; reflexivity. Qed.
Lemma marked_joined m a d b : marked m (joined a d b) = marked m a ++ map (fun t => t + d) (marked m b).
Proof. unfold joined. rewrite marked_app, marked_later. reflexivity. Qed.
Lemma marked_tick m bars t : In t (marked m bars) -> exists b, In b bars /\ b_tick b = t.
Proof. unfold marked. rewrite in_map_iff. intros (b & E & I). apply filter_In in I as [I _]. eauto. Qed.
Lemma tune_order a b x y : tune (a ++ b) -> In x a -> In y b -> b_tick x < b_tick y.
Proof.
  intros [S _]. induction a as [|z a IH]; cbn [app map] in *; [intros []|]. inversion S as [|? ? S' F]; subst. intros [->|I] J; [|apply IH; auto].
  rewrite Forall_forall in F. apply F. apply in_map. apply in_app_iff. auto.
Qed.
Lemma plain_first b l : well_laid l -> layout_bars l = b -> by_itself b -> exists lb more, l = (Plain lb, more).
Proof.
  intros [I F] LB H. destruct l as [[lb|lb|c vs] more]; cbn [fst snd] in *; [eauto| |]; exfalso.
  - destruct more as [|[z cz] more]; [discriminate|]. destruct F as ((B1 & _) & _). destruct I as (I1 & I2 & _).
    destruct (H lb z (section_bars cz ++ rest_bars more)) as [_ X].
    + rewrite <- LB. reflexivity.
    + unfold idle. apply Forall_forall. intros y Y. rewrite Forall_forall in I1, I2. auto.
    + intros [[_ X] _]. cbn [is_repeated] in B1. congruence.
    + cbn [is_repeated] in B1. congruence.
  - destruct I as (I1 & I2 & _ & N & V & _). destruct vs as [|v vs]; [congruence|]. destruct N as (NV & CA & NR & _). destruct v as [|z v]; [congruence|].
    destruct (H c z (v ++ concat vs ++ rest_bars more)) as [X _].
    + rewrite <- LB. unfold layout_bars. cbn [fst snd section_bars concat]. rewrite <- !app_assoc. reflexivity.
    + unfold idle. apply Forall_forall. intros y Y. rewrite Forall_forall in I1, I2. auto.
    + intros [_ X]. apply Forall_inv in CA. specialize (CA Var1 eq_refl). rewrite (X Var1 eq_refl) in CA. discriminate.
    + apply Forall_inv in NR. destruct NR. congruence.
Qed.

(** ** The joined layout *)
Definition join_layout (l1 : layout) (d : Z) (l2 : layout) : layout :=
  glue (fst l1) (snd l1) (map (later d) (section_bars (fst l2))) (later_rest d (snd l2)).

Lemma join_laid l1 d lb more : well_laid l1 -> well_laid (Plain lb, more) ->
  well_laid (join_layout l1 d (Plain lb, more)) /\
  layout_bars (join_layout l1 d (Plain lb, more)) = joined (layout_bars l1) d (layout_bars (Plain lb, more)).
Proof.
  intros [I1 F1] [I2 F2]. unfold join_layout. cbn [fst snd section_bars] in *. split.
  - apply glue_laid; auto; [apply (later_inside d true (Plain lb)); exact I2|apply (later_follows d more (Plain lb)); exact F2].
  - rewrite (glue_bars _ _ _ true) by auto. unfold joined. change (layout_bars (Plain lb, more)) with (lb ++ rest_bars more). rewrite map_app, later_rest_bars. destruct l1; reflexivity.
Qed.
Lemma rest_in x c sec rest : In (x, c) rest -> In x (layout_bars (sec, rest)).
Proof.
  intros I. unfold layout_bars, rest_bars. cbn [fst snd]. apply in_app_iff. right. apply in_flat_map. exists (x, c). cbn. auto.
Qed.
Lemma join_played l1 d lb more : well_laid l1 -> well_laid (Plain lb, more) -> 0 <= d <= u32_max -> tune (layout_bars l1) -> tune (layout_bars (Plain lb, more)) ->
  tune (joined (layout_bars l1) d (layout_bars (Plain lb, more))) -> Forall (fun x => b_tick x <= d) (layout_bars l1) ->
  play (join_layout l1 d (Plain lb, more)) = one_after_other (play l1) d (play (Plain lb, more)).
Proof.
  intros W1 W2 D T1 T2 T F. unfold join_layout, one_after_other, play at 1, timed_layout at 1. cbn [fst snd section_bars].
  pose proof (layout_chain _ W2 T2) as C2. pose proof (layout_chain _ W1 T1) as C1. unfold timed_layout in C1, C2. cbn [fst snd] in C2.
  rewrite (glue_played d _ _ (snd l1) 0 0 (fst l1) C1 (proj2 W1)).
  - unfold play at 1, timed_layout at 1. f_equal. change (timed d) with (timed (0 + d)).
    change (Plain (map (later d) lb)) with (later_section d (Plain lb)).
    rewrite (play_later d more (proj1 D) 0 0 (Plain lb) C2 (proj2 W2)); [reflexivity|lia|].
    apply Forall_forall. intros [x c] I. cbn [fst]. apply (rest_in x c (Plain lb)) in I.
    destruct T as [_ T]. unfold joined in T. apply Forall_app in T as [_ T]. rewrite Forall_map in T. rewrite Forall_forall in T. apply (T x I).
  - lia.
  - apply Forall_forall. intros [x c] I. cbn [fst]. apply (rest_in x c (fst l1)) in I. rewrite <- surjective_pairing in I. rewrite Forall_forall in F. auto.
  - destruct more as [|[x c] more]; cbn [later_rest map]; [exact Logic.I|]. cbn [later b_tick fst].
    assert (I : In x (layout_bars (Plain lb, (x, c) :: more))) by (apply (rest_in x c); cbn; auto). pose proof (tune_tick _ _ T2 I). lia.
Qed.
Lemma join_varied l1 d lb more x c vs e : well_laid l1 -> well_laid (Plain lb, more) ->
  In (x, Varied c vs, e) (timed_layout (join_layout l1 d (Plain lb, more))) ->
  In (x, Varied c vs, e) (timed_layout l1) \/
  exists x' c' vs' e', In (x', Varied c' vs', e') (timed_layout (Plain lb, more)) /\ x = x' + d /\ vs = map (map (later d)) vs' /\ e = e' + d.
Proof.
  intros W1 W2 H. unfold join_layout, timed_layout in H. cbn [section_bars fst snd] in H.
  apply (glue_varied x c vs e _ _ (0 + d)) in H; [|exact (proj2 W1)]. destruct H as [H|H]; [left; exact H|right].
  change (Plain (map (later d) lb)) with (later_section d (Plain lb)) in H. apply later_varied in H; [exact H|exact (proj2 W2)].
Qed.
Lemma join_segno l1 d lb more : well_laid l1 -> well_laid (Plain lb, more) ->
  let a := layout_bars l1 in let b := layout_bars (Plain lb, more) in
  tune (joined a d b) -> segno_ok a (timed_layout l1) -> segno_ok b (timed_layout (Plain lb, more)) ->
  segno_ok (joined a d b) (timed_layout (join_layout l1 d (Plain lb, more))).
Proof.
  intros W1 W2 a b T S1 S2 x c vs e t I M. rewrite marked_joined, in_app_iff in M.
  destruct (join_varied l1 d lb more x c vs e W1 W2 I) as [J|(x' & c' & vs' & e' & J & -> & -> & ->)].
  - pose proof (varied_some _ _ _ _ _ true _ _ (proj1 W1) (proj2 W1) J) as NE.
    destruct M as [M|M]; [exact (S1 x c vs e t J M)|]. apply in_map_iff in M as (t' & <- & M). apply marked_tick in M as (y & Y & <-).
    destruct (varied_bars x c vs e (last (starts_of vs) e) (snd l1) 0 (fst l1) J (last_in _ _ NE)) as (z & Z & EZ). rewrite <- surjective_pairing in Z. fold a in Z.
    assert (L : b_tick z < b_tick (later d y)) by (apply (tune_order a (map (later d) b)); auto; apply in_map; exact Y). cbn [later b_tick] in L. lia.
  - pose proof (varied_some _ _ _ _ _ true _ _ (proj1 W2) (proj2 W2) J) as NE. rewrite later_hd, later_last.
    destruct M as [M|M].
    + apply marked_tick in M as (y & Y & <-).
      destruct (varied_bars x' c' vs' e' (hd e' (starts_of vs')) more 0 (Plain lb) J (hd_in _ _ NE)) as (z & Z & EZ). fold b in Z.
      assert (L : b_tick y < b_tick (later d z)) by (apply (tune_order a (map (later d) b)); auto; apply in_map; exact Z). cbn [later b_tick] in L. lia.
    + apply in_map_iff in M as (t' & <- & M). specialize (S2 x' c' vs' e' t' J M). lia.
Qed.

Lemma tune_left a b : tune (a ++ b) -> tune a.
Proof.
  intros [S F]. split; [|apply Forall_app in F; tauto]. rewrite map_app in S. revert S. generalize (map b_tick a) (map b_tick b). clear.
  induction l as [|x l IH]; intros l0 S; [constructor|]. inversion S as [|? ? S' F]; subst. constructor; eauto. apply Forall_app in F. tauto.
Qed.

(** * C85 *)

(** One accepted score behind another: accepted, and first the one is heard, then the other. *)
Theorem C85_joined : forall r r' a d b c1 w1 c2 w2, tune b -> tune (joined a d b) -> 0 <= d < u32_max -> Forall (fun x => b_tick x <= d) a ->
  Forall compatible (a ++ b) -> marked Dc (a ++ b) = [] -> marked Ds (a ++ b) = [] -> counts_ok (joined a d b) -> by_itself b ->
  render_region r a = Ret (Ok (c1, w1)) -> render_region r' b = Ret (Ok (c2, w2)) ->
  exists cs1 cs2 c cs, to_chunks c1 = Ret cs1 /\ to_chunks c2 = Ret cs2 /\
    render_region r (joined a d b) = Ret (Ok (c, [])) /\ to_chunks c = Ret cs /\
    performance cs = one_after_other (performance cs1) d (performance cs2).
Proof.
  intros r r' a d b c1 w1 c2 w2 T2 T D F CP A B CO BI R1 R2. pose proof (tune_left _ _ T) as T1.
  apply Forall_app in CP as [P1 P2]. rewrite marked_app in A, B. apply app_eq_nil in A as [A1 A2]. apply app_eq_nil in B as [B1 B2].
  destruct (C42_only r a c1 w1 T1 P1 A1 B1 R1) as (_ & _ & l1 & cs1 & W1 & L1 & S1 & K1 & E1).
  destruct (C42_only r' b c2 w2 T2 P2 A2 B2 R2) as (_ & _ & l2 & cs2 & W2 & L2 & S2 & K2 & E2).
  destruct (plain_first b l2 W2 L2 BI) as (lb & more & ->). subst a b.
  destruct (join_laid l1 d lb more W1 W2) as [W LB].
  destruct (C42_plays r (join_layout l1 d (Plain lb, more)) W) as (c & cs & R & K & P); rewrite ?LB; auto.
  - apply join_segno; auto.
  - rewrite marked_joined, A1, A2. reflexivity.
  - rewrite marked_joined, B1, B2. reflexivity.
  - exists cs1, cs2, c, cs. rewrite LB in R. split; [exact K1|]. split; [exact K2|]. split; [exact R|]. split; [exact K|].
    rewrite P, E1, E2. apply join_played; auto. lia.
Qed.
Print Assumptions C85_joined.

(** ** With a jump inside the second score *)
Lemma until_shift x d l : until (x + d) (map (Z.add d) l) = map (Z.add d) (until x l).
Proof.
  induction l as [|t l IH]; [reflexivity|]. cbn [map until]. replace (d + t =? x + d) with (t =? x) by lia. destruct (t =? x); [reflexivity|]. cbn [map]. rewrite IH. reflexivity.
Qed.
Lemma until_until x y l : until x (until y l) = until y (until x l).
Proof.
  induction l as [|t l IH]; [reflexivity|]. cbn [until]. destruct (t =? x) eqn:X, (t =? y) eqn:Y; cbn [until]; rewrite ?X, ?Y; auto. rewrite IH. reflexivity.
Qed.
Lemma until_sub x l t : In t (until x l) -> In t l.
Proof. induction l as [|y l IH]; cbn [until In]; [auto|]. destruct (y =? x); cbn [In]; tauto. Qed.
(** At the end everything from some bar on is played once. *)
Lemma play_tail x rest : forall s lo sec, chain s lo (timed s sec rest) -> follows sec rest -> s <= x -> Forall (fun p => b_tick (fst p) <= x) rest ->
  exists front s', flat_map play_section (timed s sec rest) = front ++ from_to s' u32_max /\ s <= s' <= x /\ forall t, In t front <-> s <= t < s'.
Proof.
  induction rest as [|[y c] r IH]; intros s lo sec C F SX FX; cbn [timed follows] in *.
  - destruct sec as [l|l|cc vs]; try discriminate. exists [], s. cbn [flat_map play_section app]. rewrite app_nil_r. split; [reflexivity|]. split; [lia|]. intros t. cbn [In]. lia.
  - cbn [chain] in C. destruct C as (_ & C1 & C2 & C3 & _ & C). apply Forall_cons_iff in FX as [FY FX]. cbn [fst] in FY.
    destruct (IH _ _ c C) as (front & s' & E & L & G); [tauto|lia|exact FX|].
    exists (play_section (s, sec, b_tick y) ++ front), s'. cbn [flat_map]. rewrite E, app_assoc. split; [reflexivity|]. split; [lia|].
    intros t. rewrite in_app_iff, G, (section_in s lo) by (auto; lia). lia.
Qed.
Lemma until_before l j x t : well_laid l -> tune (layout_bars l) -> 0 <= j <= x -> x <= u32_max -> Forall (fun b => b_tick b <= x) (layout_bars l) ->
  In t (until j (play l)) -> t < x.
Proof.
  intros W T J X F I. pose proof (layout_chain l W T) as C. unfold play, timed_layout in *.
  destruct (play_tail x (snd l) 0 0 (fst l) C (proj2 W)) as (front & s' & E & L & G); [lia| |].
  { apply Forall_forall. intros [y c] IY. apply (rest_in y c (fst l)) in IY. rewrite <- surjective_pairing in IY. rewrite Forall_forall in F. apply F. exact IY. }
  rewrite E in I. destruct (in_dec Z.eq_dec j front) as [IJ|NJ].
  - rewrite until_prefix in I by exact IJ. apply until_sub in I. apply G in I. lia.
  - rewrite until_app in I by exact NJ. apply in_app_iff in I as [I|I]; [apply G in I; lia|].
    rewrite until_from in I by (rewrite G in NJ; lia). apply from_to_In in I. lia.
Qed.

Lemma filter_none (f : Z -> bool) l : (forall t, In t l -> f t = false) -> filter f l = [].
Proof. induction l as [|t l IH]; intros H; [reflexivity|]. cbn [filter]. rewrite H by (cbn; auto). apply IH. intros u U. apply H. cbn. auto. Qed.
Lemma filter_shift (f g : Z -> bool) d l : (forall t, In t l -> f (d + t) = g t) -> filter f (map (Z.add d) l) = map (Z.add d) (filter g l).
Proof.
  induction l as [|t l IH]; intros H; [reflexivity|]. cbn [map filter]. rewrite H by (cbn; auto). rewrite IH by (intros u U; apply H; cbn; auto). destruct (g t); reflexivity.
Qed.
Lemma left_out_true l t : left_out l t = true <-> exists x c vs e, In (x, Varied c vs, e) l /\ hd e (starts_of vs) <= t < last (starts_of vs) e.
Proof.
  unfold left_out. rewrite existsb_exists. split.
  - intros ([[x sec] e] & I & H). destruct sec as [?|?|c vs]; try discriminate. exists x, c, vs, e. split; [exact I|lia].
  - intros (x & c & vs & e & I & H). exists (x, Varied c vs, e). split; [exact I|lia].
Qed.
Lemma last_bar l x c vs e y : well_laid l -> In (x, Varied c vs, e) (timed_layout l) -> Forall (fun b => b_tick b <= y) (layout_bars l) -> last (starts_of vs) e <= y.
Proof.
  intros W I F. pose proof (varied_some _ _ _ _ _ true _ _ (proj1 W) (proj2 W) I) as NE.
  destruct (varied_bars x c vs e (last (starts_of vs) e) (snd l) 0 (fst l) I (last_in _ _ NE)) as (z & Z & <-). rewrite <- surjective_pairing in Z.
  rewrite Forall_forall in F. auto.
Qed.
Lemma join_left l1 d lb more t : well_laid l1 -> well_laid (Plain lb, more) -> Forall (fun b => b_tick b <= d) (layout_bars l1) -> 0 <= t ->
  left_out (timed_layout (join_layout l1 d (Plain lb, more))) (d + t) = left_out (timed_layout (Plain lb, more)) t.
Proof.
  intros W1 W2 F T. apply eq_true_iff_eq. rewrite !left_out_true. split; intros (x & c & vs & e & I & H).
  - destruct (join_varied l1 d lb more x c vs e W1 W2 I) as [J|(x' & c' & vs' & e' & J & -> & -> & ->)].
    + pose proof (last_bar l1 x c vs e d W1 J F). lia.
    + rewrite later_hd, later_last in H. exists x', c', vs', e'. split; [exact J|lia].
  - exists (x + d), (map (later d) c), (map (map (later d)) vs), (e + d). rewrite later_hd, later_last. split; [|lia].
    unfold join_layout, timed_layout in *. cbn [fst snd section_bars] in *. apply (glue_varied _ _ _ _ _ _ (0 + d)); [exact (proj2 W1)|right].
    apply (later_varied_back d x c vs e more 0 (Plain lb)); [exact I|exact (proj2 W2)].
Qed.
Lemma join_second l1 d lb more s f k : well_laid l1 -> well_laid (Plain lb, more) -> Forall (fun b => b_tick b <= d) (layout_bars l1) ->
  Forall (fun b => b_tick b <= u32_max - d - 1) (layout_bars (Plain lb, more)) -> 0 <= d <= u32_max -> 0 <= s ->
  s < u32_max - d -> (forall x, f = Some x -> x < u32_max - d) -> (forall x y, k = Some (x, y) -> y < u32_max - d) ->
  second_pass (join_layout l1 d (Plain lb, more)) (s + d) (option_map (fun t => t + d) f) (option_map (fun p => (fst p + d, snd p + d)) k) =
  map (Z.add d) (until (u32_max - d) (second_pass (Plain lb, more) s f k)).
Proof.
  intros W1 W2 F1 F2 D S0 SU FU KU. unfold second_pass.
  rewrite <- (from_to_app 0 d u32_max) at 1 by lia.
  rewrite <- (from_to_app 0 (u32_max - d) u32_max) at 1 by lia. rewrite !filter_app.
  set (g := fun t : Z => (s <=? t) && match f with Some f0 => t <? f0 | None => true end && negb (S_Repeat.between k t) && negb (left_out (timed_layout (Plain lb, more)) t)).
  rewrite filter_none by (intros t I; apply from_to_In in I; replace (s + d <=? t) with false by lia; reflexivity). cbn [app].
  rewrite until_app by (rewrite filter_In, from_to_In; lia).
  assert (E : until (u32_max - d) (filter g (from_to (u32_max - d) u32_max)) = []).
  { destruct (Z.eq_dec d 0) as [->|ND]; [rewrite from_to_nil by lia; reflexivity|]. destruct f as [x|].
    - rewrite filter_none; [reflexivity|]. intros t I. apply from_to_In in I. specialize (FU x eq_refl). unfold g. replace (t <? x) with false by lia. rewrite andb_false_r. reflexivity.
    - rewrite from_to_cons by lia. cbn [filter]. replace (g (u32_max - d)) with true; [cbn [until]; rewrite Z.eqb_refl; reflexivity|]. symmetry. unfold g.
      replace (s <=? u32_max - d) with true by lia. cbn [andb].
      replace (S_Repeat.between k (u32_max - d)) with false.
      + cbn [negb andb]. destruct (left_out _ _) eqn:LO; [|reflexivity]. apply left_out_true in LO as (x & c & vs & e & I & H).
        pose proof (last_bar (Plain lb, more) x c vs e (u32_max - d - 1) W2 I F2). lia.
      + destruct k as [[x y]|]; [|reflexivity]. specialize (KU x y eq_refl). cbn [S_Repeat.between]. lia. }
  rewrite E, app_nil_r. replace (from_to d u32_max) with (map (Z.add d) (from_to 0 (u32_max - d))) by (rewrite <- from_to_later; f_equal; lia).
  apply filter_shift. intros t I. apply from_to_In in I. unfold g. rewrite join_left by (auto; lia).
  replace (s + d <=? d + t) with (s <=? t) by lia. f_equal. f_equal; [f_equal|].
  - destruct f as [x|]; cbn [option_map]; [lia|reflexivity].
  - destruct k as [[x y]|]; cbn [option_map S_Repeat.between fst snd]; [|reflexivity]. f_equal. lia.
Qed.
Lemma itself_clear b : by_itself b -> implicit_clear b.
Proof.
  intros H pre j mid x post -> NJ I X. apply (H (pre ++ j :: mid) x post); auto. rewrite <- app_assoc. reflexivity.
Qed.
Lemma unmarked m (a : list bar) : Forall (fun x => has x m = false) a -> marked m a = [].
Proof. unfold marked. induction 1 as [|x a E _ IH]; [reflexivity|]. cbn [filter]. rewrite E. exact IH. Qed.

(** With a D.S. whose signs are all in the second score: this score is heard as before, with its jump. *)
Theorem C85_ds : forall r r' a d b c1 w1 c2 w2 cs2, tune b -> tune (joined a d b) -> 0 <= d < u32_max -> Forall (fun x => b_tick x <= d) a ->
  Forall compatible (a ++ b) -> Forall no_jump a -> Forall no_goal a -> marked Dc b = [] -> marked Ds b <> [] -> by_itself b ->
  top_clear (joined a d b) -> small_first (joined a d b) ->
  render_region r a = Ret (Ok (c1, w1)) -> render_region r' b = Ret (Ok (c2, w2)) -> to_chunks c2 = Ret cs2 ->
  exists cs1 c cs, to_chunks c1 = Ret cs1 /\
    render_region r (joined a d b) = Ret (Ok (c, [])) /\ to_chunks c = Ret cs /\
    performance cs = one_after_other (performance cs1) d (performance cs2).
Proof.
  intros r r' a d b c1 w1 c2 w2 cs2 T2 T D F CP NJ NG A DS BI TC SF R1 R2 K2. pose proof (tune_left _ _ T) as T1.
  apply Forall_app in CP as [P1 P2].
  assert (A1 : marked Dc a = []) by (apply unmarked; eapply Forall_impl; [|exact NJ]; intros x X; apply X).
  assert (B1 : marked Ds a = []) by (apply unmarked; eapply Forall_impl; [|exact NJ]; intros x X; apply X).
  assert (G1 : marked Segno a = []) by (apply unmarked; eapply Forall_impl; [|exact NG]; intros x X; apply X).
  assert (G2 : marked Fine a = []) by (apply unmarked; eapply Forall_impl; [|exact NG]; intros x X; apply X).
  assert (G3 : marked Coda a = []) by (apply unmarked; eapply Forall_impl; [|exact NG]; intros x X; apply X).
  destruct (C42_only r a c1 w1 T1 P1 A1 B1 R1) as (_ & _ & l1 & cs1 & W1 & L1 & S1 & K1 & E1).
  destruct (performed_segno r' b c2 w2 cs2 T2 P2 (itself_clear b BI) R2 K2) as (l2 & W2 & L2 & S2 & [(_ & N & _)|(j & s & J & CO & _ & E2)]); [congruence|].
  destruct (render_sound r' b c2 w2 T2 P2 R2) as (CN & _).
  destruct (plain_first b l2 W2 L2 BI) as (lb & more & ->). subst a b.
  set (a := layout_bars l1) in *. set (b := layout_bars (Plain lb, more)) in *.
  destruct (join_laid l1 d lb more W1 W2) as [W LB]. fold a b in LB.
  assert (TB : forall x, In x b -> 0 <= b_tick x < u32_max - d).
  { intros x X. pose proof (tune_tick _ _ T2 X). assert (Y : In (later d x) (joined a d b)) by (apply in_app_iff; right; apply in_map; exact X).
    pose proof (tune_tick _ _ T Y) as Q. cbn [later b_tick] in Q. lia. }
  assert (TM : forall m t, In t (marked m b) -> 0 <= t < u32_max - d) by (intros m t M; apply marked_tick in M as (x & X & <-); auto).
  destruct J as [J1 J2 J3 J4|J1 _ _ _|f J1 _ _ _ _]; [|congruence|congruence].
  assert (J' : jump (actual_top (full_bar r (joined a d b))) (joined a d b) (j + d) (s + d)).
  { apply jump_ds; rewrite !marked_joined, ?A1, ?B1, ?G1, ?G3, ?J1, ?J2, ?J3; auto. cbn [app]. rewrite map_length. exact J4. }
  assert (JR : 0 <= j < u32_max - d) by (apply (TM Ds); rewrite J2; cbn; auto).
  assert (SR : 0 <= s < u32_max - d) by (apply (TM Segno); rewrite J3; cbn; auto).
  assert (CO' : codas_ok (s + d) (joined a d b)).
  { intros x y. rewrite !marked_joined, G2, G3. cbn [app]. intros E. destruct (marked Coda b) as [|x0 [|y0 [|]]] eqn:EC; cbn [map] in E; try discriminate. inversion E; subst x y.
    destruct (CO x0 y0 EC) as [Q1 Q2]. assert (0 <= y0 < u32_max - d) by (apply (TM Coda); rewrite EC; cbn; auto).
    destruct (marked Fine b); cbn [map]; lia. }
  destruct (C43_plays r (join_layout l1 d (Plain lb, more)) (j + d) (s + d) W) as (c & cs & R & K & P); rewrite ?LB; auto.
  - unfold counts_ok in *. rewrite !marked_joined, A1, B1, G1, G2, G3. cbn [app]. rewrite !map_length. exact CN.
  - apply join_segno; auto.
  - unfold jump_outside, join_layout. rewrite glue_plain. intros PL. destruct (snd l1) as [|[x cx] r1] eqn:SN.
    + destruct W1 as [_ FO]. rewrite SN in FO. cbn [follows] in FO. congruence.
    + cbn [glue fst]. unfold a, layout_bars in NJ. apply Forall_app in NJ. tauto.
  - rewrite LB in R. exists cs1, c, cs. split; [exact K1|]. split; [|split; [exact K|]].
    + rewrite R. unfold warnings_of. rewrite marked_joined, A1, J1. reflexivity.
    + rewrite P, E1, E2, LB. rewrite !marked_joined, G2, G3. cbn [app].
      rewrite (join_played l1 d lb more) by (auto; lia). unfold one_after_other.
      assert (NX : ~ In (u32_max - d) (until j (play (Plain lb, more)))).
      { intros X. apply (until_before _ j (u32_max - d)) in X; auto; try lia. apply Forall_forall. intros x X0. specialize (TB x X0). lia. }
      rewrite (until_app (u32_max - d)) by exact NX. rewrite map_app, app_assoc. f_equal.
      * rewrite until_app.
        { rewrite until_shift, until_until, (until_none (u32_max - d)) by exact NX. reflexivity. }
        intros X. apply (until_before l1 d d) in X; auto; lia.
      * replace (hd_error (map (fun t => t + d) (marked Fine b))) with (option_map (fun t => t + d) (hd_error (marked Fine b))) by (destruct (marked Fine b); reflexivity).
        replace (pair_of (map (fun t => t + d) (marked Coda b))) with (option_map (fun p => (fst p + d, snd p + d)) (pair_of (marked Coda b)))
          by (destruct (marked Coda b) as [|x [|y [|]]]; reflexivity).
        apply join_second; auto; try lia.
        { apply Forall_forall. intros x X. specialize (TB x X). lia. }
        { intros x X. apply (TM Fine). destruct (marked Fine b); inversion X. cbn. auto. }
        { intros x y X. apply (TM Coda). destruct (marked Coda b) as [|x0 [|y0 [|]]]; inversion X. cbn. auto. }
Qed.
Print Assumptions C85_ds.

(** ** Pasting behind the end *)
Lemma render_blanks r x more c w : tune (x ++ more) -> Forall compatible x -> marked Dc x = [] -> marked Ds x = [] -> Forall (fun b => b_marks b = 0) more ->
  render_region r x = Ret (Ok (c, w)) ->
  exists cs c' cs', to_chunks c = Ret cs /\ render_region r (x ++ more) = Ret (Ok (c', [])) /\ to_chunks c' = Ret cs' /\ performance cs' = performance cs.
Proof.
  intros T F A B BL R. pose proof (tune_left _ _ T) as T1.
  assert (NH : forall m, Forall (fun b => has b m = false) more).
  { intros m. eapply Forall_impl; [|exact BL]. intros y Y. unfold has. cbv beta in Y. rewrite Y. destruct m; reflexivity. }
  assert (NM : forall m, marked m more = []) by (intros m; apply unmarked; apply NH).
  destruct (C42_only r x c w T1 F A B R) as (_ & CN & l & cs & W & L & S & K & E). subst x. destruct W as [I FO].
  assert (IM : inside true (Plain more)).
  { split; [|intros _]; apply Forall_forall; intros y Y.
    - split; [pose proof (NH Start) as Q|pose proof (NH End) as Q]; rewrite Forall_forall in Q; apply Q; exact Y.
    - intros m _. pose proof (NH m) as Q. rewrite Forall_forall in Q. apply Q. exact Y. }
  pose proof (glue_bars more [] (snd l) true (fst l) I FO) as LB. cbn [rest_bars flat_map] in LB. rewrite app_nil_r, <- surjective_pairing in LB.
  destruct (C42_plays r (glue (fst l) (snd l) more [])) as (c' & cs' & R' & K' & P'); rewrite ?LB.
  - apply glue_laid; auto. reflexivity.
  - exact T.
  - unfold counts_ok in *. rewrite !marked_app, !NM, !app_nil_r. exact CN.
  - intros x c0 vs e t J M. rewrite marked_app, NM, app_nil_r in M. apply (glue_varied x c0 vs e more [] 0 (snd l) 0 (fst l) FO) in J.
    destruct J as [J|[J|[]]]; [exact (S x c0 vs e t J M)|discriminate].
  - rewrite marked_app, NM, app_nil_r. exact A.
  - rewrite marked_app, NM, app_nil_r. exact B.
  - exists cs, c', cs'. rewrite LB in R'. split; [exact K|]. split; [exact R'|]. split; [exact K'|]. rewrite P', E. unfold play, timed_layout.
    assert (C : chain 0 0 (timed_layout l)) by (apply layout_chain; [split; assumption|exact T1]).
    rewrite (glue_played u32_max more [] (snd l) 0 0 (fst l) C FO); [|unfold u32_max; lia| |exact Logic.I].
    + cbn [timed flat_map play_section]. rewrite from_to_nil by lia. rewrite !app_nil_r. apply until_none. intros IN.
      destruct (play_tail u32_max (snd l) 0 0 (fst l) C FO) as (front & s' & EQ & LS & G); [unfold u32_max; lia| |].
      * apply Forall_forall. intros [y cy] Y. apply (rest_in y cy (fst l)) in Y. rewrite <- surjective_pairing in Y. pose proof (tune_tick _ _ T1 Y). cbn [fst]. lia.
      * rewrite EQ in IN. apply in_app_iff in IN as [IN|IN]; [apply G in IN; lia|apply from_to_In in IN; lia].
    + apply Forall_forall. intros [y cy] Y. apply (rest_in y cy (fst l)) in Y. rewrite <- surjective_pairing in Y. pose proof (tune_tick _ _ T1 Y). cbn [fst]. lia.
Qed.
Lemma add_behind {V} k (v : V) s : (forall k' w, In (k', w) s -> k' < k) -> fst (s_add k v s) = s ++ [(k, v)].
Proof.
  induction s as [|[a b] s IH]; intros H; [reflexivity|]. cbn [s_add]. pose proof (H a b (or_introl eq_refl)) as L.
  replace (k =? a) with false by lia. replace (k <? a) with false by lia. specialize (IH ltac:(intros k' w I; apply (H k' w); cbn; auto)).
  destruct (s_add k v s) as [t o]. cbn [fst] in *. rewrite IH. reflexivity.
Qed.
Lemma add_all_behind (l : list bar) : forall s, (forall k w x, In (k, w) s -> In x l -> k < b_tick x) -> StronglySorted Z.lt (map b_tick l) ->
  add_all (map bar_entry l) s = s ++ map bar_entry l.
Proof.
  induction l as [|x l IH]; intros s H S; [cbn; rewrite app_nil_r; reflexivity|]. cbn [map] in S. inversion S as [|? ? S' F]; subst.
  change (add_all (map bar_entry l) (fst (s_add (b_tick x) x s)) = s ++ bar_entry x :: map bar_entry l).
  rewrite add_behind by (intros k w I; apply (H k w x I); cbn; auto).
  rewrite IH; [rewrite <- app_assoc; reflexivity| |exact S'].
  intros k w y I Y. apply in_app_iff in I as [I|[I|[]]]; [apply (H k w y I); cbn; auto|]. inversion I; subst.
  rewrite Forall_forall in F. apply F. apply in_map. exact Y.
Qed.

Lemma sorted_fst {V} (l : list (Z * V)) : StronglySorted (fun a b => fst a < fst b) l -> StronglySorted Z.lt (map fst l).
Proof. induction 1 as [|x l _ IH F]; cbn [map]; constructor; [exact IH|]. apply Forall_map. exact F. Qed.
Lemma later_later d e l : map (later e) (map (later d) l) = map (later (d + e)) l.
Proof. rewrite map_map. apply map_ext. intros b. unfold later. cbn. f_equal. lia. Qed.

(** A selection with a passage that stands by itself is pasted behind the end of the score of a project. *)
Theorem C85_paste : forall ov p r' m s d q p' k c1 w1 c2 w2, project_ok p -> savable m -> least (all_ticks m) s -> 0 <= d < u32_max ->
  (forall x, In x (all_ticks m) -> x + (d - s) <= u32_max) ->
  from_clipboard_text ov (to_clipboard_text m) = Ret (Ok q) -> bulk_add p (move_to_tick q d) = Ret (Some (p', k)) ->
  let a := score p in let b := map (later (- s)) (m_bars m) in
  tune b -> tune (joined a d b) -> Forall (fun x => b_tick x <= d) a -> Forall (fun x => b_tick x <> u32_max) (score p') ->
  Forall compatible (a ++ b) -> marked Dc (a ++ b) = [] -> marked Ds (a ++ b) = [] -> counts_ok (joined a d b) -> by_itself b ->
  render_project p = Ret (Ok (c1, w1)) -> render_region r' b = Ret (Ok (c2, w2)) ->
  exists cs1 cs2 c cs, to_chunks c1 = Ret cs1 /\ to_chunks c2 = Ret cs2 /\ render_project p' = Ret (Ok (c, [])) /\ to_chunks c = Ret cs /\
    performance cs = one_after_other (performance cs1) d (performance cs2).
Proof.
  intros ov p r' m s d q p' k c1 w1 c2 w2 O SV L D' RG C E a b T2 T F U' CP A B CN BI R1 R2.
  assert (D : Base.u32 d) by (unfold Base.u32; lia).
  rewrite (T_Json.C35_models ov m SV) in C. injection C as <-. destruct (T_Paste.savable_ticks m SV) as [U TY].
  pose proof (move_spec m s d U L D RG) as (_ & MB & _).
  assert (EB : m_bars (move_to_tick m d) = map (later d) b).
  { unfold b. rewrite later_later. replace (- s + d) with (d - s) by lia. revert MB. generalize (m_bars (move_to_tick m d)). clear. 
    induction 1 as [|x y l l' H _ IH]; [reflexivity|]. cbn [map]. rewrite IH. f_equal. exact H. }
  rewrite bulk_add_runs in E. unfold runs in E. apply bind_ret in E as [[p2 more] [E3 E4]]. apply ret_inj in E4. injection E4 as -> _.
  destruct (ok_bars p O) as [SB KB].
  set (p1 := exchange models_empty (move_to_tick m d) p) in *.
  assert (S1 : pj_bars p1 = pj_bars p ++ map bar_entry (map (later d) b)).
  { unfold p1. cbn [exchange pj_bars models_empty m_bars map]. unfold remove_keys. cbn [fold_left]. rewrite EB. apply add_all_behind.
    - intros k0 w x I X. destruct (KB _ _ I) as [EK _]. rewrite EK. apply (tune_order a (map (later d) b)); auto. apply in_map_iff. exists (k0, w). auto.
    - destruct T as [T _]. unfold joined in T. rewrite map_app in T. revert T. generalize (map b_tick a) (map b_tick (map (later d) b)). clear.
      induction l as [|x l IH]; intros l' H; [exact H|]. inversion H; subst. apply IH. assumption. }
  assert (O1 : keyed b_tick (pj_bars p1)).
  { apply (ok_bars p1). apply exchange_ok; [exact O|].
    apply (T_Paste.moved_typed (d - s) m); [apply (move_spec m s d U L D RG)|exact U|]. intros x I. specialize (RG x I). destruct L as [_ L]. specialize (L x I). unfold u32 in D. lia. }
  destruct (replenish_ok p1 p' more O1 E3) as (EP & KP & BL & _).
  assert (SC : score p' = joined a d b ++ more).
  { unfold score. rewrite EP. cbn [pj_set_bars pj_bars]. rewrite S1, !map_app. unfold joined, a, score. f_equal; [f_equal|];
      rewrite map_map; rewrite <- (map_id (map (later d) b)) at 2 || rewrite <- (map_id more) at 2; apply map_ext; intros; reflexivity. }
  assert (RH : pj_rhythm p' = pj_rhythm p) by (rewrite EP; reflexivity).
  assert (T' : tune (joined a d b ++ more)).
  { rewrite <- SC. destruct KP as [KS KU]. unfold score. split.
    - replace (map b_tick (map snd (pj_bars p'))) with (map fst (pj_bars p')); [apply sorted_fst; exact KS|]. rewrite map_map. apply map_ext_in. intros [k0 x] I. apply (KU _ _ I).
    - apply Forall_forall. intros x X. rewrite Forall_forall in U'. specialize (U' x X). apply in_map_iff in X as ([k0 y] & <- & X). cbn [snd] in *.
      destruct (KU _ _ X) as [EQ UX]. unfold u32 in UX. lia. }
  destruct (C85_joined (pj_rhythm p) r' a d b c1 w1 c2 w2 T2 T D' F CP A B CN BI R1 R2) as (cs1 & cs2 & c & cs & K1 & K2 & R & K & P).
  assert (CJ : Forall compatible (joined a d b)).
  { apply Forall_app in CP as [P1 P2]. apply Forall_app. split; [exact P1|]. apply later_all; auto. }
  rewrite marked_app in A, B. apply app_eq_nil in A as [A1 A2]. apply app_eq_nil in B as [B1 B2].
  destruct (render_blanks (pj_rhythm p) (joined a d b) more c [] T' CJ) as (cs0 & c' & cs' & K0 & R' & K' & P'); auto.
  - rewrite marked_joined, A1, A2. reflexivity.
  - rewrite marked_joined, B1, B2. reflexivity.
  - apply Forall_forall. intros x X. apply (BL x X).
  - rewrite K in K0. inversion K0; subst cs0. exists cs1, cs2, c', cs'. unfold render_project. rewrite SC, RH. rewrite P', P. auto.
Qed.
Print Assumptions C85_paste.

(** ** Concrete cases *)
Lemma itself_start u z v : idle u -> has z Start = true -> has z End = false -> by_itself (u ++ z :: v).
Proof.
  induction u as [|x u IH]; intros I S N u' z' v' E I' X.
  - destruct u' as [|y u']; inversion E; subst; [auto|]. exfalso. apply Forall_inv in I'. destruct I' as [[Q _] _]. congruence.
  - apply Forall_cons_iff in I as [IX I]. destruct u' as [|y u']; inversion E; subst; [contradiction|].
    apply Forall_cons_iff in I' as [_ I']. apply (IH I S N u' z' v'); auto.
Qed.
Lemma itself_plain u : idle u -> by_itself u.
Proof. intros I u' z v -> _ X. exfalso. unfold idle in I. apply Forall_app in I as [_ I]. apply Forall_inv in I. contradiction. Qed.

Definition first_part : list bar := [bar_at 960 []; bar_at 1920 [End]].
Definition second_part : list bar := [bar_at 960 [Start]; bar_at 1920 [Var1]; bar_at 2880 [Var2]; bar_at 3840 []].
Definition jumping_part : list bar := [bar_at 960 [Segno]; bar_at 1920 [Fine]; bar_at 2880 [Start]; bar_at 3840 [End]; bar_at 4800 [Ds]].
Lemma second_itself : by_itself second_part.
Proof. apply (itself_start [] (bar_at 960 [Start])); [apply Forall_nil|reflexivity|reflexivity]. Qed.
Example C85_joined_case :
  tune second_part /\ tune (joined first_part 1920 second_part) /\ Forall (fun x => b_tick x <= 1920) first_part /\
  Forall compatible (first_part ++ second_part) /\ marked Dc (first_part ++ second_part) = [] /\ marked Ds (first_part ++ second_part) = [] /\
  counts_ok (joined first_part 1920 second_part) /\ by_itself second_part /\
  exists c1 c2 c, render_region four_four first_part = Ret (Ok (c1, [])) /\ render_region four_four second_part = Ret (Ok (c2, [])) /\
    render_region four_four (joined first_part 1920 second_part) = Ret (Ok (c, [])) /\
    to_chunks c1 = Ret [mkChunk 0 1920; mkChunk 0 1920; mkChunk 1920 u32_max] /\
    to_chunks c2 = Ret [mkChunk 0 960; mkChunk 960 1920; mkChunk 1920 2880; mkChunk 960 1920; mkChunk 2880 3840; mkChunk 3840 u32_max] /\
    to_chunks c = Ret [mkChunk 0 1920; mkChunk 0 1920; mkChunk 1920 2880; mkChunk 2880 3840; mkChunk 3840 4800; mkChunk 2880 3840; mkChunk 4800 5760; mkChunk 5760 u32_max].
Proof.
  split; [tune_tac|]. split; [tune_tac|]. split; [each ltac:(cbn; lia)|]. split; [compat_tac|]. split; [reflexivity|]. split; [reflexivity|].
  split; [unfold counts_ok; cbn; lia|]. split; [exact second_itself|]. do 3 eexists.
  split; [vm_compute; reflexivity|]. split; [vm_compute; reflexivity|]. split; [vm_compute; reflexivity|]. split; [vm_compute; reflexivity|].
  split; [vm_compute; reflexivity|]. vm_compute. reflexivity.
Qed.
Example C85_ds_case :
  tune jumping_part /\ tune (joined first_part 1920 jumping_part) /\ Forall no_jump first_part /\ Forall no_goal first_part /\
  marked Dc jumping_part = [] /\ marked Ds jumping_part <> [] /\ by_itself jumping_part /\
  Forall compatible (first_part ++ jumping_part) /\ top_clear (joined first_part 1920 jumping_part) /\ small_first (joined first_part 1920 jumping_part) /\
  exists c2 c, render_region four_four jumping_part = Ret (Ok (c2, [])) /\ render_region four_four (joined first_part 1920 jumping_part) = Ret (Ok (c, [])) /\
    to_chunks c2 = Ret [mkChunk 0 2880; mkChunk 2880 3840; mkChunk 2880 3840; mkChunk 3840 4800; mkChunk 960 1920] /\
    to_chunks c = Ret [mkChunk 0 1920; mkChunk 0 1920; mkChunk 1920 4800; mkChunk 4800 5760; mkChunk 4800 5760; mkChunk 5760 6720; mkChunk 2880 3840].
Proof.
  split; [tune_tac|]. split; [tune_tac|]. split; [each ltac:(split; reflexivity)|]. split; [each ltac:(repeat split; reflexivity)|].
  split; [reflexivity|]. split; [discriminate|]. split.
  { apply (itself_start [bar_at 960 [Segno]; bar_at 1920 [Fine]] (bar_at 2880 [Start])); [each ltac:(split; [split; reflexivity|intros m; destruct m; vm_compute; congruence])|reflexivity|reflexivity]. }
  split; [compat_tac|]. split; [each ltac:(cbn; lia)|]. split; [intros f E; vm_compute in E; inversion E; unfold u32_max; lia|]. do 2 eexists.
  split; [vm_compute; reflexivity|]. split; [vm_compute; reflexivity|]. split; [vm_compute; reflexivity|]. vm_compute. reflexivity.
Qed.

(** The passage must stand by itself.  If the start of its first repeat is not written, then this repeat reaches back into the
    first score, or, if something is repeated there, is refused. *)
Theorem C85_itself_refuted : let b := [bar_at 960 [End]] in
  (exists c, render_region four_four b = Ret (Ok (c, [])) /\ to_chunks c = Ret [mkChunk 0 960; mkChunk 0 960; mkChunk 960 u32_max]) /\
  (exists c, render_region four_four (joined [bar_at 1920 []] 1920 b) = Ret (Ok (c, [])) /\
     to_chunks c = Ret [mkChunk 0 2880; mkChunk 0 2880; mkChunk 2880 u32_max]) /\
  render_region four_four (joined [bar_at 1920 [End]] 1920 b) = Ret (Err (OrphanRepeatEnd 2880)).
Proof.
  cbv zeta. split; [|split].
  - eexists. split; [vm_compute; reflexivity|]. vm_compute. reflexivity.
  - eexists. split; [vm_compute; reflexivity|]. vm_compute. reflexivity.
  - vm_compute. reflexivity.
Qed.
Print Assumptions C85_itself_refuted.
(** A D.C. in the second score goes back to the top of the first. *)
Theorem C85_dc_refuted : let b := [bar_at 960 []; bar_at 1920 [Dc]] in
  (exists c, render_region four_four b = Ret (Ok (c, [])) /\ to_chunks c = Ret [mkChunk 0 1920; mkChunk 0 u32_max]) /\
  (exists c, render_region four_four (joined [bar_at 960 []] 960 b) = Ret (Ok (c, [])) /\ to_chunks c = Ret [mkChunk 0 2880; mkChunk 0 u32_max]).
Proof. cbv zeta. split; eexists; (split; [vm_compute; reflexivity|]); vm_compute; reflexivity. Qed.
Print Assumptions C85_dc_refuted.
(** Two scores with a Segno each cannot be joined. *)
Theorem C85_segno_refuted : let b := [bar_at 1920 [Segno]] in
  (exists c, render_region four_four b = Ret (Ok (c, []))) /\
  render_region four_four (joined b 1920 b) = Ret (Err (DuplicatedSegno 1920 3840)).
Proof. cbv zeta. split; [eexists; vm_compute; reflexivity|]. vm_compute. reflexivity. Qed.
Print Assumptions C85_segno_refuted.

(** A project to which the second part is pasted, taken from tick 9600 on, with a note. *)
Definition join_project : project := mkProject rhythm_default 0 60 [] (map (fun b => (b_tick b, b)) first_part) [] [] [].
Definition join_selection : models := mkModels [T_Project.ex_note 9600 SC] (map (later 9600) second_part) [] [] [].
Example C85_paste_case : project_ok join_project /\ savable join_selection /\ least (all_ticks join_selection) 9600 /\
  (forall x, In x (all_ticks join_selection) -> x + (1920 - 9600) <= u32_max) /\
  score join_project = first_part /\ map (later (- 9600)) (m_bars join_selection) = second_part /\
  exists p' k c, bulk_add join_project (move_to_tick join_selection 1920) = Ret (Some (p', k)) /\
    score p' = joined first_part 1920 second_part /\ Forall (fun x => b_tick x <> u32_max) (score p') /\
    render_project p' = Ret (Ok (c, [])).
Proof.
  split; [constructor; (split; [repeat constructor|T_Project.in_list]); (split; [reflexivity|unfold Base.u32, u32_max; cbn; lia])|].
  split; [apply (P_Savable.read_models_savable (write_models join_selection)); vm_compute; reflexivity|].
  split; [split; [cbn; auto|]; cbn; intros x H; repeat (destruct H as [<-|H]; [lia|]); destruct H|].
  split; [cbn; unfold u32_max; intros x H; repeat (destruct H as [<-|H]; [lia|]); destruct H|].
  split; [reflexivity|]. split; [reflexivity|]. do 3 eexists. split; [vm_compute; reflexivity|]. split; [vm_compute; reflexivity|].
  split; [cbn; each ltac:(unfold u32_max; cbn; lia)|]. vm_compute. reflexivity.
Qed.
