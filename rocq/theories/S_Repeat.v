(** Specification of repeats: what a score looks like as a sequence of sections,
    and in which order its ticks are played (docs/repeat/structure.md, order.md). *)
From Coq Require Import ZArith List Bool Sorted.
From Verif Require Import Base M_Duration M_Scalar M_Bar M_Repeat S_Note.
Import ListNotations.
Open Scope Z_scope.

(** ** What is played *)

(** The ticks from [a] up to but not including [b]. *)
Definition from_to (a b : Z) : list Z := map (fun i => a + Z.of_nat i) (seq 0 (Z.to_nat (b - a))).

(** What a list of chunks plays, one tick after the other. *)
Definition performance (l : list chunk) : list Z := flat_map (fun c => from_to (ck_start c) (ck_end c)) l.

(** Chunks that start before they end. *)
Definition good_chunk (c : chunk) : Prop := ck_start c <= ck_end c.

(** [nth_time t n l p]: in [l], [t] is played for the [n]-th time at position [p]. *)
Definition times (t : Z) (l : list Z) : Z := Z.of_nat (length (filter (Z.eqb t) l)).
Definition nth_time (t n : Z) (l : list Z) (p : Z) : Prop :=
  exists a b, l = a ++ t :: b /\ p = Z.of_nat (length a) /\ times t a = n - 1.

(** No two neighbours could be joined. *)
Definition none_joins (l : list chunk) : Prop := forall a c d b, l = a ++ c :: d :: b -> ck_end c <> ck_start d.
(** Only the last chunk reaches the end of time. *)
Definition open_only_last (l : list chunk) : Prop := forall a c b, l = a ++ c :: b -> ck_end c = u32_max -> b = [].
Definition in_time (c : chunk) : Prop := 0 <= ck_start c <= ck_end c.

(** ** Sections *)

(** A section with the bars inside it (not those at its ends). *)
Inductive section :=
| Plain (inner : list bar)
| Repeated (inner : list bar)
| Varied (common : list bar) (variations : list (list bar)).

(** A score: the first section, then bars that separate sections. *)
Definition layout := (section * list (bar * section))%type.

Definition section_bars (s : section) : list bar :=
  match s with
  | Plain l => l
  | Repeated l => l
  | Varied c vs => c ++ concat vs
  end.
Definition rest_bars (r : list (bar * section)) : list bar := flat_map (fun p => fst p :: section_bars (snd p)) r.
Definition layout_bars (l : layout) : list bar := section_bars (fst l) ++ rest_bars (snd l).

Definition is_plain (s : section) : bool := match s with Plain _ => true | _ => false end.
Definition is_repeated (s : section) : bool := match s with Repeated _ => true | _ => false end.

(** Marks of single bars. *)
Definition no_repeat (b : bar) : Prop := has b Start = false /\ has b End = false.
Definition no_var (b : bar) : Prop := forall m, is_var m = true -> has b m = false.
Definition no_jump (b : bar) : Prop := has b Dc = false /\ has b Ds = false.
(** the bar carries exactly the [k]-th variation mark, [k] = 1, 2, ... *)
Definition carries (k : Z) (b : bar) : Prop := forall m, is_var m = true -> has b m = (mark_bit m =? 6 + k).

(** The variations with the numbers [k], [k+1], ... *)
Fixpoint numbered (k : Z) (vs : list (list bar)) : Prop :=
  match vs with
  | [] => True
  | v :: vs' => v <> [] /\ Forall (carries k) v /\ Forall no_repeat v /\ Forall no_jump v /\ numbered (k + 1) vs'
  end.

(** What may be inside a section.  The first section needs no repeat mark at its
    start; a plain first section has no variation marks. *)
Definition inside (first : bool) (s : section) : Prop :=
  match s with
  | Plain l => Forall no_repeat l /\ (first = true -> Forall no_var l)
  | Repeated l => Forall no_repeat l /\ Forall no_var l /\ (first = false -> Forall no_jump l)
  | Varied c vs =>
      Forall no_repeat c /\ Forall no_var c /\ (first = false -> Forall no_jump c) /\
      numbered 1 vs /\ vs <> [] /\ Z.of_nat (length vs) <= 4
  end.

(** The bar between two sections. *)
Definition boundary (a : section) (b : bar) (c : section) : Prop :=
  has b End = is_repeated a /\ has b Start = negb (is_plain c) /\ no_var b /\
  (is_plain a = true -> is_plain c = false).

Fixpoint follows (a : section) (r : list (bar * section)) : Prop :=
  match r with
  | [] => is_plain a = true
  | (b, c) :: r' => boundary a b c /\ inside false c /\ follows c r'
  end.

(** A score in the documented form; it ends with a plain section. *)
Definition well_laid (l : layout) : Prop := inside true (fst l) /\ follows (fst l) (snd l).

(** Sections with their first tick and the tick after the last. *)
Fixpoint timed (start : Z) (s : section) (r : list (bar * section)) : list (Z * section * Z) :=
  match r with
  | [] => [(start, s, u32_max)]
  | (b, c) :: r' => (start, s, b_tick b) :: timed (b_tick b) c r'
  end.
Definition timed_layout (l : layout) : list (Z * section * Z) := timed 0 (fst l) (snd l).

(** Where the variations of a section start. *)
Definition starts_of (vs : list (list bar)) : list Z :=
  flat_map (fun v => match v with [] => [] | b :: _ => [b_tick b] end) vs.

(** From each start to the next, the last one to the end. *)
Fixpoint spans (starts : list Z) (e : Z) : list (Z * Z) :=
  match starts with
  | [] => []
  | a :: l => (a, hd e l) :: spans l e
  end.

(** The documented order of playing. *)
Definition play_section (x : Z * section * Z) : list Z :=
  let '(s, sec, e) := x in
  match sec with
  | Plain _ => from_to s e
  | Repeated _ => from_to s e ++ from_to s e
  | Varied _ vs =>
      let v := starts_of vs in
      flat_map (fun p => from_to s (hd e v) ++ from_to (fst p) (snd p)) (spans v e)
  end.
Definition play (l : layout) : list Z := flat_map play_section (timed_layout l).

(** ** Marks of the whole score *)

(** Ticks of the bars that carry [m]. *)
Definition marked (m : mark) (bars : list bar) : list Z := map b_tick (filter (fun b => has b m) bars).

(** Each of the marks at most as often as it may be. *)
Definition counts_ok (bars : list bar) : Prop :=
  (length (marked Segno bars) <= 1)%nat /\ (length (marked Fine bars) <= 1)%nat /\
  (length (marked Coda bars) <= 2)%nat /\ (length (marked Dc bars) + length (marked Ds bars) <= 1)%nat.

(** No Segno inside the variations of a section except the last. *)
Definition segno_ok (bars : list bar) (l : list (Z * section * Z)) : Prop :=
  forall s c vs e t, In (s, Varied c vs, e) l -> In t (marked Segno bars) ->
  ~ (hd e (starts_of vs) <= t < last (starts_of vs) e).

(** The bars of a tune: increasing ticks before the end of time. *)
Definition tune (bars : list bar) : Prop :=
  StronglySorted Z.lt (map b_tick bars) /\ Forall (fun b => 0 <= b_tick b < u32_max) bars.

(** A variation mark does not contradict another mark of its bar: Start, End, D.C.,
    D.S. and the other variations are not there (this is so however the marks are
    edited: C20_no_contradiction; a file may contain others, see S_Reading.v). *)
Definition compatible (b : bar) : Prop :=
  forall x y, is_var x = true -> has b x = true -> has b y = true -> contradict x y = false.

(** ** Jumps *)

(** The performance up to the first time that tick [d] would be played. *)
Fixpoint until (d : Z) (l : list Z) : list Z :=
  match l with [] => [] | t :: l' => if t =? d then [] else t :: until d l' end.

(** Variations that are left out in the second pass. *)
Definition left_out (l : list (Z * section * Z)) (t : Z) : bool :=
  existsb (fun x => let '(s, sec, e) := x in
    match sec with
    | Varied _ vs => (hd e (starts_of vs) <=? t) && (t <? last (starts_of vs) e)
    | _ => false
    end) l.

Definition between (c : option (Z * Z)) (t : Z) : bool :=
  match c with Some (a, b) => (a <=? t) && (t <? b) | None => false end.

(** The second pass: from Segno to Fine (or the end), without the part between
    the codas and without all but the last variation of each section. *)
Definition second_pass (l : layout) (segno : Z) (fine : option Z) (codas : option (Z * Z)) : list Z :=
  filter (fun t => (segno <=? t) && (match fine with Some f => t <? f | None => true end) &&
                   negb (between codas t) && negb (left_out (timed_layout l) t))
         (from_to 0 u32_max).

Definition pair_of (l : list Z) : option (Z * Z) := match l with [a; b] => Some (a, b) | _ => None end.

(** The length of the first bar: the first tick other than 0 with a bar. *)
Definition first_bar_len (bars : list bar) : option Z := hd_error (filter (fun t => negb (t =? 0)) (map b_tick bars)).
(** The rhythm at the top. *)
Definition top_rhythm (tune_rhythm : rhythm) (bars : list bar) : rhythm :=
  match bars with
  | b :: _ => if b_tick b =? 0 then match b_rhythm b with Some r => r | None => tune_rhythm end else tune_rhythm
  | [] => tune_rhythm
  end.

(** docs/repeat/order.md: where D.C. goes back to.  [len] is the length of the bar
    that ends with D.C. *)
Definition documented_top (full first len : Z) : Z :=
  if (first <? full) && (len =? full) then first else 0.

(** ** When an error is right *)

Definition idle (pre : list bar) : Prop := Forall (fun b => no_repeat b /\ no_var b) pre.
(** a repeat was started at [s] and not yet ended *)
Definition open_repeat (pre : list bar) (s : Z) : Prop :=
  exists p b q, pre = p ++ b :: q /\ b_tick b = s /\ has b Start = true /\ idle q.
(** variations, of which the last is number [k] and starts at [t]; the first starts at [t1] *)
Definition open_variation (pre : list bar) (k t1 t : Z) : Prop :=
  exists p vs, pre = p ++ concat vs /\ (idle p \/ exists s, open_repeat p s) /\
    numbered 1 vs /\ k = Z.of_nat (length vs) /\ hd_error (starts_of vs) = Some t1 /\ last (starts_of vs) t1 = t.
(** a repeat or its variations ended at [s] and nothing was started since *)
Definition closed (pre : list bar) (s : Z) : Prop :=
  exists p b q, pre = p ++ b :: q /\ b_tick b = s /\ has b Start = false /\ Forall no_repeat q /\
    (has b End = true \/ (no_var b /\ exists k t1 t, open_variation p k t1 t)).

Definition var_no (v : var_index) : Z := match v with VI1 => 1 | VI2 => 2 | VI3 => 3 | VI4 => 4 end.

(** [at_bar bars t P]: for the bar at [t] and the bars before it, [P] holds *)
Definition at_bar (bars : list bar) (t : Z) (P : list bar -> bar -> Prop) : Prop :=
  exists pre b post, bars = pre ++ b :: post /\ b_tick b = t /\ P pre b.

Definition error_right (bars : list bar) (e : rr_error) : Prop :=
  match e with
  | DuplicatedSegno a b => exists l, marked Segno bars = a :: b :: l
  | DuplicatedFine a b => exists l, marked Fine bars = a :: b :: l
  | MoreThanTwoCodas a b c => exists l, marked Coda bars = a :: b :: c :: l
  | DuplicatedDsDc a b => (In a (marked Dc bars) \/ In a (marked Ds bars)) /\ (In b (marked Dc bars) \/ In b (marked Ds bars)) /\
      (a < b \/ a = b /\ In a (marked Dc bars) /\ In a (marked Ds bars))
  | DuplicatedRepeatStart t => at_bar bars t (fun pre b => has b Start = true /\ has b End = false /\ exists s, open_repeat pre s)
  | OrphanRepeatEnd t => at_bar bars t (fun pre b => has b End = true /\ exists s, closed pre s)
  | NoRepeatEnd s => open_repeat bars s
  | InvalidRegionIndex t a x => at_bar bars t (fun pre b => has b (var_to_mark a) = true /\ a <> x /\
      (x = VI1 /\ (idle pre \/ exists s, open_repeat pre s) \/
       exists t1 t', open_variation pre (var_no x - 1) t1 t' /\ var_no a <> var_no x - 1))
  | RepeatInVariation t => at_bar bars t (fun pre b => has b End = true /\ exists k t1 t', open_variation pre k t1 t')
  | VariationNotClosed t => exists k t1, open_variation bars k t1 t
  | NoSegnoForDs t => marked Segno bars = [] /\ marked Ds bars = [t]
  | OnlyOneCoda t => marked Coda bars = [t] /\ exists d, marked Ds bars = [d]
  | DcDsWhileRepeat t => at_bar bars t (fun pre b => ~ no_jump b /\ exists s, open_repeat pre s)
  | DcDsWhileVariation t => at_bar bars t (fun pre b => ~ no_jump b /\ ~ no_var b)
  | SegnoWhileVariation t => at_bar bars t (fun pre b => no_var b /\
      exists k t1 t' sg, open_variation pre k t1 t' /\ In sg (marked Segno bars) /\ t1 <= sg < t')
  | CodaAfterFine a b f => marked Coda bars = [a; b] /\ marked Fine bars = [f] /\ f < b
  end.

(** The bar at which an error is found while the bars are read, if it is not one that is
    found at their end. *)
Definition found_at (e : rr_error) : option Z :=
  match e with
  | DuplicatedSegno _ t | DuplicatedFine _ t | MoreThanTwoCodas _ _ t | DuplicatedDsDc _ t
  | DuplicatedRepeatStart t | OrphanRepeatEnd t | InvalidRegionIndex t _ _ | RepeatInVariation t
  | DcDsWhileRepeat t | DcDsWhileVariation t | SegnoWhileVariation t => Some t
  | NoRepeatEnd _ | VariationNotClosed _ | NoSegnoForDs _ | OnlyOneCoda _ | CodaAfterFine _ _ _ => None
  end.

(** No bar with one of the first three variation marks comes directly after a bar
    with the fourth. *)
Definition no_restart (bars : list bar) : Prop :=
  forall a x y c, bars = a ++ x :: y :: c -> has x Var4 = true ->
    has y Var1 = false /\ has y Var2 = false /\ has y Var3 = false.

(** The only jump mark is at [d], and goes to [s]; [top] is where D.C. goes without
    Segno.  D.S. needs no, or two, codas; D.C. ignores a single one, and needs a
    bar after the very top. *)
Inductive jump (top : Z -> Z -> Z) (bars : list bar) (d s : Z) : Prop :=
| jump_ds : marked Dc bars = [] -> marked Ds bars = [d] -> marked Segno bars = [s] ->
    length (marked Coda bars) <> 1%nat -> jump top bars d s
| jump_dc_segno : marked Dc bars = [d] -> marked Ds bars = [] -> marked Segno bars = [s] ->
    first_bar_len bars <> None -> jump top bars d s
| jump_dc first : marked Dc bars = [d] -> marked Ds bars = [] -> marked Segno bars = [] ->
    first_bar_len bars = Some first -> s = top first d -> jump top bars d s.

(** Where D.C. at [d] goes back to, as it is: [first] is the length of the first bar. *)
Definition actual_top (full first d : Z) : Z :=
  if (first =? full) || ((2 * first =? full) && negb (d =? 0)) then 0 else first.
(** the length of a full bar at the top *)
Definition full_bar (r : rhythm) (bars : list bar) : Z := rhythm_tick_len (top_rhythm r bars).
Definition small_first (bars : list bar) : Prop := forall f, first_bar_len bars = Some f -> 2 * f <= u32_max.

(** The codas come after the place where the jump goes to and before Fine. *)
Definition codas_ok (s : Z) (bars : list bar) : Prop :=
  forall a b, marked Coda bars = [a; b] ->
    s < a /\ b < match marked Fine bars with f :: _ => f | [] => u32_max end.

(** No repeat or variation mark at the very top. *)
Definition top_clear (bars : list bar) : Prop := Forall (fun b => b_tick b = 0 -> no_repeat b /\ no_var b) bars.

(** No jump mark is before the end or the first variation of a repeat whose start is
    not written. *)
Definition implicit_clear (bars : list bar) : Prop :=
  forall pre j mid x post, bars = pre ++ j :: mid ++ x :: post -> ~ no_jump j -> idle (pre ++ j :: mid) ->
    ~ (no_repeat x /\ no_var x) -> has x Start = true /\ has x End = false.
(** The same for a layout: not inside a first section that is played more than once. *)
Definition jump_outside (l : layout) : Prop := is_plain (fst l) = false -> Forall no_jump (section_bars (fst l)).

Definition warnings_of (bars : list bar) : list rr_warning :=
  match marked Dc bars with
  | d :: _ =>
      match marked Segno bars with s :: _ => [SegnoAndDcFound s d] | [] => [] end ++
      match marked Coda bars with [t] => [OrphanCodaFound t] | _ => [] end
  | [] => []
  end.

(** The first of two codas is after the place where the jump goes to, the second is
    not where Fine is. *)
Definition codas_clear (top : Z -> Z -> Z) (bars : list bar) : Prop :=
  forall a b d s, marked Coda bars = [a; b] -> jump top bars d s -> s < a /\ ~ In b (marked Fine bars).

(** The length of the bar that ends at [d]. *)
Definition bar_before (bars : list bar) (d : Z) : Z := d - last (filter (fun t => t <? d) (map b_tick bars)) 0.

(** A set of ticks given by closed intervals. *)
Definition covers (l : list (Z * Z)) (t : Z) : Prop := exists a b, In (a, b) l /\ a <= t <= b.
