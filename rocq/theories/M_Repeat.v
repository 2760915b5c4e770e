(** Model of src/repeat.rs, src/global_repeat.rs and src/play_start_tick.rs. *)
From Coq Require Import ZArith List Bool.
From Verif Require Import Base M_Duration M_Scalar M_Bar M_Store.
Import ListNotations.
Open Scope Z_scope.

(** ** [interval::IntervalSet<u32>]

    An external crate (see DESIGN.md, trusted base): a set of ticks as the sorted
    list of its maximal closed intervals.  Its functions demand non-empty
    intervals (a debug assertion): an empty one is a panic here. *)
Definition iset := list (Z * Z).

Fixpoint iv_insert (i : Z * Z) (l : iset) : iset :=
  match l with
  | [] => [i]
  | j :: l' => if fst i <=? fst j then i :: l else j :: iv_insert i l'
  end.
Definition iv_sort (l : iset) : iset := fold_right iv_insert [] l.

(** overlapping and adjacent intervals become one *)
Fixpoint iv_join (cur : Z * Z) (l : iset) : iset :=
  match l with
  | [] => [cur]
  | (lo, hi) :: l' =>
      if lo <=? snd cur + 1 then iv_join (fst cur, Z.max (snd cur) hi) l' else cur :: iv_join (lo, hi) l'
  end.
Definition iv_normal (l : iset) : iset :=
  match iv_sort l with [] => [] | i :: l' => iv_join i l' end.

(** [ToIntervalSet::to_interval_set] *)
Definition iset_of (l : list (Z * Z)) : outcome iset :=
  if forallb (fun i => fst i <=? snd i) l then Ret (iv_normal l) else Panic.
(** [Union::union] *)
Definition iset_union (a b : iset) : iset := iv_normal (a ++ b).
(** [Intersection::intersection] *)
Definition iset_inter (a b : iset) : iset :=
  flat_map (fun i => flat_map (fun j =>
    let lo := Z.max (fst i) (fst j) in let hi := Z.min (snd i) (snd j) in
    if lo <=? hi then [(lo, hi)] else []) b) a.

(** ** Chunks *)

(** src/repeat.rs 12-31 *)
Record chunk := mkChunk { ck_start : Z; ck_end : Z }.

(** src/repeat.rs 41-51: the loop *)
Fixpoint optimize_from (cur : chunk) (l : list chunk) : list chunk :=
  match l with
  | [] => [cur]
  | next :: l' =>
      if ck_end cur =? ck_start next then optimize_from (mkChunk (ck_start cur) (ck_end next)) l'
      else cur :: optimize_from next l'
  end.
(** src/repeat.rs 33-52 *)
Definition optimize (l : list chunk) : list chunk :=
  match l with [] => [] | c :: l' => optimize_from c l' end.

(** src/repeat.rs 54-56 *)
Definition ck_contains (c : chunk) (t : Z) : bool := (ck_start c <=? t) && (t <? ck_end c).
(** src/repeat.rs 58-60 *)
Definition ck_len (c : chunk) : outcome Z := chk_u32 (ck_end c - ck_start c).

(** src/repeat.rs 66-71: the loop *)
Fixpoint accum_loop (offset : Z) (buf : store chunk) (l : list chunk) : outcome (store chunk) :=
  match l with
  | [] => Ret buf
  | c :: l' =>
      let buf' := fst (s_add offset c buf) in
      if ck_end c =? u32_max then accum_loop offset buf' l'
      else
        let! n := ck_len c in
        let! offset' := chk_u32 (offset + n) in
        accum_loop offset' buf' l'
  end.
(** src/repeat.rs 62-74 *)
Definition by_accum_tick (l : list chunk) : outcome (store chunk) := accum_loop 0 [] l.

(** ** Start positions *)

(** src/play_start_tick.rs 4-7; the iteration is a [PlayIter] *)
Record play_start := mkStart { ps_tick : Z; ps_iter : Z }.
(** src/play_start_tick.rs 16-20 *)
Definition play_start_new (tick iter : Z) : play_start := mkStart tick (play_iter_new iter).

(** src/play_start_tick.rs 9-14 *)
Inductive accum_error := CannotFind (specified_iter max_iter : Z).

(** src/play_start_tick.rs 25-35: the loop; a u8 counts *)
Fixpoint accum_tick_loop (p : play_start) (cur_iter : Z) (l : list (Z * chunk)) : outcome (result Z accum_error) :=
  match l with
  | [] => let! m := chk_u8 (cur_iter - 1) in Ret (Err (CannotFind (ps_iter p) m))
  | (accum, c) :: l' =>
      if ck_contains c (ps_tick p) then
        if cur_iter =? ps_iter p then
          let! s := chk_u32 (accum + ps_tick p) in
          let! r := chk_u32 (s - ck_start c) in
          Ret (Ok r)
        else
          let! cur_iter' := chk_u8 (cur_iter + 1) in
          accum_tick_loop p cur_iter' l'
      else accum_tick_loop p cur_iter l'
  end.
(** src/play_start_tick.rs 22-36 *)
Definition to_accum_tick (p : play_start) (l : list (Z * chunk)) : outcome (result Z accum_error) :=
  accum_tick_loop p 1 l.

(** ** Jumps: src/global_repeat.rs *)

(** src/repeat.rs 333-356: the errors that are ever returned *)
Inductive rr_error :=
| DuplicatedRepeatStart (tick : Z)
| DuplicatedSegno (t1 t2 : Z)
| DuplicatedDsDc (t1 t2 : Z)
| DuplicatedFine (t1 t2 : Z)
| OrphanRepeatEnd (tick : Z)
| NoRepeatEnd (tick : Z)
| InvalidRegionIndex (tick : Z) (actual expected : var_index)
| RepeatInVariation (tick : Z)
| VariationNotClosed (tick : Z)
| NoSegnoForDs (ds_tick : Z)
| MoreThanTwoCodas (t1 t2 t3 : Z)
| OnlyOneCoda (tick : Z)
| DcDsWhileRepeat (tick : Z)
| DcDsWhileVariation (tick : Z)
| SegnoWhileVariation (tick : Z)
| CodaAfterFine (coda_from coda_to fine : Z).

(** src/global_repeat.rs 6-10 *)
Inductive coda := CodaOne (t : Z) | CodaTwo (from to : Z).
(** src/global_repeat.rs 12-16 *)
Inductive ds_dc := JDc (tick len : Z) | JDs (tick : Z).
(** src/global_repeat.rs 18-25 *)
Definition ds_dc_tick (j : ds_dc) : Z := match j with JDc t _ => t | JDs t => t end.

(** src/global_repeat.rs 27-31 *)
Inductive rr_warning := SegnoAndDcFound (segno_tick dc_tick : Z) | OrphanCodaFound (coda_tick : Z).

(** src/global_repeat.rs 33-42; [warnings] is empty until [build] *)
Record gr_builder := mkGB {
  gb_ds_dc : option ds_dc;
  gb_fine : option Z;
  gb_segno : option Z;
  gb_coda : option coda;
  gb_first_bar_len : option Z;
  gb_top_rhythm : rhythm;
}.

(** src/global_repeat.rs 44-51 *)
Record global_repeat := mkGR {
  gr_ds_dc : ds_dc;
  gr_fine : option Z;
  gr_segno : Z;
  gr_coda : option (Z * Z);
  gr_iter1 : iset;
}.

(** src/global_repeat.rs 68-78 *)
Definition gb_new (r : rhythm) : gr_builder := mkGB None None None None None r.

Definition and_then {A B E} (r : result A E) (k : A -> result B E) : result B E :=
  match r with Ok a => k a | Err e => Err e end.

(** src/global_repeat.rs 80-104 (adding_dc and adding_ds) *)
Definition adding_ds_dc (j : ds_dc) (g : gr_builder) : result gr_builder rr_error :=
  match gb_ds_dc g with
  | None => Ok (mkGB (Some j) (gb_fine g) (gb_segno g) (gb_coda g) (gb_first_bar_len g) (gb_top_rhythm g))
  | Some p => Err (DuplicatedDsDc (ds_dc_tick p) (ds_dc_tick j))
  end.
(** src/global_repeat.rs 106-115 *)
Definition adding_fine (t : Z) (g : gr_builder) : result gr_builder rr_error :=
  match gb_fine g with
  | Some p => Err (DuplicatedFine p t)
  | None => Ok (mkGB (gb_ds_dc g) (Some t) (gb_segno g) (gb_coda g) (gb_first_bar_len g) (gb_top_rhythm g))
  end.
(** src/global_repeat.rs 117-126 *)
Definition adding_segno (t : Z) (g : gr_builder) : result gr_builder rr_error :=
  match gb_segno g with
  | Some p => Err (DuplicatedSegno p t)
  | None => Ok (mkGB (gb_ds_dc g) (gb_fine g) (Some t) (gb_coda g) (gb_first_bar_len g) (gb_top_rhythm g))
  end.
(** src/global_repeat.rs 128-141 *)
Definition adding_coda (t : Z) (g : gr_builder) : result gr_builder rr_error :=
  match gb_coda g with
  | None => Ok (mkGB (gb_ds_dc g) (gb_fine g) (gb_segno g) (Some (CodaOne t)) (gb_first_bar_len g) (gb_top_rhythm g))
  | Some (CodaOne p) => Ok (mkGB (gb_ds_dc g) (gb_fine g) (gb_segno g) (Some (CodaTwo p t)) (gb_first_bar_len g) (gb_top_rhythm g))
  | Some (CodaTwo p q) => Err (MoreThanTwoCodas p q t)
  end.

(** src/global_repeat.rs 152-160 *)
Definition on_bar_length (b : bar) (g : gr_builder) : gr_builder :=
  match gb_first_bar_len g with
  | Some _ => g
  | None =>
      if b_tick b =? 0 then
        match b_rhythm b with
        | Some r => mkGB (gb_ds_dc g) (gb_fine g) (gb_segno g) (gb_coda g) None r
        | None => g
        end
      else mkGB (gb_ds_dc g) (gb_fine g) (gb_segno g) (gb_coda g) (Some (b_tick b)) (gb_top_rhythm g)
  end.

Definition has (b : bar) (m : mark) : bool := ms_contains (b_marks b) m.

(** src/global_repeat.rs 148-179 *)
Definition on_bar (b : bar) (g : gr_builder) : result gr_builder rr_error :=
  let t := b_tick b in
  let g := on_bar_length b g in
  and_then (if has b Dc
            then adding_ds_dc (JDc t (match gb_first_bar_len g with Some l => l | None => 0 end)) g
            else Ok g) (fun g =>
  and_then (if has b Ds then adding_ds_dc (JDs t) g else Ok g) (fun g =>
  and_then (if has b Fine then adding_fine t g else Ok g) (fun g =>
  and_then (if has b Segno then adding_segno t g else Ok g) (fun g =>
  if has b Coda then adding_coda t g else Ok g)))).

(** src/global_repeat.rs 181-191 *)
Definition check_coda_pos (from to : Z) (fine : option Z) : result unit rr_error :=
  match fine with
  | Some f => if f <? to then Err (CodaAfterFine from to f) else Ok tt
  | None => Ok tt
  end.

(** src/global_repeat.rs 193-207; [coda_from - 1] and [end_tick - 1] are u32 *)
Definition to_interval_set (start : Z) (fine : option Z) (c : option (Z * Z)) : outcome iset :=
  let end_tick := match fine with Some f => f | None => u32_max end in
  match c with
  | Some (from, to) =>
      let! a := chk_u32 (from - 1) in
      let! b := chk_u32 (end_tick - 1) in
      iset_of [(start, a); (to, b)]
  | None =>
      if end_tick <=? start then iset_of []
      else let! b := chk_u32 (end_tick - 1) in iset_of [(start, b)]
  end.

(** src/global_repeat.rs 209-294; both arms of the match on [fine] at 270-289 are
    the same *)
Definition gb_build (g : gr_builder) : outcome (result (option global_repeat * list rr_warning) rr_error) :=
  match gb_ds_dc g with
  | None => Ret (Ok (None, []))
  | Some (JDc tick len as j) =>
      match gb_first_bar_len g with
      | None => Ret (Ok (None, []))
      | Some first_bar_len =>
          let! (segno, w) :=
            match gb_segno g with
            | Some s => Ret (s, [SegnoAndDcFound s tick])
            | None =>
                let full := rhythm_tick_len (gb_top_rhythm g) in
                let! sum := chk_u32 (len + first_bar_len) in
                Ret (if sum =? full then 0
                     else if (len =? full) && (first_bar_len =? full) then 0
                     else first_bar_len, [])
            end in
          match match gb_coda g with
                | None => Ok (None, w)
                | Some (CodaOne t) => Ok (None, w ++ [OrphanCodaFound t])
                | Some (CodaTwo from to) => and_then (check_coda_pos from to (gb_fine g)) (fun _ => Ok (Some (from, to), w))
                end with
          | Err e => Ret (Err e)
          | Ok (c, w) =>
              let! s := to_interval_set segno (gb_fine g) c in
              Ret (Ok (Some (mkGR j (gb_fine g) segno c s), w))
          end
      end
  | Some (JDs tick as j) =>
      match gb_segno g with
      | None => Ret (Err (NoSegnoForDs tick))
      | Some segno =>
          match match gb_coda g with
                | None => Ok None
                | Some (CodaOne t) => Err (OnlyOneCoda t)
                | Some (CodaTwo from to) => and_then (check_coda_pos from to (gb_fine g)) (fun _ => Ok (Some (from, to)))
                end with
          | Err e => Ret (Err e)
          | Ok c =>
              let! s := to_interval_set segno (gb_fine g) c in
              Ret (Ok (Some (mkGR j (gb_fine g) segno c s), []))
          end
      end
  end.

(** ** Regions *)

(** src/repeat.rs 122-125 *)
Definition range := (Z * Z)%type.

(** src/repeat.rs 103-125, 175-178, 218-222: the implementations of SimpleRegion
    that are ever made (NullRegion, 103-120, is not) *)
Inductive region :=
| RSeq (r : range)
| RRepeat (r : range)
| RVar (common : range) (variations : list range).

(** src/repeat.rs 82-87 *)
Inductive phase := NonDcDs | DcDsIter0 (dc_ds_tick : Z) | DcDsIter1 (g : global_repeat).

(** src/repeat.rs 150-152; also 185-187 *)
Definition range_interval_set (r : range) : outcome iset :=
  let! e := chk_u32 (snd r - 1) in iset_of [(fst r, e)].

(** src/repeat.rs 231-233: [variations[variations.len() - 1]] panics if there is none *)
Definition last_variation (vs : list range) : outcome range :=
  match vs with [] => Panic | v :: vs' => Ret (last vs' v) end.

(** src/repeat.rs 150-152, 185-187, 241-245 *)
Definition iter1_interval_set (r : region) : outcome iset :=
  match r with
  | RSeq r => range_interval_set r
  | RRepeat r => range_interval_set r
  | RVar c vs =>
      let! a := range_interval_set c in
      let! v := last_variation vs in
      let! b := range_interval_set v in
      Ret (iset_union a b)
  end.

(** src/repeat.rs 92-100 *)
Definition to_iter1_chunks (g : global_repeat) (r : region) : outcome (list chunk) :=
  let! s := iter1_interval_set r in
  omapM (fun sec => let! e := chk_u32 (snd sec + 1) in Ret (mkChunk (fst sec) e)) (iset_inter (gr_iter1 g) s).

Definition range_chunk (r : range) : chunk := mkChunk (fst r) (snd r).

(** src/repeat.rs 250-259 *)
Definition variation_full (c : range) (vs : list range) : list chunk :=
  flat_map (fun v => [range_chunk c; range_chunk v]) vs.

(** src/repeat.rs 155-173, 190-216, 248-278 *)
Definition render_chunks (p : phase) (r : region) : outcome (list chunk) :=
  match r, p with
  | RSeq r, NonDcDs => Ret [range_chunk r]
  | RSeq (s, e), DcDsIter0 d =>
      Ret (if e <=? d then [mkChunk s e]
           else if (s <? d) && (d <? e) then [mkChunk s d]
           else [])
  | RRepeat r, NonDcDs => Ret [range_chunk r; range_chunk r]
  | RRepeat (s, e), DcDsIter0 d =>
      if e <=? d then Ret [mkChunk s e; mkChunk s e]
      else if (e <? d) && (d <? e) then Panic
      else Ret []
  | RVar c vs, NonDcDs => Ret (variation_full c vs)
  | RVar c vs, DcDsIter0 d =>
      if d <=? fst c then Ret []
      else
        let! v := last_variation vs in
        if d <? snd v then Panic else Ret (variation_full c vs)
  | r, DcDsIter1 g => to_iter1_chunks g r
  end.

(** src/repeat.rs 280-284 *)
Record compound := mkCompound { cp_global : option global_repeat; cp_regions : list region }.

(** src/repeat.rs 287-309 *)
Definition to_chunks (c : compound) : outcome (list chunk) :=
  match cp_global c with
  | Some g =>
      let! a := omapM (render_chunks (DcDsIter0 (ds_dc_tick (gr_ds_dc g)))) (cp_regions c) in
      let! b := omapM (render_chunks (DcDsIter1 g)) (cp_regions c) in
      Ret (concat a ++ concat b)
  | None => let! a := omapM (render_chunks NonDcDs) (cp_regions c) in Ret (concat a)
  end.

(** src/repeat.rs 311-318 *)
Definition compound_interval_set (c : compound) : outcome iset :=
  let! u := ofold (fun u r => let! s := iter1_interval_set r in Ret (iset_union u s)) [] (cp_regions c) in
  Ret (match cp_global c with Some g => iset_inter u (gr_iter1 g) | None => u end).

(** ** Rendering *)

(** src/repeat.rs 321-330 *)
Inductive rr_state :=
| SIdle
| SSeq (start : Z)
| SRepeat (start : Z)
| SVariation (start : Z) (starts : list Z).

(** src/repeat.rs 367-381; [starts] is never empty ([unwrap]) *)
Fixpoint variation_ranges (tick : Z) (starts : list Z) (end_tick : Z) : list range :=
  match starts with
  | [] => [(tick, end_tick)]
  | t :: l => (tick, t) :: variation_ranges t l end_tick
  end.
Definition create_variation (start : Z) (starts : list Z) (end_tick : Z) : outcome region :=
  match starts with
  | [] => Panic
  | t :: l => Ret (RVar (start, t) (variation_ranges t l end_tick))
  end.

(** src/repeat.rs 396-481: one step of the state machine; [segno] is the Segno
    found so far.  The local [is_auftakt] (385, 390-394) is never read. *)
Definition rr_step (segno : option Z) (b : bar) (st : rr_state) : outcome (result (rr_state * list region) rr_error) :=
  let t := b_tick b in
  match st with
  | SIdle =>
      if has b Start && has b End then Ret (Ok (SRepeat t, [RRepeat (0, t)]))
      else if has b End then Ret (Ok (SSeq t, [RRepeat (0, t)]))
      else if has b Start then Ret (Ok (SRepeat t, [RSeq (0, t)]))
      else match region_index (b_marks b) with
           | Some VI1 => Ret (Ok (SVariation 0 [t], []))
           | Some i => Ret (Err (InvalidRegionIndex t i VI1))
           | None => Ret (Ok (st, []))
           end
  | SSeq s =>
      if has b End then Ret (Err (OrphanRepeatEnd t))
      else if has b Start then Ret (Ok (SRepeat t, [RSeq (s, t)]))
      else Ret (Ok (st, []))
  | SRepeat s =>
      if has b Start && has b End then Ret (Ok (SRepeat t, [RRepeat (s, t)]))
      else if has b End then Ret (Ok (SSeq t, [RRepeat (s, t)]))
      else if has b Start then Ret (Err (DuplicatedRepeatStart t))
      else if has b Dc || has b Ds then Ret (Err (DcDsWhileRepeat t))
      else match region_index (b_marks b) with
           | Some VI1 => Ret (Ok (SVariation s [t], []))
           | Some i => Ret (Err (InvalidRegionIndex t i VI1))
           | None => Ret (Ok (st, []))
           end
  | SVariation s starts =>
      if has b End then Ret (Err (RepeatInVariation t))
      else match region_index (b_marks b) with
           | Some ri =>
               if has b Dc || has b Ds then Ret (Err (DcDsWhileVariation t))
               else
                 let current := as_u8 (Z.of_nat (length starts)) in
                 let idx := var_value ri in
                 if idx =? current then Ret (Ok (st, []))
                 else
                   let! next := chk_u8 (current + 1) in
                   if idx =? next then Ret (Ok (SVariation s (starts ++ [t]), []))
                   else
                     let! expected := unwrap_opt (var_from_value next) in
                     Ret (Err (InvalidRegionIndex t ri expected))
           | None =>
               let! first := index starts 0 in
               let! final := unwrap_opt (nth_error starts (length starts - 1)) in
               if match segno with Some sg => (first <=? sg) && (sg <? final) | None => false end
               then Ret (Err (SegnoWhileVariation t))
               else
                 let! r := create_variation s starts t in
                 Ret (Ok (if has b Start then SRepeat t else SSeq t, [r]))
           end
  end.

(** src/repeat.rs 388-482: the loop *)
Fixpoint rr_loop (g : gr_builder) (st : rr_state) (regions : list region) (bars : list bar)
  : outcome (result (gr_builder * rr_state * list region) rr_error) :=
  match bars with
  | [] => Ret (Ok (g, st, regions))
  | b :: bars' =>
      match on_bar b g with
      | Err e => Ret (Err e)
      | Ok g' =>
          let! r := rr_step (gb_segno g') b st in
          match r with
          | Err e => Ret (Err e)
          | Ok (st', new) => rr_loop g' st' (regions ++ new) bars'
          end
      end
  end.

(** src/repeat.rs 484-499 *)
Definition rr_finish (g : gr_builder) (st : rr_state) (regions : list region)
  : outcome (result (compound * list rr_warning) rr_error) :=
  let finish s :=
    let! r := gb_build g in
    Ret (match r with
         | Ok (gr, w) => Ok (mkCompound gr (regions ++ [RSeq (s, u32_max)]), w)
         | Err e => Err e
         end) in
  match st with
  | SIdle => finish 0
  | SSeq s => finish s
  | SRepeat s => Ret (Err (NoRepeatEnd s))
  | SVariation _ starts =>
      let! t := unwrap_opt (nth_error starts (length starts - 1)) in
      Ret (Err (VariationNotClosed t))
  end.

(** src/repeat.rs 366-500 *)
Definition render_region (tune_rhythm : rhythm) (bars : list bar)
  : outcome (result (compound * list rr_warning) rr_error) :=
  let! r := rr_loop (gb_new tune_rhythm) SIdle [] bars in
  match r with
  | Err e => Ret (Err e)
  | Ok (g, st, regions) => rr_finish g st regions
  end.
