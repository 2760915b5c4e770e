(** Model of src/tuple.rs. *)
From Coq Require Import ZArith List Bool.
From Verif Require Import Base M_Duration M_Note.
Import ListNotations.
Open Scope Z_scope.

(** src/tuple.rs 142-145; [8 - ord] is between 1 and 8 *)
Definition numerator_unit (d : duration) : outcome Z :=
  let len := Z.shiftl 1 (8 - num_ord (d_num d)) in
  let! h := shr32 len (d_dots d) in
  let! rest := chk_u32 (len - h) in
  chk_u32 (len + rest).

(** src/tuple.rs 41-48, without the [None] case, which exists only before the
    first note is seen *)
Record tuple_elem := mkTE { te_tick : Z; te_notes : list note; te_min : duration }.

(** src/tuple.rs 98-130: [TupleElem::add]; [inl] is [Single], [inr] is [Double] *)
Definition te_add (cur : option tuple_elem) (n : note) : outcome (tuple_elem + tuple_elem * tuple_elem) :=
  let d := with_denominator (n_duration n) 2 in
  match cur with
  | None => Ret (inl (mkTE (n_base_tick n) [n] d))
  | Some e =>
      if negb (te_tick e =? n_base_tick n) then
        Ret (inr (e, mkTE (n_base_tick n) [n] d))
      else
        let! m := duration_min (te_min e) d in
        Ret (inl (mkTE (te_tick e) (te_notes e ++ [n]) m))
  end.

(** [slice::sort_by] by the base start tick, a stable sort (src/tuple.rs 155) *)
Fixpoint insert_by_tick (n : note) (l : list note) : list note :=
  match l with
  | [] => [n]
  | m :: l' => if n_base_tick n <=? n_base_tick m then n :: l else m :: insert_by_tick n l'
  end.
Definition sort_notes (l : list note) : list note := fold_right insert_by_tick [] l.

(** src/tuple.rs 160-171: the loop; collects finished elements in order *)
Fixpoint te_loop (cur : option tuple_elem) (l : list note) : outcome (list tuple_elem) :=
  match l with
  | [] => Ret (match cur with Some e => [e] | None => [] end)
  | n :: l' =>
      let! _ := numerator_unit (n_duration n) in
      let! r := te_add cur n in
      match r with
      | inl e => te_loop (Some e) l'
      | inr (e0, e1) => let! rest := te_loop (Some e1) l' in Ret (e0 :: rest)
      end
  end.

(** src/tuple.rs 148-150: the greatest common divisor of the set of units.  The
    iteration order of the [HashSet] does not matter for the result. *)
Definition gcd_units (l : list Z) : option Z :=
  match l with [] => None | u :: l' => Some (fold_left Z.gcd l' u) end.

(** src/tuple.rs 152-178: the sorted notes, the unit and the elements *)
Definition sort_by_start_tick (l : list note) : outcome (list note * option Z * list tuple_elem) :=
  match l with
  | [] => Ret ([], None, [])
  | _ =>
      let sorted := sort_notes l in
      let! es := te_loop None sorted in
      let! us := omapM (fun n => numerator_unit (n_duration n)) sorted in
      Ret (sorted, gcd_units us, es)
  end.

(** src/tuple.rs 180-190 with 82-94 *)
Definition total_tick_unit (es : list tuple_elem) : outcome (Z * Z) :=
  ofold (fun '(tick, unit) e =>
    let! l := tick_length (te_min e) in
    let! tick' := chk_u32 (tick + l) in
    let! u := numerator_unit (te_min e) in
    let! unit' := chk_u32 (unit + u) in
    Ret (tick', unit')) (0, 0) es.

(** src/tuple.rs 25-31: the inner loop over all notes of all elements.  [u] is
    the running position in units. *)
Fixpoint tuple_notes (start total_tick total_unit den u : Z) (l : list note) : outcome (list note) :=
  match l with
  | [] => Ret []
  | n :: l' =>
      let! m := chk_u32 (total_tick * u) in
      let! t := chk_u32 (start + m / total_unit) in
      let d := with_denominator (n_duration n) den in
      let! k := numerator_unit d in
      let! u' := chk_u32 (u + k) in
      let! rest := tuple_notes start total_tick total_unit den u' l' in
      Ret (set_duration (set_base_tick n t) d :: rest)
  end.

(** src/tuple.rs 6-40.  [total_unit] and [min_unit] are at least 1 because every
    unit is (no division by zero). *)
Definition tuplize (notes : list note) : outcome (list note) :=
  match notes with
  | [] => Ret []
  | _ =>
      let! (work, min_unit, sorted) := sort_by_start_tick notes in
      match min_unit with
      | None => Ret []
      | Some min_unit =>
          let! start := match work with n :: _ => Ret (n_base_tick n) | [] => Panic end in
          let! (total_tick, total_unit) := total_tick_unit sorted in
          let den := total_unit / min_unit in
          if den <? 2 then Ret notes
          else
            let! total := chk_u32 (total_tick / den * 2) in
            let! den := unwrap_opt (denominator_from_value (as_u8 den)) in
            tuple_notes start total total_unit den 0 (flat_map te_notes sorted)
      end
  end.
