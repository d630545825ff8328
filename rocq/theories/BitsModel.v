(** Model of larch/util/bitmasking.py and larch/model/systematic_alternatives.py: bit masks, the codes
    of systematic alternatives, their names and the nesting built from them.
    Code arrays are numpy int64: shifts wrap around modulo 2^64.  Additions are written without the
    wrap where the theorems assume that all fields fit in 62 bits. *)
From Coq Require Export ZArith List Bool Lia.
Export ListNotations.
Open Scope Z_scope.

(** int64 arithmetic of numpy. *)
Definition wrap64 (z : Z) : Z := (z + 2 ^ 63) mod 2 ^ 64 - 2 ^ 63.
(** [x << n] on int64: zero once the count reaches the width. *)
Definition shl64 (x : Z) (n : nat) : Z := if Nat.ltb n 64 then wrap64 (x * 2 ^ Z.of_nat n) else 0.

(** ** bitmasking.py *)
(** numpy.cumsum of the reversed sizes, reversed: sums of the tails, lines 16. *)
Fixpoint tail_sums (sizes : list nat) : list nat :=
  match sizes with
  | [] => []
  | n :: r => (n + match tail_sums r with s :: _ => s | [] => 0 end)%nat :: tail_sums r
  end.
(** define_masks, lines 4-27: [shifts[:-1] = shifts[1:]; shifts[-1] = 0] (IndexError on an empty
    list: [None]). *)
Definition shifts (sizes : list nat) : list nat := tl (tail_sums sizes) ++ [0%nat].
(** define_masks, bitmasking.py 4-26. *)
Definition define_masks (sizes : list nat) : option (list Z) :=
  match sizes with
  | [] => None
  | _ => Some (map (fun p => shl64 (2 ^ Z.of_nat (fst p) - 1) (snd p)) (combine sizes (shifts sizes)))
  end.
(** numpy.unique: the values in increasing order, once each. *)
Fixpoint uinsert (x : Z) (l : list Z) : list Z :=
  match l with
  | [] => [x]
  | y :: r => if x <? y then x :: l else if x =? y then l else y :: uinsert x r
  end.
(** numpy.unique (bitmasking.py 40, 55; systematic_alternatives.py 266, 395). *)
Definition unique (l : list Z) : list Z := fold_right uinsert [] l.
(** int(ceil(log2(n))) for n > 0. *)
Definition clog2 (n : nat) : nat := Nat.log2_up n.
(** define_min_masks_from_sets / _from_df, lines 30-59; log2 of an empty set is -inf, whose int
    conversion raises. *)
Definition define_min_masks (sets : list (list Z)) : option (list Z) :=
  if existsb (fun s => match s with [] => true | _ => false end) sets then None
  else define_masks (map (fun s => clog2 (length (unique s))) sets).

(** ** systematic_alternatives.py *)
(** bitmask_shift_value, lines 8-13: trailing zeros of the binary text; "0b0" stops at the "b". *)
Fixpoint ctz (p : positive) : nat := match p with xO p => S (ctz p) | _ => 0%nat end.
(** bitmask_shift_value, systematic_alternatives.py 8-13. *)
Definition bitmask_shift_value (b : Z) : nat := match b with Z0 => 1%nat | Zpos p | Zneg p => ctz p end.

(** A row of the data: its case and its category in each groupby column. *)
(** One row of the frame given to new_alternative_codes (303-387): case index and groupby columns. *)
Record row := mkRow { r_case : Z; r_cats : list Z }.
(** Value of groupby column [i] in a row (389-403). *)
Definition cat (i : nat) (r : row) : Z := nth i (r_cats r) 0.
(** Equality of the groupby key (383). *)
Fixpoint cats_eqb (a b : list Z) : bool :=
  match a, b with
  | [], [] => true
  | x :: a, y :: b => (x =? y) && cats_eqb a b
  | _, _ => false
  end.
(** Same [caseindex] and same groupby values: one group of the groupby at line 383. *)
Definition same_group (a b : row) : bool := (r_case a =? r_case b) && cats_eqb (r_cats a) (r_cats b).
(** groupby([caseindex, *groupby]).cumcount() + 1, line 383: how many rows up to and including this
    one are in its group. *)
Fixpoint ordinals_from (before : list row) (rows : list row) : list nat :=
  match rows with
  | [] => []
  | r :: rest => S (length (filter (same_group r) before)) :: ordinals_from (r :: before) rest
  end.
(** The whole cumcount column, line 383. *)
Definition ordinals (rows : list row) : list nat := ordinals_from [] rows.
(** [overcount.max()] (384-387); numpy's max of a non-empty list. *)
Definition maxn (l : list nat) : nat := fold_right Nat.max 0%nat l.

(** Position of a value; for a given complete list the last one, because later entries of the dict
    comprehension overwrite earlier ones (lines 121-126, 395-402).  [None]: KeyError. *)
Fixpoint index_of (v : Z) (l : list Z) : option nat :=
  match l with
  | [] => None
  | x :: r => match index_of v r with Some i => Some (S i) | None => if x =? v then Some 0%nat else None end
  end.
(** The alternatives of one groupby column: the given complete list, or the values found
    (lines 389-403). *)
Definition level_alts (complete : option (list Z)) (i : nat) (rows : list row) : list Z :=
  match complete with Some l => l | None => unique (map (cat i) rows) end.

(** The masks array, lines 412-427: shifted by every later field. *)
Definition set_nth {A} (i : nat) (v : A) (l : list A) : list A := firstn i l ++ v :: skipn (S i) l.
(** The loop over the groupby levels, lines 412-423. *)
Fixpoint mask_loop (i : nat) (sizes : list nat) (masks : list Z) : list Z :=
  match sizes with
  | [] => masks
  | b :: r => mask_loop (S i) r (set_nth i (2 ^ Z.of_nat b - 1) (map (fun m => shl64 m b) masks))
  end.
(** masks, lines 405-427: all fields, then the ordinal field. *)
Definition sa_masks (sizes : list nat) (label_offset : nat) : list Z :=
  let g := length sizes in
  let start := repeat 0 (S g) in
  let masks := match sizes with
               | [] => start
               | b :: r => mask_loop 1 r (set_nth 0 (2 ^ Z.of_nat b - 1) start)
               end in
  set_nth g (2 ^ Z.of_nat label_offset - 1) (map (fun m => shl64 m label_offset) masks).
(** The code of a row, lines 412-426; [digits] are the category positions. *)
Fixpoint code_loop (x : Z) (sizes : list nat) (digits : list nat) : Z :=
  match sizes, digits with
  | b :: sizes, d :: digits => code_loop (shl64 x b + (Z.of_nat d + 1)) sizes digits
  | _, _ => x
  end.
(** The complete code of a row, lines 412-426. *)
Definition row_code (sizes : list nat) (label_offset : nat) (digits : list nat) (s : nat) : Z :=
  let x := match sizes, digits with
           | _ :: sizes, d :: digits => code_loop (Z.of_nat d + 1) sizes digits
           | _, _ => 0
           end in
  shl64 x label_offset + Z.of_nat s.

(** All category positions of a row. *)
(** [df[g].map(alt_dict)] for every level (395-404). *)
Fixpoint digits_of (alts : list (list Z)) (cats : list Z) : option (list nat) :=
  match alts, cats with
  | [], _ => Some []
  | a :: alts, c :: cats =>
    match index_of c a, digits_of alts cats with Some d, Some r => Some (d :: r) | _, _ => None end
  | _, [] => None
  end.
(** A frame-wide map raises as soon as one row does (KeyError, 404). *)
Fixpoint all_some {A} (l : list (option A)) : option (list A) :=
  match l with
  | [] => Some []
  | Some x :: r => match all_some r with Some r => Some (x :: r) | None => None end
  | None :: _ => None
  end.

(** SystematicAlternatives: masks, categories of every level, codes in use, padding. *)
(** SystematicAlternatives.__init__, lines 17-38, as created at 429-445. *)
Record sysalts := mkSA { sa_mask : list Z; sa_cats : list (list Z); sa_codes : list Z; sa_padding : nat }.
(** The codes of the rows of one frame, for given categories and label offset (lines 389-426, 225-267).
    [None]: a category is missing from a complete list (KeyError). *)
Definition level_lists (complete : list (option (list Z))) (rows : list row) : list (list Z) :=
  map (fun p => level_alts (snd p) (fst p) rows) (combine (seq 0 (length complete)) complete).
(** Bits per level, lines 405-411: [ceil(log2(len(alts)+1+padding))]. *)
Definition level_sizes (padding : nat) (alts : list (list Z)) : list nat :=
  map (fun a => clog2 (length a + 1 + padding)) alts.
(** lines 389-426 for one frame. *)
Definition codes_of (alts : list (list Z)) (padding label_offset : nat) (rows : list row) : option (list Z) :=
  match all_some (map (fun r => digits_of alts (r_cats r)) rows) with
  | None => None
  | Some digits =>
    Some (map (fun p => row_code (level_sizes padding alts) label_offset (fst p) (snd p))
              (combine digits (ordinals rows)))
  end.
(** new_alternative_codes, lines 303-457, for a single frame: the code of every row, and the object.
    [complete] gives for each groupby column the complete list or nothing.  [None]: an exception
    (no rows; a category missing from a complete list). *)
Definition new_alternative_codes (complete : list (option (list Z))) (padding : nat) (rows : list row)
  : option (list Z * sysalts) :=
  match rows with
  | [] => None
  | _ =>
    let label_offset := clog2 (maxn (ordinals rows)) in
    let alts := level_lists complete rows in
    match codes_of alts padding label_offset rows with
    | None => None
    | Some x => Some (x, mkSA (sa_masks (level_sizes padding alts) label_offset) alts (unique x) padding)
    end
  end.
(** _multiple_new_alternative_codes, lines 129-300: several frames coded alike.  The codes recorded
    in the object are those of the last frame (line 266). *)
Definition multiple_new_alternative_codes (complete : list (option (list Z))) (padding : nat) (frames : list (list row))
  : option (list (list Z) * sysalts) :=
  if match frames with [] => true | _ => false end || existsb (fun f => match f with [] => true | _ => false end) frames
  then None
  else
    let label_offset := clog2 (maxn (map (fun f => maxn (ordinals f)) frames)) in
    let alts := level_lists complete (concat frames) in
    match all_some (map (codes_of alts padding label_offset) frames) with
    | None => None
    | Some xs => Some (xs, mkSA (sa_masks (level_sizes padding alts) label_offset) alts (unique (last xs [])) padding)
    end.
(** SystematicAlternatives.compute_alternative_codes, lines 79-119. *)
Definition compute_alternative_codes (sa : sysalts) (rows : list row) : option (list Z) :=
  match new_alternative_codes (map Some (sa_cats sa)) (sa_padding sa) rows with
  | Some (x, _) => Some x
  | None => None
  end.

(** Reading a field: [(mask & code) >> bitmask_shift_value(mask)], lines 58, 69. *)
Definition field (mask code : Z) : Z := Z.shiftr (Z.land mask code) (Z.of_nat (bitmask_shift_value mask)).
(** alternative_name_from_code, lines 41-73, before formatting: for every level the category meant
    (or "no category", or the number of levels beyond the last category), then the ordinal. *)
Inductive part := NoCat | Cat (c : Z) | Beyond (k : Z).
(** lines 55-66: one level of the name. *)
Definition name_part (cats : list Z) (j : Z) : part :=
  if j - 1 <? 0 then NoCat
  else if Nat.ltb (Z.to_nat (j - 1)) (length cats) then Cat (nth (Z.to_nat (j - 1)) cats 0)
  else Beyond (j - Z.of_nat (length cats)).
(** alternative_name_from_code, lines 41-73. *)
Definition alternative_name (sa : sysalts) (code : Z) : list part * Z :=
  (map (fun p => name_part (fst p) (field (snd p) code)) (combine (sa_cats sa) (removelast (sa_mask sa))),
   field (last (sa_mask sa) 0) code).

(** ** Nesting: magic_ogev_nesting, lines 503-590 (magic_nesting, 461-499, is coverage 1 everywhere).
    The result is the list of edges (parent, child); [root] is the model's root id. *)
Definition zsum (l : list Z) : Z := fold_right Z.add 0 l.
(** magic_ogev_nesting 530-585: codes of the nests above [code] at a level: itself and [t] following ones. *)
Definition nests_above (t : nat) (mask_1 level_mask code : Z) : list Z :=
  map (fun e => Z.land (code + mask_1 * Z.of_nat e) level_mask) (seq 0 (S t)).
(** magic_ogev_nesting 530-585: the loop over the levels. *)
Fixpoint nest_levels (root : Z) (masks codes : list Z) (coverage : list nat) (level : nat)
    (prev_mask prev_1 : Z) (prev_t : nat) : list (Z * Z) :=
  match coverage with
  | [] => flat_map (fun a => map (fun p => (p, a)) (nests_above prev_t prev_1 prev_mask a)) codes
  | c :: coverage =>
    let level_mask := zsum (firstn (S level) masks) in
    let mask_1 := 2 ^ Z.of_nat (bitmask_shift_value level_mask) in
    let t := (c - 1)%nat in
    let nests := unique (flat_map (nests_above t mask_1 level_mask) codes) in
    (if Nat.eqb level 0 then map (fun n => (root, n)) nests
     else flat_map (fun n => map (fun p => (p, n)) (nests_above prev_t prev_1 prev_mask n)) nests)
    ++ nest_levels root masks codes coverage (S level) level_mask mask_1 t
  end.
(** [None]: the coverage exceeds the padding (ValueError). *)
(** magic_ogev_nesting, lines 503-590. *)
Definition magic_ogev_nesting (root : Z) (sa : sysalts) (coverage : list nat) : option (list (Z * Z)) :=
  if existsb (fun c => Nat.ltb (sa_padding sa) (c - 1)) coverage then None
  else Some (nest_levels root (sa_mask sa) (sa_codes sa) coverage 0 0 0 0).
(** magic_nesting, lines 461-499. *)
Definition magic_nesting (root : Z) (sa : sysalts) : option (list (Z * Z)) :=
  magic_ogev_nesting root sa (map (fun _ => 1%nat) (sa_cats sa)).
