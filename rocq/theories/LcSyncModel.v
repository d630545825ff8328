(** How a latent class model and its parts share one parameter frame.
    Source: larch/model/latentclass.py, larch/model/parameter_frame.pyx, larch/model/abstract_model.pyx and
    larch/model/controller.pyx at the pinned commit.  Frames are Python objects: a part holds a
    reference, and two parts with the same reference see each other's changes.  Rows and scanning
    are those of [ParamModel]. *)
From Verif Require Export ParamModel.

(** Whether two rows hold the same thing; pandas' [DataFrame.equals] treats NaN as equal to NaN.
    larch/model/parameter_frame.pyx 186. *)
Definition num_eq_dec (a b : num) : {a = b} + {a <> b}.
Proof. decide equality. apply Req_EM_T. Defined.
(** As above, one row. larch/model/parameter_frame.pyx 186. *)
Definition row_eq_dec (a b : row) : {a = b} + {a <> b}.
Proof.
  decide equality; try apply num_eq_dec; try apply string_dec.
  decide equality. apply Z.eq_dec.
Defined.

(** The rows as a frame without a 'best' column shows them.  larch/model/abstract_model.pyx 53-55 ([del self._frame['best']]). *)
Definition no_best (r : row) : row :=
  mkRow (r_name r) (r_value r) (r_init r) (r_null r) (r_min r) (r_max r) (r_hold r) NaN.
(** What is in the frame: [r_best] counts only when there is such a column. *)
(** larch/model/parameter_frame.pyx 22-50. *)
Definition shown (f : frame) : list row := if has_best f then rows f else map no_best (rows f).
(** [self._frame.equals(frame)]: same columns, same rows in the same order.  larch/model/parameter_frame.pyx 186. *)
Definition frame_equals (f g : frame) : bool :=
  Bool.eqb (has_best f) (has_best g) && if list_eq_dec row_eq_dec (shown f) (shown g) then true else false.

(** A constituent: the reference to its frame, the names its functions use, its [_mangled] flag
    (parameter_frame.pxd 13; an attribute of the C structure). *)
Record part := mkPart { p_ref : nat; p_names : modelnames; p_mangled : bool }.

(** The state: all frames by reference, the next free reference, the parts (number 0 is the latent
    class model itself, 1 the membership model, then the classes), and the Python attribute
    [_mangled] of the latent class model (latentclass.py 83, 660, 668), which is not the flag of the
    C structure: that one is not public, so assigning it from Python makes a new attribute. *)
Record lcm := mkLcm { heap : nat -> frame; next : nat; parts : list part; py_mangled : bool }.

(** Replace the frame at a reference (an in-place change of the DataFrame; parameter_frame.pyx 118, abstract_model.pyx 55). *)
Definition put (r : nat) (f : frame) (h : nat -> frame) : nat -> frame :=
  fun r' => if (r' =? r)%nat then f else h r'.
(** Replace one part. (parameter_frame.pyx 162, 170, 188) *)
Fixpoint set_nth {A} (l : list A) (i : nat) (x : A) : list A :=
  match l, i with
  | [], _ => []
  | _ :: l, O => x :: l
  | y :: l, S i => y :: set_nth l i x
  end.

(** abstract_model.pyx 49-57, parameter_frame.pyx 161-162: [mangle] of one part deletes the 'best' column of its frame,
    in place, and raises its flag. *)
Definition mangle_part (i : nat) (s : lcm) : lcm :=
  match nth_error (parts s) i with
  | None => s
  | Some p => mkLcm (put (p_ref p) (mkFrame (map no_best (rows (heap s (p_ref p)))) false) (heap s)) (next s)
      (set_nth (parts s) i (mkPart (p_ref p) (p_names p) true)) (py_mangled s)
  end.

(** latentclass.py 652-656, [mangle]: the parts, then the C flag of the latent class model.  The Python attribute is
    not touched. *)
Definition mangle (s : lcm) : lcm :=
  fold_left (fun s i => mangle_part i s) (seq 1 (pred (length (parts s))) ++ [O]) s.

(** controller.pyx 286-290 with parameter_frame.pyx 104-118: scanning.  If names are missing the frame is replaced by
    a new, longer one, otherwise the old one is sorted in place.  [None]: ValueError. *)
Definition scan_part (i : nat) (s : lcm) : option lcm :=
  match nth_error (parts s) i with
  | None => Some s
  | Some p =>
    match scan_all (p_names p) (heap s (p_ref p)) with
    | None => None
    | Some f =>
      let fresh := negb (length (rows f) =? length (rows (heap s (p_ref p))))%nat in
      let r := if fresh then next s else p_ref p in
      Some (mkLcm (put r f (heap s)) (if fresh then S (next s) else next s)
              (set_nth (parts s) i (mkPart r (p_names p) false)) (py_mangled s))
    end
  end.

(** controller.pyx 266-274: [unmangle] of the membership model or a class ([force] mangles first). *)
Definition unmangle_part (force : bool) (s : option lcm) (i : nat) : option lcm :=
  match s with
  | None => None
  | Some s =>
    let s := if force then mangle_part i s else s in
    match nth_error (parts s) i with
    | None => Some s
    | Some p => if p_mangled p then scan_part i s else Some s
    end
  end.

(** parameter_frame.pyx 167-170: [unmangle] of the latent class model's own base class. *)
Definition unmangle_self (force : bool) (s : lcm) : option lcm :=
  match nth_error (parts s) 0 with
  | None => Some s
  | Some p => if p_mangled p || force then scan_part 0 s else Some s
  end.

(** latentclass.py 29-30: concatenate, then keep the first row of each name.  A frame without a 'best' column
    has NaN there if another one has the column. *)
Fixpoint keep_first (seen : list string) (l : list row) : list row :=
  match l with
  | [] => []
  | r :: l => if mem (r_name r) seen then keep_first seen l else r :: keep_first (r_name r :: seen) l
  end.
(** latentclass.py 29-30. *)
Definition joined (fs : list frame) : frame :=
  mkFrame (keep_first [] (flat_map shown fs)) (existsb has_best fs).

(** parameter_frame.pyx 172-188, [set_frame]: nothing happens when the frame given equals the one there.  Setting the
    frame of the latent class model calls its own [mangle], which mangles all the parts. *)
Definition set_frame (loc : nat) (s : lcm) (i : nat) : lcm :=
  match nth_error (parts s) i with
  | None => s
  | Some p =>
    if frame_equals (heap s (p_ref p)) (heap s loc) then s
    else (if (i =? 0)%nat then mangle else mangle_part i)
           (mkLcm (heap s) (next s) (set_nth (parts s) i (mkPart loc (p_names p) (p_mangled p))) (py_mangled s))
  end.

(** latentclass.py 14-32, [sync_frames]. *)
Definition sync_frames (s : lcm) : lcm :=
  let refs := map p_ref (parts s) in
  if forallb (Nat.eqb (hd O refs)) (tl refs) then s
  else
    let s := mkLcm (put (next s) (joined (map (heap s) refs)) (heap s)) (S (next s)) (parts s) (py_mangled s) in
    fold_left (set_frame (pred (next s))) (seq 0 (length (parts s))) s.

(** latentclass.py 658-668, [unmangle]. *)
Definition unmangle (force : bool) (s : lcm) : option lcm :=
  match unmangle_self force s with
  | None => None
  | Some s =>
    if py_mangled s || force then
      let others := seq 1 (pred (length (parts s))) in
      match fold_left (unmangle_part force) others (Some s) with
      | None => None
      | Some s =>
        match fold_left (unmangle_part false) others (Some (sync_frames s)) with
        | None => None
        | Some s => Some (mkLcm (heap s) (next s) (parts s) false)
        end
      end
    else Some s
  end.

(** Give a part other functions, which mangles it (controller.pyx 1103, 1131, linear.pyx touch callbacks): the names it uses are now [ns]. *)
Definition edit_part (i : nat) (ns : modelnames) (s : lcm) : lcm :=
  match nth_error (parts s) i with
  | None => s
  | Some p => mangle_part i (mkLcm (heap s) (next s) (set_nth (parts s) i (mkPart (p_ref p) ns (p_mangled p))) (py_mangled s))
  end.

(** latentclass.py 682-713, [set_value] with a value and a name that is there: a change of the latent class model's
    own frame, in place. *)
Definition set_value_at (r : nat) (n : string) (v : num) (s : lcm) : lcm :=
  mkLcm (put r (mkFrame (map (fun x => if String.eqb (r_name x) n then with_value v x else x) (rows (heap s r)))
                        (has_best (heap s r))) (heap s)) (next s) (parts s) (py_mangled s).
(** latentclass.py 682-713. *)
Definition set_value (n : string) (v : num) (s : lcm) : lcm :=
  match nth_error (parts s) 0 with Some p => set_value_at (p_ref p) n v s | None => s end.

(** The value a part computes with: dataframes.pyx reads the parameters from the part's own frame
    (controller.pyx 276-281, latentclass.py 715-718). *)
Definition value_in (i : nat) (n : string) (s : lcm) : option num :=
  match nth_error (parts s) i with
  | None => None
  | Some p => option_map r_value (find (fun r => String.eqb (r_name r) n) (rows (heap s (p_ref p))))
  end.
(** The names in a part's frame. (parameter_frame.pyx 105) *)
Definition names_in (i : nat) (s : lcm) : list string :=
  match nth_error (parts s) i with None => [] | Some p => map r_name (rows (heap s (p_ref p))) end.
