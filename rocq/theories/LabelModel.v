(** Model of larch/util/arraytools.py (is_sorted_and_unique, label_to_index, labels_to_unique_ids) and
    of the one-hot part of larch/util/data_expansion.py.  Labels are integers (numpy orders any
    comparable labels the same way); frames are lists of named columns. *)
From Coq Require Export ZArith List Bool String Lia.
From Verif Require Export BitsModel.
Export ListNotations.
Open Scope Z_scope.

(** numpy.digitize(v, bins, right=True) for increasing bins: how many bins are smaller. *)
Definition digitize (bins : list Z) (v : Z) : nat := length (filter (fun b => b <? v) bins).
(** is_sorted_and_unique, arraytools.py 9-11. *)
Fixpoint is_sorted_and_unique (l : list Z) : bool :=
  match l with
  | a :: (b :: _) as r => (a <? b) && is_sorted_and_unique r
  | _ => true
  end.
(** A value or the exception raised (arraytools.py 17-58). *)
Inductive result (A : Type) := Ret (a : A) | IndexError | NameError.
Arguments Ret {A} _. Arguments IndexError {A}. Arguments NameError {A}.
(** [uniq_indexes[...]], arraytools.py 58: numpy fancy indexing. *)
Fixpoint take_all (idx : list nat) (at_ : list nat) : result (list nat) :=
  match at_ with
  | [] => Ret []
  | i :: r =>
    match nth_error idx i, take_all idx r with
    | Some v, Ret l => Ret (v :: l)
    | _, _ => IndexError
    end
  end.
(** label_to_index, arraytools.py 17-58.  The exception for duplicate labels is formatted with the
    undefined name [lookupname], so a NameError is raised instead (line 56). *)
Definition label_to_index (labels : list Z) (arr : list Z) : result (list nat) :=
  match labels with
  | [] => Ret []
  | _ =>
    if is_sorted_and_unique labels then Ret (map (digitize labels) arr)
    else
      let uniq := unique labels in
      let uniq_indexes := map (digitize uniq) labels in  (* return_inverse *)
      if negb (Nat.eqb (length uniq) (length labels)) then NameError
      else take_all uniq_indexes (map (digitize uniq) arr)
  end.
(** labels_to_unique_ids, arraytools.py 62-84. *)
Definition labels_to_unique_ids (labels : list Z) (lowest : Z) : list Z * list Z :=
  let ordered := unique labels in
  (ordered, map (fun v => Z.of_nat (digitize ordered v) + lowest) labels).

(** ** One-hot columns: data_expansion.py 11-57 *)
(** _to_categorical, lines 34-45: zeros with a one at the position; to_categorical: columns are the
    distinct values.  [None]: max of an empty array raises. *)
Definition unit_row (n i : nat) : list Z := map (fun k => if Nat.eqb k i then 1 else 0) (seq 0 n).
(** to_categorical, data_expansion.py 47-57. *)
Definition to_categorical (arr : list Z) : option (list Z * list (list Z)) :=
  match arr with
  | [] => None
  | _ =>
    let codes := unique arr in
    let positions := map (digitize codes) arr in
    let num_classes := S (maxn positions) in
    Some (codes, map (unit_row num_classes) positions)
  end.
(** categorical_compression, lines 105-143, for one row: columns in order, a later one overwrites. *)
Fixpoint compress_row (codes : list Z) (row : list Z) (acc : option Z) : option Z :=
  match codes, row with
  | c :: codes, v :: row => compress_row codes row (if v =? 1 then Some c else acc)
  | _, _ => acc
  end.
(** categorical_compression, data_expansion.py 105-142: every row. *)
Definition categorical_compression (t : list Z * list (list Z)) : list (option Z) :=
  map (fun r => compress_row (fst t) r None) (snd t).

(** categorical_expansion, lines 59-101, of column [column] of a frame with [inplace=True].  A frame
    with a single column is turned into a Series whose [.columns] is then read: AttributeError, [None].
    Column names are (name, Some value) for "name==value" and are taken not to be in the frame already
    (pandas would overwrite them).  [drop] calls a method that returns a new
    frame and drops nothing. *)
Definition frame := list ((string * option Z) * list Z).
(** [df[column]], data_expansion.py 59-101. *)
Definition column_of (df : frame) (name : string) : option (list Z) :=
  match filter (fun c => match fst c with (n, None) => String.eqb n name | _ => false end) df with
  | (_, v) :: _ => Some v
  | [] => None
  end.
(** helper: columns of a table of rows (numpy). *)
Definition transpose (n : nat) (rows : list (list Z)) : list (list Z) :=
  map (fun j => map (fun r => nth j r 0) rows) (seq 0 n).
(** categorical_expansion, data_expansion.py 59-101. *)
Definition categorical_expansion_inplace (df : frame) (name : string) (drop : bool) : option frame :=
  match column_of df name with
  | None => None
  | Some v =>
    if Nat.eqb (length df) 1 then None
    else match to_categorical v with
         | None => None
         | Some (codes, rows) =>
           Some (df ++ combine (map (fun c => (name, Some c)) codes) (transpose (length codes) rows))
         end
  end.
