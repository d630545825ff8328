(** Model of labelling sections of a variable: [periodize] (larch/util/data_manipulation.py 26-134).
    Simplifications: labels and the default are texts (or None for the default); bounds are reals or None; values are one-dimensional;
    the index and the categories of a Series are left out. *)
From Coq Require Export String Reals List.
From Verif Require Export ParamModel.
Export ListNotations.
Open Scope string_scope.
Open Scope list_scope.

(** A label with its bounds (data_manipulation.py 125-129). *)
Definition section := (string * (option R * option R))%type.
(** The argument [mapping] (data_manipulation.py 98-102): None, a dict, or the caller's own list. *)
Inductive mapping_arg := NoMapping | DictMapping (l : list section) | ListMapping (l : list section).
(** The list worked on (data_manipulation.py 98-104), and the caller's argument afterwards: a list is extended in place (104). *)
Definition sections_of (m : mapping_arg) (kwargs : list section) : list section * mapping_arg :=
  match m with
  | NoMapping => (kwargs, NoMapping)
  | DictMapping l => (l ++ kwargs, DictMapping l)
  | ListMapping l => (l ++ kwargs, ListMapping (l ++ kwargs))
  end.
(** -numpy.inf for a missing lower bound (data_manipulation.py 126-127). *)
Definition lower (b : option R) : num := match b with Some x => Fin x | None => NInf end.
(** numpy.inf for a missing upper bound (data_manipulation.py 128-129). *)
Definition upper (b : option R) : num := match b with Some x => Fin x | None => PInf end.
(** lop, operator.ge or gt (data_manipulation.py 116-119). *)
Definition lop (left : bool) (v b : num) : bool := if left then nle b v else nlt b v.
(** rop, operator.le or lt (data_manipulation.py 111-114). *)
Definition rop (right : bool) (v b : num) : bool := if right then nle v b else nlt v b.
(** The mask of one section (data_manipulation.py 130). *)
Definition mask (left right : bool) (s : section) (v : num) : bool :=
  lop left v (lower (fst (snd s))) && rop right v (upper (snd (snd s))).
(** Series or numpy array (data_manipulation.py 106-109). *)
Inductive container := Series | Array.
(** helper: the width of a numpy array of texts filled with the default (data_manipulation.py 109); [None]: any text fits. *)
Definition width (c : container) (default : option string) : option nat :=
  match c, default with Array, Some d => Some (Nat.max 1 (String.length d)) | _, _ => None end.
(** helper: a text as such an array keeps it (data_manipulation.py 130). *)
Definition kept (w : option nat) (s : string) : string := match w with Some n => substring 0 n s | None => s end.
(** x[...] = k (data_manipulation.py 130), for every value [v] and its label so far. *)
Definition label_section (w : option nat) (left right : bool) (values : list num) (x : list (option string)) (s : section) : list (option string) :=
  map (fun vx => if mask left right s (fst vx) then Some (kept w (fst s)) else snd vx) (combine values x).
(** periodize (data_manipulation.py 26-134), with the caller's mapping afterwards. *)
Definition periodize (c : container) (values : list num) (m : mapping_arg) (default : option string) (right left : bool) (kwargs : list section)
  : list (option string) * mapping_arg :=
  let (l, m') := sections_of m kwargs in
  (fold_left (label_section (width c default) left right values) l (map (fun _ => default) values), m').
