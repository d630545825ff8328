(** Model of the piecewise linear part of larch/util/data_expansion.py (lines 240-432).
    Numbers are exact reals (no NaN, no infinities); a bound that is [None] in Python is [None]
    here.  The texts "piece(x,b0,b1)" are kept as the pair of bounds they contain: the numbers are
    formatted and read back by Python's repr and literal_eval, which are inverse on floats. *)
From Coq Require Export Reals List Bool Lia Lra.
Export ListNotations.
Open Scope R_scope.

(** numpy.clip(x, lo, hi): first the lower bound, then the upper one. *)
Definition clip (x lo hi : R) : R := Rmin (Rmax x lo) hi.

(** A pair of optional bounds: one leg. *)
Notation leg := (option R * option R)%type.

(** piece, lines 240-273. *)
Definition piece (x : R) (l : leg) : R :=
  match l with
  | (None, None) => x
  | (None, Some hi) => Rmin x hi
  | (Some lo, None) => Rmax (x - lo) 0
  | (Some lo, Some hi) => clip x lo hi - lo
  end.

(** piecewise_linear_data_names, lines 334-348: one leg below the first break, one between each pair
    of neighbouring breaks, one above the last.  [None]: IndexError on an empty list. *)
Definition legs (breaks : list R) : option (list leg) :=
  match breaks with
  | [] => None
  | b :: _ =>
    let n := length breaks in
    Some ((None, Some b)
          :: map (fun i => (Some (nth i breaks 0), Some (nth (i + 1) breaks 0))) (seq 0 (n - 1))
          ++ [(Some (nth (n - 1) breaks 0), None)])
  end.

(** piecewise_expansion, lines 375-432: the row for one value. *)
Definition piecewise_expansion (x : R) (breaks : list R) : option (list R) :=
  match legs breaks with Some l => Some (map (piece x) l) | None => None end.

(** [sum(...)], data_expansion.py 311. *)
Definition rsum (l : list R) : R := fold_right Rplus 0 l.

(** piecewise_linear, lines 294-312, evaluated at [x]: the sum of parameter times leg.  [p i] is the
    value of the i-th parameter of piecewise_linear_parameter_names (314-332). *)
Definition piecewise_linear (p : nat -> R) (x : R) (breaks : list R) : option R :=
  match legs breaks with
  | Some l => Some (rsum (map (fun k => p (fst k) * piece x (snd k)) (combine (seq 0 (length l)) l)))
  | None => None
  end.

(** infer_breaks, lines 350-373.  A component whose data is no "piece(..)" text is [None]: the match
    object is None and using it raises.  The breaks are what literal_eval gives: a number or None. *)
Definition oreqb (a b : option R) : bool :=
  match a, b with
  | None, None => true
  | Some x, Some y => if Req_EM_T x y then true else false
  | _, _ => false
  end.
(** data_expansion.py 363-367: the components in the middle. *)
Fixpoint infer_middle (breaks : list (option R)) (l : list (option leg)) : option (list (option R)) :=
  match l with
  | [] => Some breaks
  | Some (lo, hi) :: l =>
    if oreqb (last breaks None) lo then infer_middle (breaks ++ [hi]) l else None
  | None :: _ => None
  end.
(** data_expansion.py 350-373. *)
Definition infer_breaks (l : list (option leg)) : option (list (option R)) :=
  match l with
  | Some (None, hi) :: _ =>
    match infer_middle [hi] (removelast (tl l)) with
    | Some breaks =>
      match last l None with
      | Some (lo, None) => if oreqb (last breaks None) lo then Some breaks else None
      | _ => None
      end
    | None => None
    end
  | _ => None
  end.
