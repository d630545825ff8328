(** What C25-C30 say, without reference to how the code does it. *)
From Verif Require Export ParamModel.

(** Names in a frame are distinct (the index is used as a key everywhere). *)
Definition wf (f : frame) : Prop := NoDup (map r_name (rows f)).

(** Two rows agree on everything a user sets, except the current value. *)
Definition same_but_value (r r' : row) : Prop :=
  r_name r' = r_name r /\ r_init r' = r_init r /\ r_null r' = r_null r /\ r_min r' = r_min r /\
  r_max r' = r_max r /\ r_hold r' = r_hold r /\ r_best r' = r_best r.
(** Two rows agree on everything except the record of the best values. *)
Definition same_but_best (r r' : row) : Prop :=
  r_name r' = r_name r /\ r_value r' = r_value r /\ r_init r' = r_init r /\ r_null r' = r_null r /\
  r_min r' = r_min r /\ r_max r' = r_max r /\ r_hold r' = r_hold r.

(** The parameter may move: holdfast is zero. *)
Definition free (r : row) : Prop := r_hold r = Some 0%Z.

(** [l'] is [l] with the value in each selected row replaced by the entry of [vs] at its
    position, and nothing else changed. *)
Definition values_replaced (sel : row -> Prop) (vs : list num) (l l' : list row) : Prop :=
  length l' = length l /\
  forall i r, nth_error l i = Some r ->
    exists r', nth_error l' i = Some r' /\ same_but_value r r' /\
      (sel r -> Some (r_value r') = nth_error vs i) /\
      (~ sel r -> r_value r' = r_value r).

(** Everything but the frame is the same. *)
Definition frame_only (m m' : model) : Prop :=
  m_names m' = m_names m /\ m_mangled m' = m_mangled m /\ m_null_ll m' = m_null_ll m /\
  m_best_ll m' = m_best_ll m /\ m_log m' = m_log m /\ has_best (m_frame m') = has_best (m_frame m).

(** [f'] has a column of numbers [col] at the selected rows of which none is NaN. *)
Definition no_nan_at (sel : row -> Prop) (vs : list num) (l : list row) : Prop :=
  forall i r, nth_error l i = Some r -> sel r -> nth_error vs i <> Some NaN.

(** A row as a new parameter gets it. *)
Definition fresh_row (n : string) (init null mn mx : num) (r : row) : Prop :=
  r_name r = n /\ r_value r = init /\ r_init r = init /\ r_null r = null /\ r_min r = mn /\
  r_max r = mx /\ r_hold r = Some 0%Z.

(** Sorted by name. *)
Definition name_le (a b : string) : Prop := String.compare a b <> Gt.

(** A locked row. *)
Definition locked (v : num) (r : row) : Prop :=
  r_value r = v /\ r_init r = v /\ r_null r = v /\ r_min r = v /\ r_max r = v /\ r_hold r = Some 1%Z.
Definition param_locked (n : string) (v : num) (f : frame) : Prop :=
  exists r, In r (rows f) /\ r_name r = n /\ locked v r.

(** The part of the history after the last reset. *)
Fixpoint since_reset (l : list event) : list event :=
  match l with
  | Reset :: _ | [] => []
  | e :: l => e :: since_reset l
  end.
(** The [best] column holds the values [vals]. *)
Definition best_column_is (vals : list (string * num)) (f : frame) : Prop :=
  has_best f = true /\
  forall n v, In (n, v) vals -> exists r, In r (rows f) /\ r_name r = n /\ r_best r = v.
(** The record of the best is right with respect to evaluations on samples of kind [whole]. *)
Definition best_is_best (whole : sample -> Prop) (m : model) : Prop :=
  (forall s vals ll, In (Evaluated s vals ll) (since_reset (m_log m)) -> whole s ->
     ll = NaN \/ nle ll (m_best_ll m) = true) /\
  (m_best_ll m = NInf -> has_best (m_frame m) = false) /\
  (m_best_ll m <> NInf ->
     exists s vals, In (Evaluated s vals (m_best_ll m)) (since_reset (m_log m)) /\ whole s /\
                    best_column_is vals (m_frame m)).

(** A newly made model: nothing evaluated. *)
Definition fresh_model (m : model) : Prop :=
  wf (m_frame m) /\ has_best (m_frame m) = false /\ m_best_ll m = NInf /\ m_log m = [] /\
  m_null_ll m = Fin 0.

(** The frame's values with one parameter, or all free ones, replaced. *)
Definition value_set (n : string) (v : num) (vals : list (string * num)) : list (string * num) :=
  map (fun p => if String.eqb (fst p) n then (fst p, v) else p) vals.
