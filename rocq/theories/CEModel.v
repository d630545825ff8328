(** Model of the sparse (idce) data functions: larch/numba/data_arrays.py 577-607
    ([ce_to_dense], [ce_bool_to_dense]), larch/dataset/flow.py 12-57 and 410-425
    ([case_ptr_to_indexes], [ce_dissolve_zero_variance], dense branch of
    [dissolve_zero_variance]) and the pointer part of [Dataset.from_idce]
    (larch/dataset/construct.py 266-287).
    Arrays are lists (inputs) or functions (outputs); an access outside an array (undefined
    behaviour in compiled numba) makes the model return [None]. *)
From Coq Require Export List Arith Lia Bool.
Export ListNotations.

(** [out[c, a] = v] on a two dimensional array (data_arrays.py 591, 606). *)
Definition set2 {A} (out : nat -> nat -> A) (c a : nat) (v : A) : nat -> nat -> A :=
  fun i j => if (i =? c) && (j =? a) then v else out i j.

(** data_arrays.py 579-583, 595-599, flow.py 38-42: the end pointer of each case, from
    pointers in one dimension ([ptr[1:]]) or in two ([ptr[:,-1]], as made by
    [to_arrays], flow.py 558-561: windows of two consecutive pointers). *)
Definition ends_1d (ptrs : list nat) : list nat := tl ptrs.
(** flow.py 558-561: [sliding_window] pairs of consecutive pointers. *)
Definition windows (ptrs : list nat) : list (nat * nat) := combine ptrs (tl ptrs).
(** data_arrays.py 579-581, 595-597: [ptr[:,-1]]. *)
Definition ends_2d (w : list (nat * nat)) : list nat := map snd w.

(** data_arrays.py 587-591: one row of [ce_to_dense]. *)
Definition dense_step {A} (ends : list nat) (n_alts : nat) (altidx : list nat) (data : list A)
    (s : option (nat * (nat -> nat -> A))) (row : nat) : option (nat * (nat -> nat -> A)) :=
  match s with
  | None => None
  | Some (c, out) =>
    match nth_error ends c with
    | None => None
    | Some e =>
      let c := if row =? e then S c else c in
      match nth_error altidx row, nth_error data row with
      | Some a, Some v => if (c <? length ends) && (a <? n_alts) then Some (c, set2 out c a v) else None
      | _, _ => None
      end
    end
  end.
(** data_arrays.py 578-592 [ce_to_dense]; [zero] is the dtype's zero. *)
Definition ce_to_dense {A} (zero : A) (ends : list nat) (n_alts : nat) (altidx : list nat) (data : list A)
  : option (nat -> nat -> A) :=
  match fold_left (dense_step ends n_alts altidx data) (seq 0 (length data)) (Some (0, fun _ _ => zero)) with
  | Some (_, out) => Some out
  | None => None
  end.
(** data_arrays.py 594-607 [ce_bool_to_dense]: the same loop writing 1. *)
Definition bool_step (ends : list nat) (n_alts : nat) (altidx : list nat)
    (s : option (nat * (nat -> nat -> nat))) (row : nat) : option (nat * (nat -> nat -> nat)) :=
  match s with
  | None => None
  | Some (c, out) =>
    match nth_error ends c with
    | None => None
    | Some e =>
      let c := if row =? e then S c else c in
      match nth_error altidx row with
      | Some a => if (c <? length ends) && (a <? n_alts) then Some (c, set2 out c a 1) else None
      | _ => None
      end
    end
  end.
(** data_arrays.py 594-607. *)
Definition ce_bool_to_dense (ends : list nat) (n_alts : nat) (altidx : list nat) : option (nat -> nat -> nat) :=
  match fold_left (bool_step ends n_alts altidx) (seq 0 (length altidx)) (Some (0, fun _ _ => 0)) with
  | Some (_, out) => Some out
  | None => None
  end.

(** flow.py 13-18 [case_ptr_to_indexes]: slice assignment per case. *)
Definition ptr_step (ptrs : list nat) (idx : nat -> nat) (c : nat) : nat -> nat :=
  fun r => if (nth c ptrs 0 <=? r) && (r <? nth (S c) ptrs 0) then c else idx r.
(** flow.py 13-18. *)
Definition case_ptr_to_indexes (n_casealts : nat) (ptrs : list nat) : list nat :=
  map (fold_left (ptr_step ptrs) (seq 0 (length ptrs - 1)) (fun _ => 0)) (seq 0 n_casealts).

(** flow.py 22-57 [ce_dissolve_zero_variance]: result [Some (Some out)] when the flag is 0,
    [Some None] when variance was found, [None] for an access outside an array.  [same x y]
    is the negation of Python's [x != y] (false on NaN). *)
Definition dissolve_step {A} (same : A -> A -> bool) (ends : list nat) (data : list A)
    (s : option (option (nat * (nat -> A)))) (row : nat) : option (option (nat * (nat -> A))) :=
  match s with
  | None => None
  | Some None => Some None                      (* after the break *)
  | Some (Some (c, out)) =>
    match nth_error ends c, nth_error data row with
    | Some e, Some v =>
      if row =? e then
        if S c <? length ends then Some (Some (S c, fun i => if i =? S c then v else out i)) else None
      else if same (out c) v then s else Some None
    | _, _ => None
    end
  end.
(** flow.py 22-57. *)
Definition ce_dissolve_zero_variance {A} (same : A -> A -> bool) (zero : A) (ends : list nat) (data : list A)
  : option (option (nat -> A)) :=
  match data, ends with
  | v0 :: _, _ :: _ =>
    match fold_left (dissolve_step same ends data) (seq 0 (length data))
            (Some (Some (0, fun i => if i =? 0 then v0 else zero))) with
    | Some (Some (_, out)) => Some (Some out)
    | Some None => Some None
    | None => None
    end
  | _, _ => None
  end.

(** construct.py 279-282: [np.where(np.diff(codes, prepend=nan, append=nan))[0]]: the first
    and last difference is NaN, which counts as non-zero. *)
Definition idce_pointers (codes : list nat) : list nat :=
  filter (fun i => (i =? 0) || (i =? length codes) || negb (nth i codes 0 =? nth (i - 1) codes 0))
         (seq 0 (S (length codes))).
