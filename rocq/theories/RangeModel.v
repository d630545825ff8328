(** The case ranges [start_case, stop_case, step_case] of the likelihood kernels: how many result
    rows are allocated, which cases are visited, and where the result of each case is stored.
    Source: larch/model/mnl.pyx and larch/model/latentclass.py at the pinned commit. *)
From Coq Require Export List ZArith Lia Bool.
Export ListNotations.
Open Scope Z_scope.

(** larch/model/mnl.pyx 542, larch/model/latentclass.py 171, 208, 269 and 308:
    [((stop - start) // step) + (1 if (stop - start) % step else 0)].  The operands are not negative
    where the formula is used, so C's and Python's division agree. *)
Definition n_rows (start stop step : Z) : Z :=
  (stop - start) / step + (if (stop - start) mod step =? 0 then 0 else 1).

(** larch/model/mnl.pyx 573 [prange(start_case, stop_case, step_case)] for a positive step: Cython
    computes the number of iterations as [(stop - start + step - 1) / step] (none when negative) and
    visits [start + i*step]. *)
Definition case_range (start stop step : Z) : list Z :=
  map (fun i => start + Z.of_nat i * step) (seq 0 (Z.to_nat ((stop - start + step - 1) / step))).

(** One store into a row of an array; out-of-range stores do nothing (they do not happen in range).
    larch/model/mnl.pyx 581-589. *)
Fixpoint store {A} (l : list A) (i : nat) (v : A) : list A :=
  match l, i with
  | [], _ => []
  | _ :: l, O => v :: l
  | x :: l, S i => x :: store l i v
  end.

(** larch/model/mnl.pyx 542-560, 573-589, 612-617: allocate zero rows, then for each case of the range write its row
    at [c_local = (c - start) // step]. *)
Definition persisted {A} (zero : A) (row : Z -> A) (start stop step : Z) : list A :=
  fold_left (fun arr c => store arr (Z.to_nat ((c - start) / step)) (row c))
    (case_range start stop step) (repeat zero (Z.to_nat (n_rows start stop step))).
