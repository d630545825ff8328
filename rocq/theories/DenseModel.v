(** Model of the dense branch of [dissolve_zero_variance] (larch/dataset/flow.py 413-420):
    a variable with one value per case and alternative is replaced by its minimum over the
    alternatives when the largest standard deviation (over cases) is below 1e-10.
    Exact reals; missing values and empty alternative lists are not modelled. *)
From Verif Require Export LogitSpec.

(** numpy mean (flow.py 415). *)
Definition mean (l : list R) : R := Rsum (fun x => x) l / INR (length l).
(** xarray's [std] (population form). *)
(** xarray [std] over the alternatives (flow.py 415). *)
Definition std (l : list R) : R := sqrt (mean (map (fun x => (x - mean l) ^ 2) l)).
(** [.max()] of the standard deviations, which are not negative (flow.py 415). *)
Definition Rlist_max (l : list R) : R := fold_right Rmax 0 l.
(** [.min(dim)] over the alternatives (flow.py 416-420). *)
Definition Rlist_min (l : list R) : R := match l with [] => 0 | x :: r => fold_right Rmin x r end.
(** flow.py 415-420. *)
Definition dissolve_dense (rows : list (list R)) : option (list R) :=
  if Rlt_dec (Rlist_max (map std rows)) (/ 10 ^ 10) then Some (map Rlist_min rows) else None.
