(** Model of the feasibility check of a model and of what the optimizers are told about its bounds and
    constraints: numba/model.py 1243-1298 [constraint_violation], model/model.py 802-813
    [_get_constraints], 842-911 (in CovModel), model/parameter_frame.pyx 217-225 [pbounds],
    model/optimization.py 301-330, numba/optimization.py 104-171.
    Parameter values are finite numbers, as in ConsModel; bounds may be infinite, missing or NaN. *)
From Verif Require Import ParamModel ConsModel CovModel.
From Verif Require BhhhModel.
Open Scope R_scope.
Open Scope string_scope.

(** [self.pvals] (parameter_frame.pyx 207-215). Simplification: a value that is not a finite number
    reads as 0 here; the theorems about them assume there is none. *)
Definition pvals (f : frame) : list R :=
  map (fun r => match r_value r with Fin v => v | _ => 0 end) (rows f).

(** The messages (numba/model.py 1275-1278, 1285-1288, 1294): the parameter over its maximum or
    under its minimum, with both numbers, or the constraint. *)
Inductive violation :=
| VOver (p : string) (value maximum : num)
| VUnder (p : string) (value minimum : num)
| VCons (s : cspec).
(** How the check ends: it returns a message (the empty string is [None]) or raises ValueError
    (numba/model.py 1279-1281). *)
Inductive check := Said (v : option violation) | RaisedError (v : violation).

(** numba/model.py 1272, 1282: [value > maximum], [value < minimum] for one parameter. *)
Definition is_over (r : row) : bool := nlt (r_max r) (r_value r).
(** numba/model.py 1282. *)
Definition is_under (r : row) : bool := nlt (r_value r) (r_min r).
(** numba/model.py 1292-1293: [c.fun(self.pvals) < 0]. *)
Definition is_broken (x : list R) (c : cons) : bool := nlt (cfun c x) (Fin 0).
(** numba/model.py 1269-1297: the first violation, if any. *)
Definition first_violation (f : frame) (cs : list cons) : option violation :=
  match find is_over (rows f) with
  | Some r => Some (VOver (r_name r) (r_value r) (r_max r))
  | None =>
    match find is_under (rows f) with
    | Some r => Some (VUnder (r_name r) (r_value r) (r_min r))
    | None =>
      match find (is_broken (pvals f)) cs with
      | Some c => Some (VCons (c_spec c))
      | None => None
      end
    end
  end.
(** numba/model.py 1243-1298 [constraint_violation]. *)
Definition constraint_violation (on_violation : string) (intensity_check : bool) (intensity : R)
    (f : frame) (cs : list cons) : check :=
  if intensity_check && Reqb intensity 0 then Said None
  else match first_violation f cs with
       | None => Said None
       | Some v => if String.eqb on_violation "raise" then RaisedError v else Said (Some v)
       end.

(** Does [needle] occur in [text]: Python's [in] on strings, which is what [in ('trust-constr')] is, as
    the parentheses make no tuple (model.py 808). *)
Fixpoint occurs (needle text : string) : bool :=
  String.prefix needle text || match text with EmptyString => false | String _ t => occurs needle t end.
(** What [minimize] is given besides the objective (optimization.py 303-328): bounds or None, and
    constraints as functions (constraints.py 36-37) or as rows of a linear system. *)
Inductive solver_constraints := NoConstraints | Functions (l : list cons) | Linear (l : list (list R * num * num)).
(** Arguments [bounds] and [constraints] of minimize (optimization.py 319-328). *)
Record problem := mkProb { pb_bounds : option (list (num * num)); pb_cons : solver_constraints }.
(** optimization.py 305-306: the methods that are given bounds. *)
Definition bounded_method (m : string) : bool :=
  existsb (String.eqb (BhhhModel.lower m)) ["slsqp"; "l-bfgs-b"; "tnc"; "trust-constr"].
(** model.py 802-813 [_get_constraints], for constraints that are linked to the model. *)
Definition get_constraints (m : string) (cs : list cons) : solver_constraints :=
  let m := BhhhModel.lower m in
  if String.eqb m "slsqp" || String.eqb m "cobyla" then Functions cs
  else if occurs m "trust-constr" then Linear (flat_map linear_form cs)
  else NoConstraints.
(** optimization.py 303-328 and parameter_frame.pyx 217-225. *)
Definition scipy_problem (m : string) (f : frame) (cs : list cons) : problem :=
  mkProb (if bounded_method m then Some (map (fun r => (r_min r, r_max r)) (rows f)) else None)
         (get_constraints m cs).

(** [model.set_values] of a vector inside the numba optimizer, then the check: numba/optimization.py
    107 and 143 ask [constraint_violation] about the current values. *)
Definition with_values (f : frame) (x : list R) : frame :=
  mkFrame (map (fun rv => with_value (Fin (snd rv)) (fst rv)) (combine (rows f) x)) (has_best f).
(** The yes/no answer as the numba optimizer uses it (numba/optimization.py 110, 143). *)
Definition violated_at (f : frame) (cs : list cons) (x : list R) : bool :=
  match first_violation (with_values f x) cs with Some _ => true | None => false end.
