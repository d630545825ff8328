(** Model of what [calculate_parameter_covariance] writes into the parameter frame: standard errors,
    t statistics, their robust and unconstrained versions and the notes on binding constraints and
    held parameters (larch/model/abstract_model.pyx 1113-1227), and [get_binding_note],
    [get_parameters] (larch/model/constraints.py 121-128, 251-255, 360-367).

    Arithmetic is exact, a zero standard error is positive zero.  The matrices are those of CovModel.
    The warnings about negative variances and over-specification are not modelled. Constraints are
    taken to be linked to the frame, so that the names they mention are rows of it. *)
From Verif Require Import ParamModel ConsModel CovModel FeasModel.
Open Scope R_scope.

(** [np.sqrt] (abstract_model.pyx 1138, 1164, 1200): NaN for a negative number. *)
Definition nsqrt (d : R) : num := if Rlt_dec d 0 then NaN else Fin (sqrt d).
(** numpy division (abstract_model.pyx 1139, 1165, 1201). *)
Definition ndiv (a b : num) : num :=
  match a, b with
  | NaN, _ | _, NaN => NaN
  | Fin x, Fin y => if Req_EM_T y 0 then (if Rlt_dec 0 x then PInf else if Rlt_dec x 0 then NInf else NaN) else Fin (x / y)
  | Fin _, _ => Fin 0
  | PInf, Fin y => if Rlt_dec y 0 then NInf else PInf
  | NInf, Fin y => if Rlt_dec y 0 then PInf else NInf
  | _, _ => NaN
  end.
(** [(self.pf['value'] - self.pf['nullvalue']) / se] (abstract_model.pyx 1139, 1165, 1201). *)
Definition t_of (r : row) (se : num) : num := ndiv (nsub (r_value r) (r_null r)) se.

(** The texts of [get_binding_note] (constraints.py 124-128, 254-255, 363-367). *)
Inductive note :=
| RatioAtLeast (a b : string) (m : option R) | RatioAtMost (a b : string) (m : option R)
| AtMostOther (a b : string)
| AtLeast (p : string) (m : option num) | AtMost (p : string) (m : option num).
(** constraints.py 121-128, 251-255, 360-367 [get_binding_note]. *)
Definition binding_note (c : cons) (x : list R) : note :=
  match c_spec c with
  | Ratio a b mn mx => if note_minimum c x then RatioAtLeast a b mn else RatioAtMost a b mx
  | Order a b => AtMostOther a b
  | Fixed p mn mx => if note_minimum c x then AtLeast p mn else AtMost p mx
  end.
(** constraints.py 121-122, 251-252, 360-361 [get_parameters]. *)
Definition parameters_of (c : cons) : list string :=
  match c_spec c with Ratio a b _ _ => [a; b] | Order a b => [a; b] | Fixed p _ _ => [p] end.

(** A cell of the 'constrained' column (abstract_model.pyx 1218-1220): the notes, one per line (none: the
    empty text), 'fixed value', or no text (no such column, or a row added later). *)
Inductive cell := Blank | Notes (l : list note) | FixedValue.
(** The statistics columns of a row (abstract_model.pyx 1138-1139, 1164-1165, 1187-1188, 1218);
    the unconstrained ones are missing while there is no such column. *)
Record stat := mkStat { s_se : num; s_t : num; s_rse : num; s_rt : num; s_unc : option (num * num); s_note : cell }.
(** The frame with its statistics (abstract_model.pyx 1138-1222). *)
Definition table := list (row * stat).
(** Assigning a column: position by position (abstract_model.pyx 1138). *)
Fixpoint by_row (f : nat -> row -> stat -> stat) (i : nat) (t : table) : table :=
  match t with [] => [] | (r, o) :: t => (r, f i r o) :: by_row f (S i) t end.

(** abstract_model.pyx 1138-1139, 1164-1165. *)
Definition plain (s rob : matrix) (i : nat) (r : row) (o : stat) : stat :=
  let se := nsqrt (s i i) in let rse := nsqrt (rob i i) in
  mkStat se (t_of r se) rse (t_of r rse) (s_unc o) (s_note o).
(** abstract_model.pyx 1187-1188, 1200-1201. *)
Definition constrained (s' : matrix) (i : nat) (r : row) (o : stat) : stat :=
  let se := nsqrt (s' i i) in mkStat se (t_of r se) (s_rse o) (s_rt o) (Some (s_se o, s_t o)) (s_note o).
(** abstract_model.pyx 1208-1213: t statistics beyond 100000 are taken to be infinite. *)
Definition clip (o : stat) : stat :=
  let o := if nlt (Fin 100000) (s_t o) then mkStat NaN PInf (s_rse o) (s_rt o) (s_unc o) (s_note o) else o in
  if nlt (s_t o) (Fin (-100000)) then mkStat NaN NInf (s_rse o) (s_rt o) (s_unc o) (s_note o) else o.
(** abstract_model.pyx 1206-1213: [self.pf.loc[p, ...]]. *)
Definition clip_at (p : string) (t : table) : table :=
  map (fun q => if String.eqb (r_name (fst q)) p then (fst q, clip (snd q)) else q) t.
(** abstract_model.pyx 1204-1217: the notes of one parameter, in the order of the constraints. *)
Definition notes_of (cs : list cons) (x : list R) (p : string) : list note :=
  flat_map (fun c => map (fun _ => binding_note c x) (filter (String.eqb p) (parameters_of c))) (binding cs x).
(** abstract_model.pyx 1203-1222. *)
Definition with_notes (cs : list cons) (x : list R) (t : table) : table :=
  by_row (fun _ r o =>
      if is_free r then mkStat (s_se o) (s_t o) (s_rse o) (s_rt o) (s_unc o) (Notes (notes_of cs x (r_name r)))
      else mkStat NaN NaN (s_rse o) (s_rt o) (s_unc o) FixedValue) 0
    (fold_left (fun t c => fold_left (fun t p => clip_at p t) (parameters_of c) t) (binding cs x) t).

(** The rows as a frame, for CovModel (abstract_model.pyx 1081-1090). *)
Definition frame_of (t : table) : frame := mkFrame (map fst t) false.
(** abstract_model.pyx 1080-1222: [hess] is minus the second derivative, [bhhh] is None when the model
    does not implement it (1103-1104). *)
Definition report (inverse : nat -> matrix -> matrix) (cl : list cons) (hess : matrix) (bhhh : option matrix)
    (t : table) : table :=
  let f := frame_of t in let n := length t in let x := pvals f in
  let s := covariance inverse (held f) n hess in
  let rob := match bhhh with Some b => robust_covariance inverse (held f) n hess b | None => fun _ _ => 0 end in
  let t1 := by_row (plain s rob) 0 t in
  let cs := all_constraints cl f in
  match cs with
  | [] => t1
  | _ =>
    let t2 := by_row (constrained (constrained_covariance n cs x s)) 0 t1 in
    if negb (match binding cs x with [] => true | _ => false end) || existsb (fun q => negb (is_free (fst q))) t
    then with_notes cs x t2 else t2
  end.
(** abstract_model.pyx 1224-1227: the parameters whose likelihood ratio is then computed. *)
Definition nonfinite (v : num) : bool := match v with Fin _ => false | _ => true end.
(** abstract_model.pyx 1224-1227: [self.pf.index[non_finite_t]]. *)
Definition ratio_names (t : table) : list string :=
  map (fun q => r_name (fst q)) (filter (fun q => nonfinite (s_t (snd q))) t).
