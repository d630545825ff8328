(** Specification: standard errors, t statistics and notes. *)
From Verif Require Import ParamModel ConsModel CovModel StatModel.
Open Scope R_scope.

(** The square root of a variance; not a number when the variance is negative. *)
Definition standard_error (variance : R) (v : num) : Prop :=
  (0 <= variance -> v = Fin (sqrt variance)) /\ (variance < 0 -> v = NaN).
(** (value - null value) / standard error; infinite, by its sign, for standard error zero. *)
Definition t_statistic (value null : R) (se t : num) : Prop :=
  match se with
  | Fin s => (s <> 0 -> t = Fin ((value - null) / s)) /\ (s = 0 -> null < value -> t = PInf) /\
             (s = 0 -> value < null -> t = NInf) /\ (s = 0 -> value = null -> t = NaN)
  | _ => t = NaN
  end.
(** Larger than 100000 in absolute value, and with which sign. *)
Definition huge_pos (t : num) : Prop := match t with PInf => True | Fin a => 100000 < a | _ => False end.
Definition huge_neg (t : num) : Prop := match t with NInf => True | Fin a => a < -100000 | _ => False end.
(** What is shown of a parameter that a binding constraint mentions: a huge t statistic is shown as
    infinite, without a standard error. *)
Definition shown (se t se' t' : num) : Prop :=
  (huge_pos t -> se' = NaN /\ t' = PInf) /\ (huge_neg t -> se' = NaN /\ t' = NInf) /\
  (~ huge_pos t -> ~ huge_neg t -> se' = se /\ t' = t).
(** The parameters a constraint speaks of: both sides of a ratio or an order, the one with a bound. *)
Inductive speaks_of : cspec -> string -> Prop :=
| of_numerator a b mn mx : speaks_of (Ratio a b mn mx) a
| of_denominator a b mn mx : speaks_of (Ratio a b mn mx) b
| of_smaller a b : speaks_of (Order a b) a
| of_larger a b : speaks_of (Order a b) b
| of_bounded q mn mx : speaks_of (Fixed q mn mx) q.
(** Is the parameter mentioned by a constraint that binds? *)
Definition mentioned (cs : list cons) (x : list R) (p : string) : Prop :=
  exists c, In c cs /\ is_binding c x = true /\ speaks_of (c_spec c) p.
(** The note says something that is true at the values [v], as an equality up to [e]. *)
Definition nearly (n : note) (v : string -> R) (e : R) : Prop :=
  match n with
  | AtLeast p (Some (Fin m)) | AtMost p (Some (Fin m)) => Rabs (v p - m) < e
  | AtMostOther a b => Rabs (v b - v a) < e
  | RatioAtLeast a b (Some m) | RatioAtMost a b (Some m) => Rabs (v a - m * v b) * Rmax m (1 / m) < e
  | _ => False
  end.
(** A ratio with both bounds, and bounds that are numbers. *)
Definition plain_bounds (s : cspec) : Prop :=
  match s with
  | Ratio _ _ mn mx => (exists m, mn = Some m /\ 0 < m) /\ (exists m, mx = Some m /\ 0 < m)
  | Order _ _ => True
  | Fixed _ mn mx => mn <> Some NaN /\ mx <> Some NaN
  end.
