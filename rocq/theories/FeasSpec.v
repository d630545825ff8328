(** Specification: feasible points, in terms of the documented inequalities of ConsSpec. *)
From Verif Require Import ParamModel ConsModel ConsSpec FeasModel.
Open Scope R_scope.

Definition within_bounds (f : frame) (x : list R) : Prop :=
  forall i r, nth_error (rows f) i = Some r ->
    nle (r_min r) (Fin (nth i x 0)) = true /\ nle (Fin (nth i x 0)) (r_max r) = true.
Definition constraints_hold (f : frame) (cs : list cons) (x : list R) : Prop :=
  forall c, In c cs -> holds (c_spec c) (value_of (names (rows f)) x).
Definition feasible (f : frame) (cs : list cons) (x : list R) : Prop :=
  within_bounds f x /\ constraints_hold f cs x.

(** The values in the frame, when they are finite. *)
Definition has_values (f : frame) (x : list R) : Prop := map r_value (rows f) = map Fin x.
Definition numeric_bounds (f : frame) : Prop :=
  Forall (fun r => r_min r <> NaN /\ r_max r <> NaN) (rows f).
(** Every constraint is linked to the frame as it stands, with a positive scale, and its
    inequality means something at [x] (positive ratios, denominators on their declared side). *)
Definition linked_to (f : frame) (c : cons) : Prop :=
  exists sc c0, link_model f sc c0 = Some c /\ c_spec c = c_spec c0 /\ 0 < c_scale c.
Definition ready (f : frame) (cs : list cons) (x : list R) : Prop :=
  length x = length (rows f) /\
  forall c, In c cs -> linked_to f c /\ meaningful f (c_spec c) (value_of (names (rows f)) x).
(** A constraint on two parameters names two different ones. *)
Definition two_names (c : cons) : Prop :=
  match c_spec c with Ratio a b _ _ | Order a b => a <> b | Fixed _ _ _ => True end.

(** What scipy's optimizer accepts as feasible for the problem it was given. *)
Definition admits (p : problem) (x : list R) : Prop :=
  match pb_bounds p with
  | None => True
  | Some bs => forall i lo hi, nth_error bs i = Some (lo, hi) ->
      nle lo (Fin (nth i x 0)) = true /\ nle (Fin (nth i x 0)) hi = true
  end /\
  match pb_cons p with
  | NoConstraints => True
  | Functions l => forall c, In c l -> nonneg (cfun c x)
  | Linear rs => satisfies rs x
  end.
