(** Specification for constraints: the inequality a constraint documents, at named values. *)
From Verif Require Import ParamModel ConsModel.
Open Scope R_scope.

Definition at_least (v : R) (b : option num) : Prop :=
  match b with None => True | Some m => nle m (Fin v) = true end.
Definition at_most (v : R) (b : option num) : Prop :=
  match b with None => True | Some m => nle (Fin v) m = true end.
Definition ratio_ok (v : R) (lo hi : option R) : Prop :=
  (forall r, lo = Some r -> r <= v) /\ (forall r, hi = Some r -> v <= r).

(** [val n]: the value of the parameter named [n]. *)
Definition holds (s : cspec) (val : string -> R) : Prop :=
  match s with
  | Ratio a b lo hi => ratio_ok (val a / val b) lo hi
  | Order a b => val a <= val b
  | Fixed a lo hi => at_least (val a) lo /\ at_most (val a) hi
  end.

(** The value a vector [x], aligned with the frame, gives to a name. *)
Fixpoint value_of (ns : list string) (x : list R) (n : string) : R :=
  match ns, x with
  | m :: ns, v :: x => if String.eqb n m then v else value_of ns x n
  | _, _ => 0
  end.

(** A point satisfies rows of linear constraints. *)
Fixpoint ip (a b : list R) : R :=
  match a, b with x :: a, y :: b => x * y + ip a b | _, _ => 0 end.
Definition satisfies (rs : list (list R * num * num)) (x : list R) : Prop :=
  Forall (fun r => let '(a, lo, hi) := r in
    nle lo (Fin (ip a x)) = true /\ nle (Fin (ip a x)) hi = true) rs.
Definition nonneg (a : num) : Prop := nle (Fin 0) a = true.
(** [x + t v]. *)
Fixpoint shift (x v : list R) (t : R) : list R :=
  match x, v with a :: x, b :: v => (a + t * b) :: shift x v t | _, _ => [] end.

(** The denominator of a ratio is on the side of zero that its bounds in the frame say. *)
Definition den_ok (f : frame) (den : string) (d : R) : Prop :=
  (nle (Fin 0) (bound_of r_min den f) = true -> 0 < d) /\
  (nle (Fin 0) (bound_of r_min den f) = false -> d < 0).
(** When the documented inequality is meaningful: ratios positive, the denominator not zero and on
    its declared side, bounds not NaN. *)
Definition meaningful (f : frame) (s : cspec) (val : string -> R) : Prop :=
  match s with
  | Ratio _ b lo hi => (forall r, lo = Some r -> 0 < r) /\ (forall r, hi = Some r -> 0 < r) /\ den_ok f b (val b)
  | Order _ _ => True
  | Fixed _ lo hi => lo <> Some NaN /\ hi <> Some NaN
  end.

(** A constraint whose bounds are numbers. *)
Definition numeric (s : cspec) : Prop :=
  match s with Fixed _ lo hi => lo <> Some NaN /\ hi <> Some NaN | _ => True end.
(** What the list says: the constraints in order, without their links. *)
Definition says (l : clist) : list cspec := map c_spec (cx l).
Definition op_numeric (o : cop) : Prop :=
  match o with OInsert _ v | OAppend v | OSet _ v => numeric (c_spec v) | _ => True end.
