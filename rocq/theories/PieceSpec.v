(** Specification of piecewise linear expansion. *)
From Verif Require Import PieceModel.
Open Scope R_scope.

(** The breaks do not decrease. *)
Definition increasing (breaks : list R) : Prop :=
  forall i j, (i <= j)%nat -> (j < length breaks)%nat -> nth i breaks 0 <= nth j breaks 0.
(** [x] lies in the [k]-th segment: above break number k-1 (if any), below break number k (if any). *)
Definition in_segment (breaks : list R) (k : nat) (x : R) : Prop :=
  (k <= length breaks)%nat /\
  (forall i, (i < k)%nat -> nth i breaks 0 <= x) /\
  (forall i, (k <= i < length breaks)%nat -> x <= nth i breaks 0).
(** The largest value a leg can take. *)
Definition full (l : leg) (v : R) : Prop :=
  match l with
  | (None, Some hi) => v = hi
  | (Some lo, Some hi) => v = hi - lo
  | _ => False
  end.
