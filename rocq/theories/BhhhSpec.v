(** Specification of estimation, independent of the model's helpers. *)
From Verif Require Import ParamModel.
Open Scope R_scope.

(** A climb from [p]: a sequence of moves, each of which strictly improves the objective.
    [move q t] is where a step of length [t] from [q] leads. *)
Inductive ascent (ll : list R -> num) (move : list R -> R -> list R) (p : list R)
  : list R -> list R -> Prop :=
| ascent_start : ascent ll move p [] p
| ascent_step steps q t :
    ascent ll move p steps q ->
    nlt (ll q) (ll (move q t)) = true ->
    ascent ll move p (steps ++ [t]) (move q t).

(** The two vectors agree wherever [held] is set, and have the same length. *)
Definition same_held (held : list bool) (p q : list R) : Prop :=
  length p = length q /\
  forall i, nth i held false = true -> nth i p 0 = nth i q 0.

(** [q] is [p] moved along [d] by [t], except that held coordinates stay. *)
Definition moved (held : list bool) (p d : list R) (t : R) (q : list R) : Prop :=
  length q = length p /\
  forall i, (i < length p)%nat ->
    nth i q 0 = if nth i held false then nth i p 0 else nth i p 0 + t * nth i d 0.
