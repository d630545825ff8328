(** Specification of the weight operations. *)
From Verif Require Import WtModel.
Open Scope R_scope.

(** One row of choices and one weight for each case (or no choices, or no weights). *)
Definition well_formed (d : dfs) : Prop :=
  (d_ch d = [] \/ length (d_ch d) = d_n d) /\
  match d_wt d with None => True | Some wt => length wt = d_n d end.
(** A case whose choices total zero has no choices. *)
Definition zero_is_none (d : dfs) : Prop :=
  forall r, In r (d_ch d) -> sum r = 0 -> Forall (fun x => x = 0) r.
(** How much alternative [a] of case [c] counts: choice times weight times normalization. *)
Definition mass (d : dfs) (c a : nat) : option R :=
  option_map (fun w => choice d c a * w * d_norm d) (case_weight d c).
(** The choices of each case total zero or one (to within 1e-8). *)
Definition totals_normal (d : dfs) : Prop :=
  forall r, In r (d_ch d) -> sum r = 0 \/ lo <= sum r <= hi.
(** Average of the weights that are not NaN, over all cases. *)
Definition mean_weight (d : dfs) : R := match d_wt d with None => 1 | Some wt => osum wt / INR (d_n d) end.
