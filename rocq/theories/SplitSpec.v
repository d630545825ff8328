(** Specification of splitting. *)
From Coq Require Export Sorting.Permutation.
From Verif Require Export SplitModel.
Open Scope R_scope.

(** Shares that can be asked for. *)
Definition shares_ok (splits : list R) : Prop := Forall (fun x => 0 <= x) splits /\ 0 < sum splits.
(** Case [i] is in part [s]. *)
Definition in_part (splits useq : list R) (s i : nat) : Prop := nth i (these_positions splits useq s) false = true.
(** Either the cases in order, or in some shuffled order. *)
Definition shuffled (n : nat) (useq : list R) : Prop := Permutation useq (uniform_seq n).
(** The share of part [s]. *)
Definition share (splits : list R) (s : nat) : R := nth s splits 0 / sum splits.
(** How many cases part [s] has. *)
Definition part_size (splits useq : list R) (s : nat) : nat :=
  length (filter (fun b => b) (these_positions splits useq s)).
