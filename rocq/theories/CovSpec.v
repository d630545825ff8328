(** Specification: quadratic forms. *)
From Verif Require Import ParamModel ConsModel CovModel.
Open Scope R_scope.

(** Covariance of the combinations [u] and [v] of parameters under the covariance matrix [s]. *)
Definition cov (n : nat) (s : matrix) (u v : nat -> R) : R :=
  sumn n (fun i => sumn n (fun j => u i * s i j * v j)).
Definition variance (n : nat) (s : matrix) (u : nat -> R) : R := cov n s u u.
Definition symmetric (n : nat) (s : matrix) : Prop :=
  forall i j, (i < n)%nat -> (j < n)%nat -> s i j = s j i.
Definition psd (n : nat) (s : matrix) : Prop := forall u, 0 <= variance n s u.
(** The combination consisting of one parameter. *)
Definition one (i : nat) : nat -> R := fun k => if Nat.eqb k i then 1 else 0.
(** The positions of the free parameters, in order. *)
Definition free_positions (hold : nat -> bool) (n : nat) : list nat :=
  filter (fun i => negb (hold i)) (seq 0 n).
(** [m'] is the (right) inverse of the d x d matrix [m]. *)
Definition is_inverse (d : nat) (m m' : matrix) : Prop :=
  forall a b, (a < d)%nat -> (b < d)%nat ->
  sumn d (fun k => m a k * m' k b) = if Nat.eqb a b then 1 else 0.
(** A library routine that finds inverses when there is one. *)
Definition inverts (inverse : nat -> matrix -> matrix) : Prop :=
  forall d m, (exists m', is_inverse d m m') -> is_inverse d m (inverse d m).
(** The rows and columns of the free parameters. *)
Definition block (hold : nat -> bool) (n : nat) (m : matrix) : matrix :=
  fun a b => m (nth a (free_positions hold n) 0%nat) (nth b (free_positions hold n) 0%nat).
Definition invertible_block (hold : nat -> bool) (n : nat) (m : matrix) : Prop :=
  exists m', is_inverse (length (free_positions hold n)) (block hold n m) m'.
