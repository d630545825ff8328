(** What the latent class properties say, without reference to how the code computes. *)
From Coq Require Export Reals List ZArith.
From Verif Require Export LogitSpec.
Export ListNotations.
Open Scope R_scope.

(** Classes are numbered from 1. *)
Definition classes_numbered (keys : list Z) : Prop :=
  NoDup keys /\ forall k, In k keys -> (1 <= k <= Z.of_nat (length keys))%Z.
(** Share of class [k] in case [c]: its entry in the membership probabilities. *)
Definition share (pm : Z -> list R) (k c : Z) : R := nth (Z.to_nat (k - 1)) (pm c) 0.
(** Probability of alternative [a] in case [c]: the share-weighted sum over the classes. *)
Definition mixture (keys : list Z) (pk : Z -> Z -> list R) (pm : Z -> list R) (c : Z) (a : nat) : R :=
  Rsum (fun k => share pm k c * nth a (pk k c) 0) keys.
(** A range of cases that lies inside the data. *)
Definition valid_range (n start stop step : Z) : Prop :=
  (0 <= start < n)%Z /\ (start <= stop <= n)%Z /\ (0 < step)%Z.
(** [N] is the number of cases start, start+step, ... below stop. *)
Definition range_count (start stop step : Z) (N : nat) : Prop :=
  forall i, (i < N)%nat <-> (start + Z.of_nat i * step < stop)%Z.

(** Sum of the weighted log probabilities of what was chosen. *)
Definition log_likelihood (N n_alts : nat) (P ch : nat -> nat -> R) (wt : nat -> R) : R :=
  Rsum (fun i => wt i * Rsum (fun a => ch i a * ln (P i a)) (seq 0 n_alts)) (seq 0 N).
(** Its gradient, when the derivative of [P i a] in parameter [v] is [dP i a v]. *)
Definition gradient (N n_alts : nat) (P : nat -> nat -> R) (dP : nat -> nat -> nat -> R)
    (ch : nat -> nat -> R) (wt : nat -> R) (v : nat) : R :=
  Rsum (fun i => Rsum (fun a => wt i * ch i a * (dP i a v / P i a)) (seq 0 n_alts)) (seq 0 N).
(** The weighted sum, over cases and chosen alternatives, of the outer product of the gradient of
    the log probability. *)
Definition outer_products (N n_alts : nat) (P : nat -> nat -> R) (dP : nat -> nat -> nat -> R)
    (ch : nat -> nat -> R) (wt : nat -> R) (v w : nat) : R :=
  Rsum (fun i => Rsum (fun a => wt i * ch i a * (dP i a v / P i a) * (dP i a w / P i a))
    (seq 0 n_alts)) (seq 0 N).
(** Whatever is chosen has a positive probability. *)
Definition chosen_possible (N n_alts : nat) (P ch : nat -> nat -> R) : Prop :=
  forall i a, (i < N)%nat -> (a < n_alts)%nat -> ch i a <> 0 -> 0 < P i a.
