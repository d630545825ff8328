(** SPEC for the utilities of the compiled engine (C64). *)
From Verif Require Export CyuModel UtilitySpec.

(** [x] are the data of alternative [j] in case [c]: it is available, and the row is taken from the idce array where
    there is one (and it has a row for that case and alternative), from the idca array otherwise. *)
Definition data_row (A : arrays) (c j : nat) (x : nat -> R) : Prop :=
  a_av A c j = true /\
  match a_rm A with
  | None => x = a_ca A c j
  | Some (ncase, nalt, m) => (c < ncase)%nat /\ (j < nalt)%nat /\ exists i, m c j = Some i /\ x = a_ce A i
  end.
(** It is unavailable or has no row. *)
Definition no_data (A : arrays) (c j : nat) : Prop := forall x, ~ data_row A c j x.
(** [m] is subtracted from the utilities [us] of a case: nothing as long as none exceeds 500, else the largest. *)
Definition overflow_shift (n : nat) (us : nat -> option R) (m : R) : Prop :=
  (m = 0 /\ forall j v, (j < n)%nat -> us j = Some v -> v <= 500) \/
  (500 < m /\ (exists j, (j < n)%nat /\ us j = Some m) /\ forall j v, (j < n)%nat -> us j = Some v -> v <= m).
