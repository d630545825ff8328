(** SPEC vocabulary for sparse data. *)
From Verif Require Export CEModel.

(** Pointers for [n] rows: start at 0, end at [n], and every case has at least one row. *)
Definition good_pointers (ptrs : list nat) (n : nat) : Prop :=
  nth_error ptrs 0 = Some 0 /\ nth_error ptrs (length ptrs - 1) = Some n /\
  forall c, S c < length ptrs -> nth c ptrs 0 < nth (S c) ptrs 0.
(** Row [r] belongs to case [c]. *)
Definition in_case (ptrs : list nat) (c r : nat) : Prop :=
  S c < length ptrs /\ nth c ptrs 0 <= r < nth (S c) ptrs 0.
