(** Specification: the label of one value. *)
From Verif Require Import PeriodModel.

(** A number is within the bounds of a section; bounds belong to it or not, as [left] and [right] say (data_manipulation.py 60-65). *)
Definition within (left right : bool) (x : R) (b : option R * option R) : Prop :=
  (forall a, fst b = Some a -> if left then (a <= x)%R else (a < x)%R) /\ (forall a, snd b = Some a -> if right then (x <= a)%R else (x < a)%R).
(** The label of a number (data_manipulation.py 50-59): that of the last section it is in, and the default if it is in none. *)
Inductive labelled (left right : bool) (default : option string) (x : R) : list section -> option string -> Prop :=
| l_none l : (forall s, In s l -> ~ within left right x (snd s)) -> labelled left right default x l default
| l_last l s r : within left right x (snd s) -> (forall s', In s' r -> ~ within left right x (snd s')) ->
    labelled left right default x (l ++ s :: r) (Some (fst s)).
(** The sections a mapping gives (data_manipulation.py 43-49). *)
Definition given (m : mapping_arg) : list section := match m with NoMapping => [] | DictMapping l | ListMapping l => l end.
