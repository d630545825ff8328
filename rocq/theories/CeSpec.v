(** Specification of the row map, of alignment and of cracking. *)
From Coq Require Export Sorting.Permutation.
From Verif Require Export CeModel.
Open Scope Z_scope.

(** Row [i] belongs to the case at position [c] (cases in increasing order) and to alternative [a]. *)
Definition row_is (ix : ceindex) (i c a : nat) : Prop :=
  (i < length ix)%nat /\ (c < length (cases_of ix))%nat /\
  fst (nth i ix (0, 0%nat)) = nth c (cases_of ix) 0 /\ snd (nth i ix (0, 0%nat)) = a.
(** All parts list the cases in the same order. *)
Definition aligned {A B C D} (d : data A B C D) : Prop :=
  ids (data_ch d) = ids (data_co d) /\ ids (data_av d) = ids (data_co d) /\ ids (data_wt d) = ids (data_co d).
Definition increasing (l : list Z) : Prop := forall i j, (i < j < length l)%nat -> nth i l 0 <= nth j l 0.
(** A column is the same for all rows of each case. *)
Definition constant_in_cases (rows : list arow) (j : nat) : Prop :=
  forall r s, In r rows -> In s rows -> fst r = fst s -> colval j r = colval j s.
