(** Specification of label lookup and one-hot columns. *)
From Verif Require Import LabelModel.
Open Scope Z_scope.

Definition strictly_increasing (l : list Z) : Prop :=
  forall i j, (i < j < length l)%nat -> nth i l 0 < nth j l 0.
(** What the documentation says of a value: the position of the label equal to it, or of the smallest
    label above it. *)
Definition position_of (labels : list Z) (v : Z) (i : nat) : Prop :=
  (i < length labels)%nat /\
  (nth i labels 0 = v \/
   (~ In v labels /\ v < nth i labels 0 /\ forall j, (j < length labels)%nat -> v < nth j labels 0 -> nth i labels 0 <= nth j labels 0)).
(** Rank of the [k]-th label: how many labels are smaller. *)
Definition rank (labels : list Z) (k : nat) : nat := length (filter (fun b => b <? nth k labels 0) labels).
(** A one in column [j] and zeros elsewhere. *)
Definition one_hot (row : list Z) (j : nat) : Prop :=
  nth j row 0 = 1 /\ forall k, k <> j -> nth k row 0 = 0.
