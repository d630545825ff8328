(** Specification: where a parameter belongs in an ordered table, and how many stars it deserves. *)
From Verif Require Import TableModel.
Open Scope string_scope.
Open Scope list_scope.

(** The patterns of an ordering one after the other, each with the name of its category (parameter_frame.pyx 666-669). *)
Definition patterns (order : list category) : list (string * string) :=
  flat_map (fun c => map (fun pat => (fst c, pat)) (snd c)) order.
(** Parameter [p] belongs to the [k]-th pattern, of category [c]: it is the first that matches; "Other" if none does. *)
Definition belongs (re : string -> string -> bool) (order : list category) (p : string) (k : nat) (c : string) : Prop :=
  (exists pat, nth_error (patterns order) k = Some (c, pat) /\ re pat p = true /\
     forall k' c' pat', (k' < k)%nat -> nth_error (patterns order) k' = Some (c', pat') -> re pat' p = false) \/
  (k = length (patterns order) /\ c = "Other" /\ forall c' pat', In (c', pat') (patterns order) -> re pat' p = false).
(** Parameter [p] comes before [q]: its pattern comes first, or it is the same and its name comes first. *)
Definition before (re : string -> string -> bool) (order : list category) (p q : string) : Prop :=
  exists k c k' c', belongs re order p k c /\ belongs re order q k' c' /\
    ((k < k')%nat \/ (k = k' /\ String.leb p q = true /\ p <> q)).
(** So many stars: one each for what exceeds 5%, 1% and 0.1% (parameter_frame.pyx 956-958). *)
Definition stars_for (a b c : R) (x : R) (n : nat) : Prop :=
  (n = 0%nat /\ (x <= a)%R) \/ (n = 1%nat /\ (a < x <= b)%R) \/ (n = 2%nat /\ (b < x <= c)%R) \/ (n = 3%nat /\ (c < x)%R).
(** Stars for a t statistic. *)
Definition t_stars (t : R) (n : nat) : Prop := stars_for (196/100) (25758/10000) (32905/10000) (Rabs t) n.
(** Stars for a likelihood ratio: a difference of log likelihoods. *)
Definition lr_stars (l : R) (n : nat) : Prop := stars_for (19207/10000) (33174/10000) (54138/10000) l n.
(** The text of so many stars. *)
Fixpoint stars (n : nat) : string := match n with O => "" | S n => String.append "*" (stars n) end.
