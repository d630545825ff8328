(** SPEC vocabulary for the logit likelihood kernel. *)
From Coq Require Import Permutation.
From Verif Require Export LogitModel.

(** Plain finite sum. *)
Definition Rsum {A} (f : A -> R) (l : list A) : R := fold_right (fun x s => f x + s) 0 l.

(** The arrays describe an acyclic nesting structure: [kids k] are the children of node [k];
    alternatives have none; children have smaller slots than their parents; the edge list
    goes through the nests in slot order; start/len delimit each nest's edges.
    TreeLogitProps shows that the arrays built from every rooted acyclic nesting graph
    satisfy this. *)
Record dag_slots (st : slots) (kids : nat -> list nat) : Prop := {
  ts_root : (n_alts st < n_nodes st)%nat;
  ts_leaf : forall k, (k < n_alts st)%nat -> kids k = [];
  ts_less : forall k j, In j (kids k) -> (j < k)%nat;
  ts_edges : edges st = flat_map (fun k => map (pair k) (kids k)) (seq 0 (n_nodes st));
  ts_children : forall k, (n_alts st <= k < n_nodes st)%nat -> children st k = kids k
}.
(** ... and a tree: every node but the last one (the root) is the child of exactly one
    node, exactly once. *)
Record tree_slots (st : slots) (kids : nat -> list nat) : Prop := {
  ts_dag :> dag_slots st kids;
  ts_tree : Permutation (flat_map kids (seq 0 (n_nodes st))) (seq 0 (n_nodes st - 1))
}.

(** exp(U_j/mu), zero for an unavailable (minus infinity) utility. *)
Definition oexp (mu : R) (x : option R) : R := match x with Some v => exp (v / mu) | None => 0 end.
Definition finite (x : option R) : Prop := x <> None.
(** Availability and finite utility agree on the alternatives. *)
Definition av_matches (st : slots) (u : nat -> option R) (av : nat -> bool) : Prop :=
  forall a, (a < n_alts st)%nat -> (av a = true <-> finite (u a)).
(** All logsum parameters are positive. *)
Definition mu_positive (st : slots) (par : nat -> R) : Prop :=
  forall k, (n_alts st <= k < n_nodes st)%nat -> 0 < mu_of st par k.
(** Alternative [a] lies below node [k] (or is it). *)
Inductive under (kids : nat -> list nat) : nat -> nat -> Prop :=
| under_refl k : under kids k k
| under_step k j a : In j (kids k) -> under kids j a -> under kids k a.
