(** SPEC vocabulary for the Cython nested and cross-nested logit kernel. *)
From Verif Require Export NetModel LogitSpec.

(** The arrays describe an acyclic graph: [kids k] are the children of node [k] with their
    (positive) allocation; alternatives have none; children have smaller slots; no nest
    has the same child twice. *)
Record net_dag (w : net) (kids : nat -> list (nat * R)) : Prop := {
  nd_root : (w_alts w < w_nodes w)%nat;
  nd_leaf : forall k, (k < w_alts w)%nat -> kids k = [];
  nd_less : forall k j a, In (j, a) (kids k) -> (j < k)%nat /\ 0 < a;
  nd_once : forall k, NoDup (map fst (kids k));
  nd_edges : w_edges w = flat_map (fun k => map (fun ja => (k, fst ja, snd ja)) (kids k)) (seq 0 (w_nodes w));
  nd_slice : forall k, (w_alts w <= k < w_nodes w)%nat -> slice w k = map (fun ja => (k, fst ja, snd ja)) (kids k)
}.
(** alpha^(1/mu) exp(U/mu), zero for an unavailable node. *)
Definition term (m : R) (U : nat -> option R) (ja : nat * R) : R :=
  match U (fst ja) with Some x => exp ((ln (snd ja) + x) / m) | None => 0 end.
(** The logsum of nest [k] given the utilities of its children. *)
Definition nest_sum (m : R) (U : nat -> option R) (cs : list (nat * R)) : R := Rsum (term m U) cs.
Definition is_logsum (m : R) (U : nat -> option R) (cs : list (nat * R)) (x : option R) : Prop :=
  if Rlt_dec 0 (nest_sum m U cs) then x = Some (m * ln (nest_sum m U cs)) else x = None.
(** The share of a child in its nest. *)
Definition share (m : R) (U : nat -> option R) (cs : list (nat * R)) (ja : nat * R) : R :=
  term m U ja / nest_sum m U cs.
(** Sum over the parents [k] of node [c], with the allocation of [c] in [k]. *)
Definition over_parents (w : net) (kids : nat -> list (nat * R)) (c : nat) (f : nat -> nat * R -> R) : R :=
  Rsum (fun k => Rsum (fun ja => if (fst ja =? c)%nat then f k ja else 0) (kids k)) (seq 0 (w_nodes w)).
(** [a] lies below [k] (or is it). *)
Inductive net_under (kids : nat -> list (nat * R)) : nat -> nat -> Prop :=
| nu_refl k : net_under kids k k
| nu_step k j al a : In (j, al) (kids k) -> net_under kids j a -> net_under kids k a.
