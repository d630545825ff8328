(** SPEC for nesting trees: plain graph vocabulary, independent of the algorithms in
    TreeModel (only the node list and edge list of a graph are used). *)
From Coq Require Import Relations.
From Verif Require Export TreeModel.

(** There is a link from parent [u] to child [v]. *)
Definition link (g : graph) (u v : Z) : Prop := exists e, In e (gedges g) /\ eu e = u /\ ev e = v.
(** [v] is a proper descendant of [u]. *)
Definition below (g : graph) : Z -> Z -> Prop := clos_trans Z (link g).
(** No node is its own descendant. *)
Definition acyclic (g : graph) : Prop := forall x, ~ below g x x.
(** An elemental alternative: a node without children. *)
Definition is_leaf (g : graph) (v : Z) : Prop := In v (gnodes g) /\ forall w, ~ link g v w.
(** A networkx graph: distinct nodes, links between nodes, at most one link per pair. *)
Definition gwf (g : graph) : Prop :=
  NoDup (gnodes g) /\
  (forall e, In e (gedges g) -> In (eu e) (gnodes g) /\ In (ev e) (gnodes g)) /\
  NoDup (map (fun e => (eu e, ev e)) (gedges g)).
(** [a] occurs before [b] in [l]. *)
Definition before {A} (l : list A) (a b : A) : Prop :=
  exists i j, (i < j)%nat /\ nth_error l i = Some a /\ nth_error l j = Some b.
(** Every node hangs below the root. *)
Definition rooted (g : graph) : Prop :=
  In (groot g) (gnodes g) /\ forall v, In v (gnodes g) -> v <> groot g -> below g (groot g) v.
(** Every node other than the root has a parent. *)
Definition no_orphans (g : graph) : Prop :=
  forall v, In v (gnodes g) -> v <> groot g -> exists u, link g u v.
(** A node with an implied link has no other parent. *)
Definition implied_alone (g : graph) : Prop :=
  forall e e', In e (gedges g) -> In e' (gedges g) -> ev e = ev e' -> eimp e = true ->
    eu e' = eu e.

(** Edits that name existing parents (and do not re-root or delete the root). *)
Definition good_op (g : graph) (o : top) : Prop :=
  match o with
  | TAddEdge u v imp => In u (gnodes g) /\ imp = false
  | TAddNode _ _ pa | TNewNode _ _ pa =>
      match pa with
      | PNone => True
      | POne p => In p (gnodes g)
      | PMany ps => ps <> [] /\ forall p, In p ps -> In p (gnodes g)
      end
  | TRemoveNode n => n <> groot g
  | TSetRoot _ | TNxAddEdgesFrom _ => False
  | _ => True
  end.
Fixpoint good_history (t : ctree) (ops : list top) : Prop :=
  match ops with [] => True | o :: r => good_op (cg t) o /\ good_history (cstep t o) r end.
(** Edits and reads of the documented tree interface (no order suggestion, no inherited
    networkx bulk method). *)
Definition tree_op (o : top) : Prop :=
  match o with TSuggest _ | TNxAddEdgesFrom _ => False | _ => True end.
Definition new_tree (root : Z) : ctree := mkC (empty_tree root) None None.
