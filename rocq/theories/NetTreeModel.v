(** The arrays of the Cython nested logit kernel, from the nesting graph (larch/model/tree.py 910-957). *)
From Verif Require Export NetModel TreeModel.

(** tree.py 942-944: the allocation of a node to each of its parents: one over their number. *)
Definition even_split (g : graph) (std : list Z) (dn : nat) : R := / INR (length (preds g (nth dn std 0%Z))).
(** tree.py 927-944: the edges (the loops of [edge_slot_arrays] and [node_slot_arrays], tree.py 450-470 and
    895-908, written out again) with their allocation; a first edge of -1 goes with no edges. *)
Definition graph_net (g : graph) (std : list Z) : net :=
  let '(_, start, num_) := node_slot_arrays g std in
  mkNet (length (elementals g)) (length std)
    (map (fun e => (e, even_split g std (snd e))) (edge_slot_arrays g std))
    (fun k => match start k with Some s => s | None => 0%nat end) num_.
