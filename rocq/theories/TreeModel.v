(** Model of larch/model/tree.py : NestingTree (a networkx DiGraph with extra
    bookkeeping).  Node codes are integers [Z].  networkx dictionaries keep insertion
    order, so nodes and edges are lists in insertion order; the successors
    (predecessors) of a node are the edges leaving (entering) it in insertion order. *)
From Coq Require Export List ZArith Bool Lia Arith.
Export ListNotations.
Open Scope Z_scope.

(** An edge with its [implied] attribute (tree.py 134-166). *)
Record edge := mkEdge { eu : Z; ev : Z; eimp : bool }.

(** tree.py 71-85: [_root_id] and [_suggested_elemental_order] are attributes of the
    graph.  Other node/edge attributes (names, parameters) are not modelled here. *)
Record graph := mkG { gnodes : list Z; gedges : list edge; groot : Z; gsugg : list Z }.

(** [x in collection] on a Python dict or set (e.g. tree.py 83, 297, 300). *)
Definition zmem (x : Z) (l : list Z) : bool := existsb (Z.eqb x) l.


(** Selecting one edge by its end points (networkx; used at tree.py 163, 187). *)
Definition is_edge (u v : Z) (e : edge) : bool := (eu e =? u) && (ev e =? v).
(** networkx DiGraph.has_edge (raised on by remove_edge, tree.py 187). *)
Definition has_edge (g : graph) (u v : Z) : bool := existsb (is_edge u v) (gedges g).


(** networkx DiGraph.successors (tree.py 105, 394). *)
Definition succs (g : graph) (u : Z) : list Z :=
  map ev (filter (fun e => eu e =? u) (gedges g)).
(** networkx DiGraph.predecessors / in_edges (tree.py 159, 324, 1181). *)
Definition preds (g : graph) (v : Z) : list Z :=
  map eu (filter (fun e => ev e =? v) (gedges g)).
(** networkx DiGraph.out_degree (tree.py 355, 400, 409, 1171). *)
Definition outdeg (g : graph) (u : Z) : nat := length (succs g u).
(** networkx DiGraph.in_degree (tree.py 188, 244). *)
Definition indeg (g : graph) (v : Z) : nat := length (preds g v).

(** networkx DiGraph.add_node: no effect on an existing node. *)
(** networkx DiGraph.add_node, called at tree.py 235. *)
Definition nx_add_node (c : Z) (g : graph) : graph :=
  if zmem c (gnodes g) then g
  else mkG (gnodes g ++ [c]) (gedges g) (groot g) (gsugg g).

(** networkx DiGraph.add_edge: creates missing end points ([u] first); an existing
    edge keeps its place and gets its attributes updated. *)
(** networkx DiGraph.add_edge, called at tree.py 166, 328. *)
Definition nx_add_edge (u v : Z) (imp : bool) (g : graph) : graph :=
  let g1 := nx_add_node v (nx_add_node u g) in
  if has_edge g1 u v
  then mkG (gnodes g1)
           (map (fun e => if is_edge u v e then mkEdge u v imp else e) (gedges g1))
           (groot g1) (gsugg g1)
  else mkG (gnodes g1) (gedges g1 ++ [mkEdge u v imp]) (groot g1) (gsugg g1).

(** networkx DiGraph.remove_edge; [None] is the NetworkXError for a missing edge. *)
(** The effect of networkx DiGraph.remove_edge on an existing edge (tree.py 163, 187). *)
Definition nx_del_edge (u v : Z) (g : graph) : graph :=
  mkG (gnodes g) (filter (fun e => negb (is_edge u v e)) (gedges g)) (groot g) (gsugg g).
(** networkx DiGraph.remove_edge, called at tree.py 187; [None] = NetworkXError. *)
Definition nx_remove_edge (u v : Z) (g : graph) : option graph :=
  if has_edge g u v then Some (nx_del_edge u v g) else None.

(** networkx DiGraph.remove_node: the node and every incident edge. *)
(** The effect of networkx DiGraph.remove_node on an existing node (tree.py 325). *)
Definition nx_del_node (n : Z) (g : graph) : graph :=
  mkG (filter (fun c => negb (c =? n)) (gnodes g))
      (filter (fun e => negb (eu e =? n) && negb (ev e =? n)) (gedges g))
      (groot g) (gsugg g).
(** networkx DiGraph.remove_node, called at tree.py 325; [None] = NetworkXError. *)
Definition nx_remove_node (n : Z) (g : graph) : option graph :=
  if zmem n (gnodes g) then Some (nx_del_node n g) else None.

(** tree.py 134-166 [NestingTree.add_edge]: a non-implied edge into [v] first drops
    the implied in-edges of [v]. *)
Definition drop_implied_into (v : Z) (g : graph) : graph :=
  mkG (gnodes g) (filter (fun e => negb ((ev e =? v) && eimp e)) (gedges g))
      (groot g) (gsugg g).
(** tree.py 134-166 [NestingTree.add_edge]. *)
Definition add_edge (u v : Z) (imp : bool) (g : graph) : graph :=
  nx_add_edge u v imp (if imp then g else drop_implied_into v g).

(** tree.py 173-191 [NestingTree.remove_edge]: a node left without parents is linked
    (implied) to the root. *)
Definition remove_edge (u v : Z) (g : graph) : option graph :=
  match nx_remove_edge u v g with
  | None => None
  | Some g1 =>
      if (indeg g1 v =? 0)%nat && negb (v =? groot g1)
      then Some (add_edge (groot g1) v true g1) else Some g1
  end.

(** How the parents are given to [add_node] (tree.py 193-202). *)
Inductive parent_arg := PNone | POne (p : Z) | PMany (ps : list Z).

(** tree.py 193-256 [NestingTree.add_node] (phi_parameters not modelled). *)
Definition add_node (code : Z) (children : list Z) (pa : parent_arg) (g : graph) : graph :=
  let g1 := nx_add_node code g in
  let g2 := fold_left (fun h c => add_edge code c false h) children g1 in
  match pa with
  | POne p => add_edge p code false g2
  | PMany ps => fold_left (fun h p => add_edge p code false h) ps g2
  | PNone =>
      if (indeg g2 code =? 0)%nat && negb (code =? groot g2)
      then add_edge (groot g2) code true g2 else g2
  end.

(** tree.py 71-85 [NestingTree.__init__] with no argument: the root node only. *)
Definition empty_tree (root : Z) : graph := add_node root [] PNone (mkG [] [] root []).

(** tree.py 295-298: [proposed_code = len(self)] then increment until free.  Fuel
    [S (length nodes)] always suffices (proved). *)
Fixpoint free_code (fuel : nat) (c : Z) (nodes : list Z) : option Z :=
  match fuel with
  | O => None
  | S f => if zmem c nodes then free_code f (c + 1) nodes else Some c
  end.
(** What [new_node] gives: the code and the new tree (303-304), ValueError (300-301), or (never, proved) out of fuel. *)
Inductive new_node_result := NewNode (code : Z) (g : graph) | CodeExists | OutOfFuel.
(** tree.py 258-304 [NestingTree.new_node]. *)
Definition new_node (code : option Z) (children : list Z) (pa : parent_arg) (g : graph)
  : new_node_result :=
  match code with
  | None =>
      match free_code (S (length (gnodes g))) (Z.of_nat (length (gnodes g))) (gnodes g) with
      | None => OutOfFuel
      | Some c => NewNode c (add_node c children pa g)
      end
  | Some c => if zmem c (gnodes g) then CodeExists else NewNode c (add_node c children pa g)
  end.

(** tree.py 310-329 [NestingTree.remove_node]: children are re-linked to every
    former parent, with the attributes of the removed child edge. *)
Definition remove_node (n : Z) (g : graph) : option graph :=
  match nx_remove_node n g with
  | None => None
  | Some g1 =>
      let replace_edges := filter (fun e => eu e =? n) (gedges g) in
      let replace_heads := preds g n in
      Some (fold_left
              (fun h e => fold_left (fun h' hd => nx_add_edge hd (ev e) (eimp e) h')
                                    replace_heads h)
              replace_edges g1)
  end.

(** tree.py 103-114 root_id setter. *)
Definition set_root_id (x : Z) (g : graph) : option graph :=
  let tops := filter (fun e => eu e =? groot g) (gedges g) in
  match remove_node (groot g) g with
  | None => None  (* successors(root) raises when the root is not a node *)
  | Some g1 =>
      let g2 := mkG (gnodes g1) (gedges g1) x (gsugg g1) in
      let g3 := if zmem x (gnodes g2) then g2 else add_node x [] PNone g2 in
      Some (fold_left (fun h e => add_edge x (ev e) (eimp e) h) tops g3)
  end.

(** tree.py 95-96 [suggest_elemental_order]. *)
Definition suggest_elemental_order (order : list Z) (g : graph) : graph :=
  mkG (gnodes g) (gedges g) (groot g) (filter (fun j => zmem j (gnodes g)) order).

(** Pop the smallest element (heapq over (code, position, code) tuples; codes are
    distinct so the order is the order of codes).  tree.py 1171-1177. *)
Fixpoint zmin (x : Z) (l : list Z) : Z :=
  match l with [] => x | y :: l' => zmin (Z.min x y) l' end.
(** heapq.heappop (tree.py 1177). *)
Definition heappop (l : list Z) : option (Z * list Z) :=
  match l with
  | [] => None
  | x :: l' => let m := zmin x l' in Some (m, remove Z.eq_dec m l)
  end.

(** [outdegree_map] (tree.py 1171): a finite map; [None] = key absent. *)
Definition odmap := Z -> option nat.
(** Assignment to / deletion from [outdegree_map] (tree.py 1183, 1188). *)
Definition od_set (m : odmap) (k : Z) (v : option nat) : odmap :=
  fun x => if x =? k then v else m x.

(** Inner loop over in-edges of the popped node (tree.py 1181-1188).
    [None] is the RuntimeError raised on a missing key. *)
Fixpoint relax (ps : list Z) (m : odmap) (heap : list Z) : option (odmap * list Z) :=
  match ps with
  | [] => Some (m, heap)
  | p :: ps' =>
      match m p with
      | None => None
      | Some d =>
          let d' := pred d in
          if (d' =? 0)%nat then relax ps' (od_set m p None) (p :: heap)
          else relax ps' (od_set m p (Some d')) heap
      end
  end.

(** How [list(reverse_lexicographical_topological_sort(self))] ends (tree.py 333, 1180, 1185, 1194). *)
Inductive topo_result := TopoOk (order : list Z) | TopoRuntimeError | TopoUnfeasible
                       | TopoOutOfFuel.

(** Main loop (tree.py 1176-1194).  The test after the loop is made on the heap, which
    is always empty there, exactly as in the code. *)
Fixpoint topo_loop (fuel : nat) (g : graph) (m : odmap) (heap : list Z) (acc : list Z)
  : topo_result :=
  match heappop heap with
  | None => if negb (length heap =? 0)%nat then TopoUnfeasible else TopoOk (rev acc)
  | Some (node, heap1) =>
      match fuel with
      | O => TopoOutOfFuel
      | S f =>
          match relax (preds g node) m heap1 with
          | None => TopoRuntimeError
          | Some (m2, heap2) => topo_loop f g m2 heap2 (node :: acc)
          end
      end
  end.

(** tree.py 331-333 [topological_sorted] with the initial map and heap of 1171-1174. *)
Definition topological_sorted (g : graph) : topo_result :=
  topo_loop (length (gnodes g)) g
    (fun v => if zmem v (gnodes g) && negb (outdeg g v =? 0)%nat
              then Some (outdeg g v) else None)
    (filter (fun v => (outdeg g v =? 0)%nat) (gnodes g)) [].

(** sorted() on integer codes: insertion sort. *)
(** Insertion into a sorted list, for sorted() (tree.py 412). *)
Fixpoint zinsert (x : Z) (l : list Z) : list Z :=
  match l with [] => [x] | y :: l' => if x <=? y then x :: l else y :: zinsert x l' end.
(** sorted() (tree.py 412). *)
Definition zsort (l : list Z) : list Z := fold_right zinsert [] l.

(** tree.py 399-402: codes of out-degree zero. *)
Definition leaves (g : graph) : list Z :=
  filter (fun v => (outdeg g v =? 0)%nat) (gnodes g).

(** tree.py 399-416 [elementals]: suggested order first (no duplicate filter), then the
    remaining leaves in increasing order.  [out_degree(e)] raises for a suggested code that
    is no longer a node: [None] in [elementals_read]. *)
Definition elementals (g : graph) : list Z :=
  let first := filter (fun e => zmem e (gnodes g) && (outdeg g e =? 0)%nat) (gsugg g) in
  first ++ filter (fun e => negb (zmem e first)) (zsort (leaves g)).
(** tree.py 404-416 with the exception of [out_degree(e)] at 409. *)
Definition elementals_read (g : graph) : option (list Z) :=
  if forallb (fun e => zmem e (gnodes g)) (gsugg g) then Some (elementals g) else None.

(** tree.py 331-358 [topological_sorted_no_elementals], 360-362 [standard_sort].
    [None] = the sort raised. *)
Definition nests_sorted (g : graph) : option (list Z) :=
  match topological_sorted g with
  | TopoOk l => Some (filter (fun i => negb (zmem i (leaves g))) l)
  | _ => None
  end.
(** tree.py 360-362 [standard_sort]. *)
Definition standard_sort (g : graph) : option (list Z) :=
  match elementals_read g, nests_sorted g with
  | Some e, Some l => Some (e ++ l)
  | _, _ => None
  end.

(** tree.py 377-379 [standard_slot_map]: position in the standard order (the last
    position if a code is repeated, as in a dict comprehension). [None] = KeyError. *)
Fixpoint slot_from (k : nat) (l : list Z) (c : Z) (found : option nat) : option nat :=
  match l with
  | [] => found
  | x :: l' => slot_from (S k) l' c (if x =? c then Some k else found)
  end.
(** tree.py 377-379 [standard_slot_map[c]]. *)
Definition slot_of (std : list Z) (c : Z) : option nat := slot_from 0 std c None.
(** tree.py 377-379, for a code known to be present. *)
Definition slot (std : list Z) (c : Z) : nat :=
  match slot_of std c with Some n => n | None => 0%nat end.

(** tree.py 440-453 [edge_slot_arrays]: the arrays up/dn of length [n_edges] are filled
    from the end, walking the standard order backwards and each node's successors
    backwards.  Entries never written stay (0,0). *)
Definition edge_fill (g : graph) (std : list Z) : list (nat * nat) :=
  fold_left (fun acc up =>
      fold_left (fun acc' dn => (slot std up, slot std dn) :: acc') (rev (succs g up)) acc)
    (rev std) [].
(** tree.py 440-453: the arrays as returned. *)
Definition edge_slot_arrays (g : graph) (std : list Z) : list (nat * nat) :=
  let w := edge_fill g std in
  repeat (0%nat, 0%nat) (length (gedges g) - length w) ++ w.

(** tree.py 895-903 [node_slot_arrays]: running position [n] and arrays start, num. *)
Definition nsa_state := (nat * (nat -> option nat) * (nat -> nat))%type.
(** tree.py 901-903: one pass of the inner loop. *)
Definition nsa_step (upslot : nat) (s : nsa_state) (_ : Z) : nsa_state :=
  let '(n, st, nu) := s in
  let n' := pred n in
  (n', (fun k => if (k =? upslot)%nat then Some n' else st k),
       (fun k => if (k =? upslot)%nat then S (nu k) else nu k)).
(** tree.py 895-908. *)
Definition node_slot_arrays (g : graph) (std : list Z) : nsa_state :=
  fold_left (fun s up => fold_left (nsa_step (slot std up)) (rev (succs g up)) s)
    (rev std) (length (gedges g), (fun _ => None), (fun _ => 0%nat)).

(** tree.py 454-457 [first_visit] of edge_slot_arrays. *)
Fixpoint first_visit (seen : list nat) (dns : list nat) : list nat :=
  match dns with
  | [] => []
  | d :: r => (if existsb (Nat.eqb d) seen then 0%nat else 1%nat)
              :: first_visit (d :: seen) r
  end.

(** tree.py 424-434 [elemental_descendants]: leaves reachable from a node.  Specified
    by reachability; networkx.descendants is modelled by iterating successors. *)
Fixpoint reach (fuel : nat) (g : graph) (front : list Z) : list Z :=
  match fuel with
  | O => []
  | S f => front ++ reach f g (flat_map (succs g) front)
  end.

(** tree.py 851-861 [subgraph_from]: breadth-first search with a found set. *)
Fixpoint bfs (fuel : nat) (g : graph) (q found : list Z) : option (list Z) :=
  match q with
  | [] => Some found
  | i :: q' =>
      match fuel with
      | O => None
      | S f => if zmem i found then bfs f g q' found
               else bfs f g (q' ++ succs g i) (i :: found)
      end
  end.

(** ------- cached orders (util/lazy.py 48-85, tree.py 116-132) ------- *)
(** The lazily cached values of [standard_sort] and [elementals] ([None] = not cached; the
    other cached orders are filled and cleared together with them). A read that raises
    caches nothing. *)
(** The tree with its lazily cached orders (util/lazy.py 48-85, tree.py 331-416). *)
Record ctree := mkC { cg : graph; cstd : option (list Z); celem : option (list Z) }.
(** tree.py 116-132 [_clear_caches]. *)
Definition clear_caches (t : ctree) : ctree := mkC (cg t) None None.
(** The public operations of a history (tree.py 95-96, 103-114, 134-191, 193-329, 360-362, 404-416; the last one is networkx's inherited DiGraph.add_edges_from). *)
Inductive top :=
| TAddEdge (u v : Z) (imp : bool)
| TRemoveEdge (u v : Z)
| TAddNode (c : Z) (ch : list Z) (pa : parent_arg)
| TNewNode (c : option Z) (ch : list Z) (pa : parent_arg)
| TRemoveNode (n : Z)
| TSetRoot (x : Z)
| TReadStd
| TReadElem
| TSuggest (o : list Z)
| TNxAddEdgesFrom (es : list (Z * Z)).

(** Reading [elementals] / [standard_sort]; the latter first reads (and caches)
    [elementals] (tree.py 360-362, util/lazy.py 48-85). *)
Definition read_elem (t : ctree) : option (list Z) * ctree :=
  match celem t with
  | Some e => (Some e, t)
  | None => (elementals_read (cg t), mkC (cg t) (cstd t) (elementals_read (cg t)))
  end.
(** Reading [standard_sort] (tree.py 360-362, util/lazy.py 48-61). *)
Definition read_std (t : ctree) : option (list Z) * ctree :=
  match cstd t with
  | Some v => (Some v, t)
  | None =>
      let (el, t1) := read_elem t in
      match el, nests_sorted (cg t) with
      | Some e, Some l => (Some (e ++ l), mkC (cg t1) (Some (e ++ l)) (celem t1))
      | _, _ => (None, t1)
      end
  end.
(** Every overridden edit ends with [_clear_caches] (tree.py 114, 165, 190, 256, 329); one that raised changed nothing. *)
Definition upd (t : ctree) (og : option graph) : ctree :=
  match og with Some g => clear_caches (mkC g (cstd t) (celem t)) | None => t end.
(** One public operation.  [TSuggest] and the inherited networkx bulk methods do not
    clear the caches (tree.py 95-96; DiGraph.add_edges_from is not overridden). *)
Definition cstep (t : ctree) (o : top) : ctree :=
  match o with
  | TAddEdge u v imp => upd t (Some (add_edge u v imp (cg t)))
  | TRemoveEdge u v => upd t (remove_edge u v (cg t))
  | TAddNode c ch pa => upd t (Some (add_node c ch pa (cg t)))
  | TNewNode c ch pa =>
      match new_node c ch pa (cg t) with NewNode _ g => upd t (Some g) | _ => t end
  | TRemoveNode n => upd t (remove_node n (cg t))
  | TSetRoot x => upd t (set_root_id x (cg t))
  | TReadStd => snd (read_std t)
  | TReadElem => snd (read_elem t)
  | TSuggest o => mkC (suggest_elemental_order o (cg t)) (cstd t) (celem t)
  | TNxAddEdgesFrom es =>
      mkC (fold_left (fun h uv => nx_add_edge (fst uv) (snd uv) false h) es (cg t))
          (cstd t) (celem t)
  end.
