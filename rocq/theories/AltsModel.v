(** Model of how the numba engine puts the data's alternatives and the graph's elemental
    nodes together: larch/numba/data_arrays.py 92-121, 155-357 (data arrays in the order of
    the data's alternatives), larch/dataset/flow.py 536-584 and larch/numba/cascading.py
    68-123 (widening with nest columns), larch/numba/model.py 775-815 (idco slots),
    1124-1145 (graph slots), 1558-1634 (labels of the answers).
    One case; dense idca data (a sparse row carries its alternative's position in the same
    order); expressions are already evaluated and names already resolved to slots. *)
From Verif Require Import TreeModel UtilityModel.
From Verif Require Export TreeLogitProps.
Open Scope R_scope.

(** One idco term of a utility function: scale, parameter slot, data column ([None] = the
    constant '1') (model.py 802-809). *)
Definition uterm := (R * nat * option nat)%type.
(** The model's specification: the nesting graph, the logsum parameter slot of each node
    (tree.py 878-885, [None] = no parameter), quantity, quantity scale, utility_ca, and
    utility_co by alternative code (model.py 1105-1145). *)
Record settings := mkSet {
  s_graph : graph;
  s_mu : Z -> option nat;
  s_q : list term;
  s_qs : option nat;
  s_ca : list term;
  s_co : list (Z * list uterm)
}.

(** The three ways to give choices (data_arrays.py 177-222, 223-237, 238-252): a table with a
    column per alternative, one column holding the code of the chosen alternative, an
    expression for each alternative. *)
Inductive choice_data := ChTable (t : Z -> R) | ChCode (c : Z) | ChDict (l : list (Z * R)).
(** Availability: nothing given (flow.py 577-580), a table (data_arrays.py 283-337), an
    expression for some alternatives (338-356). *)
Inductive avail_data := AvAll | AvTable (t : Z -> bool) | AvDict (l : list (Z * bool)).
(** One case of the data.  [d_alts] is the data's ALTID coordinate, in its order; [None] when
    the data has none (data_arrays.py 113-117). *)
Record case := mkCase {
  d_alts : option (list Z);
  d_ca : Z -> nat -> R;
  d_co : nat -> R;
  d_ch : choice_data;
  d_av : avail_data;
  d_wt : R
}.

(** Python dict lookup (data_arrays.py 250, 341). *)
Fixpoint dict_get {A} (l : list (Z * A)) (a : Z) : option A :=
  match l with
  | [] => None
  | (k, v) :: r => if (k =? a)%Z then Some v else dict_get r a
  end.
(** pandas [Index.get_loc] on the data's alternative codes (model.py 801); [None] = KeyError. *)
Fixpoint get_loc (l : list Z) (a : Z) : option nat :=
  match l with
  | [] => None
  | x :: r => if (x =? a)%Z then Some 0%nat
              else match get_loc r a with Some i => Some (S i) | None => None end
  end.

(** data_arrays.py 112-117: the alternatives of the prepared data are those of the data; the
    graph's elementals are used only if the data has none. *)
Definition prepared_alts (g : graph) (d : case) : list Z :=
  match d_alts d with Some l => l | None => elementals g end.

(** An array with one entry per prepared alternative, in their order (data_arrays.py 409-452:
    [arr.reshape(n_cases, n_alts, -1)]). *)
Definition in_order {A} (alts : list Z) (dflt : A) (f : Z -> A) (k : nat) : A :=
  match nth_error alts k with Some a => f a | None => dflt end.

(** data_arrays.py 177-252: the choice array; [None] is the KeyError of
    [request['choice_co'][a]] (line 250). *)
Definition choice_array (alts : list Z) (c : choice_data) : option (nat -> R) :=
  match c with
  | ChTable t => Some (in_order alts 0 t)
  | ChCode code => Some (in_order alts 0 (fun a => if (code =? a)%Z then 1 else 0))
  | ChDict l =>
      if forallb (fun a => match dict_get l a with Some _ => true | None => false end) alts
      then Some (in_order alts 0 (fun a => match dict_get l a with Some v => v | None => 0 end))
      else None
  end.
(** data_arrays.py 283-356 and flow.py 577-580: the availability array; an alternative not
    mentioned in a dictionary gets '0' (line 341). *)
Definition avail_array (alts : list Z) (a : avail_data) : nat -> bool :=
  match a with
  | AvAll => fun _ => true
  | AvTable t => in_order alts false t
  | AvDict l => in_order alts false (fun a => match dict_get l a with Some b => b | None => false end)
  end.

(** model.py 800-810 [model_co_slots]: one coterm per term of each function of utility_co, at
    the position of its alternative among the data's; [None] = KeyError (line 801). *)
Fixpoint co_slots (alts : list Z) (fs : list (Z * list uterm)) : option (list coterm) :=
  match fs with
  | [] => Some []
  | (a, f) :: r =>
      match get_loc alts a, co_slots alts r with
      | Some i, Some rest =>
          Some (map (fun t => match t with (s, p, x) => mkCo i s p x end) f ++ rest)
      | _, _ => None
      end
  end.

(** What the user reads: the labels of the columns, and their contents (model.py 1588-1598,
    1623-1634). *)
Record answer := mkAns { a_labels : list Z; a_result : result }.
(** The column labelled [c] (model.py 1588-1592: the k-th column has the k-th label). *)
Definition column {A} (ans : answer) (f : result -> nat -> A) (c : Z) : A :=
  f (a_result ans) (slot (a_labels ans) c).

(** One case evaluated: arrays in the order of the prepared alternatives, slots in the order of
    the graph's elementals; only the number of alternatives is compared (cascading.py 91, 120:
    [result[..., :n_elementals] = arr] raises ValueError unless the widths agree, or the data
    has a single alternative, which numpy would broadcast: not modelled, [None]).
    [None] = an exception. *)
Definition evaluate (m : settings) (d : case) (par : nat -> R) (hold : nat -> bool)
    (lp0 : nat -> option R) (P0 : nat -> R) : option answer :=
  let g := s_graph m in
  let alts := prepared_alts g d in
  match standard_sort g, co_slots alts (s_co m), choice_array alts (d_ch d) with
  | Some std, Some co, Some ch =>
      if (length alts =? length (elementals g))%nat then
        let st := model_slots g std
          (fun k => match nth_error std k with Some c => s_mu m c | None => None end) in
        Some (mkAns std
          (master st par hold (s_q m) (s_qs m) (s_ca m) co (avail_array alts (d_av d))
             (Dense (fun k => in_order alts (fun _ => 0) (d_ca d) k)) (d_co d)
             ch (d_wt d) lp0 P0))
      else None
  | _, _, _ => None
  end.

(** controller.pyx 1279-1330 [initialize_graph]: a root with one node per alternative, added in
    the order of the data. *)
Definition initialize_graph (root : Z) (codes : list Z) : graph :=
  fold_left (fun g a => add_node a [] PNone g) codes (empty_tree root).
