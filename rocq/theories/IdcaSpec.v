(** What a table with one row per case and alternative says, and what a dataset says, independently of how the
    one is turned into the other. *)
From Verif Require Export IdcaModel.
Open Scope nat_scope.

(** The labels of the alternatives as the table has them. *)
Definition labels (t : table) : list label :=
  match t_alts t with AInt l => map LNum l | AOther l => l end.
(** Row number [i] of the table is about this case and this alternative. *)
Definition row_is (t : table) (i : nat) (case : Z) (alt : label) : Prop :=
  exists c a, nth_error (t_codes t) i = Some (c, Some a) /\
    nth_error (t_cases t) c = Some case /\ nth_error (labels t) a = Some alt.
(** The entry of row [i] in a column. *)
Definition entry (t : table) (k : string) (i : nat) (v : cell) : Prop :=
  exists d vals, In (k, (d, vals)) (t_cols t) /\ nth_error vals i = Some v.
(** The entries of a column of this data type. *)
Definition fits (d : dtype) (c : cell) : Prop :=
  match d, c with
  | DInt, CI _ | DFloat, CF _ | DFloat, CNaN | DBool, CB _ | DObj, _ => True
  | _, _ => False
  end.
(** A table pandas can hold: distinct level values, codes within the levels and none missing, columns with
    different names, as long as the index, with entries of their type. *)
Record proper (t : table) : Prop := {
  p_cases : NoDup (t_cases t);
  p_labels : NoDup (labels t);
  p_codes : forall c oa, In (c, oa) (t_codes t) -> c < length (t_cases t) /\ exists a, oa = Some a /\ a < length (labels t);
  p_names : NoDup (map fst (t_cols t));
  p_cols : forall k d vals, In (k, (d, vals)) (t_cols t) -> length vals = length (t_codes t) /\ Forall (fits d) vals }.

(** The entry a variable has at a position. *)
Definition cell_at (v : var) (i j : nat) : option cell :=
  match v with
  | Dense _ rows => match nth_error rows i with Some r => nth_error r j | None => None end
  | PerCase _ vals => nth_error vals i
  end.
(** The value a dataset holds under a name for a case and an alternative. *)
Definition value_is (ds : dataset) (k : string) (case alt : Z) (v : cell) : Prop :=
  exists x i j, In (k, x) (d_vars ds) /\ nth_error (d_cases ds) i = Some case /\ nth_error (d_alts ds) j = Some alt /\
    cell_at x i j = Some v.
(** The code that stands for a label: the integer itself, or the code the dataset names so. *)
Definition stands_for (t : table) (ds : dataset) (alt : label) (code : Z) : Prop :=
  match t_alts t with
  | AInt _ => alt = LNum code
  | AOther _ => exists j names, nth_error (d_alts ds) j = Some code /\ d_altnames ds = Some names /\
                  nth_error names j = Some (Some alt)
  end.
(** Two entries that say the same: equal as numbers, or identical. *)
Definition same (a b : cell) : Prop :=
  match num a, num b with
  | Some x, Some y => (x == y)%Q
  | None, None => a = b
  | _, _ => False
  end.
(** Equal up to the tolerance of the crack for floats; exactly the same for everything else. *)
Definition nearly (d : dtype) (n : nat) (a b : cell) : Prop :=
  match d with
  | DFloat => same a b \/ exists x y, num a = Some x /\ num b = Some y /\
                ((x - y) * (x - y) <= (4 * Z.of_nat n # 1) * (1 # 10 ^ 20))%Q
  | _ => same a b
  end.
(** Names given as a list cover the labels of the table. *)
Definition covered (o : options) (t : table) : Prop :=
  match t_alts t, o_altnames o with
  | AInt _, _ => True
  | AOther _, None => True
  | AOther _, Some (NList l) => forall a, In a (labels t) -> In a l
  | AOther _, Some (NMap _) => False
  end.
(** The table has a row for the pair, the alternative given by its code. *)
Definition paired (t : table) (ds : dataset) (case code : Z) : Prop :=
  exists i alt, row_is t i case alt /\ stands_for t ds alt code.
(** The same rows in another order: row [i] of the one is row [f i] of the other. *)
Definition reordered (f : nat -> nat) {A} (l l' : list A) : Prop :=
  length l = length l' /\ forall i, nth_error l' i = nth_error l (f i).
Definition shuffled (t t' : table) : Prop :=
  t_cases t = t_cases t' /\ t_alts t = t_alts t' /\
  exists f, (forall i j, f i = f j -> i = j) /\ reordered f (t_codes t) (t_codes t') /\
    Forall2 (fun kc kc' => fst kc = fst kc' /\ fst (snd kc) = fst (snd kc') /\ reordered f (snd (snd kc)) (snd (snd kc')))
      (t_cols t) (t_cols t').
