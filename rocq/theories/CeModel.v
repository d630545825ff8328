(** Model of the idce side of larch/dataframes.pyx: the data setters (1490-1720, 1764-1768, 1854-1858), the
    (case, alternative) to row map (1613-1665), the reformatting methods built on it (1582-1606, 1706-1729,
    1819-1848, 1860-1871, 2316-2341), data_ce_as_ca (1667-1693) and crack_idca (239-266).
    Case ids are integers; alternatives are positions in the alternative codes. *)
From Coq Require Export ZArith List Bool Lia.
From Verif Require Export LabelModel.
Export ListNotations.
Open Scope Z_scope.

(** ** Setters of case-indexed data *)
(** A pandas frame indexed by case id (dataframes.pyx 1490-1580). *)
Definition cframe (A : Type) := list (Z * A).
(** [df.index] (1574, 1701, 1765). *)
Definition ids {A} (f : cframe A) : list Z := map fst f.
(** pandas is_monotonic_increasing (not strict). *)
Fixpoint monotonic (l : list Z) : bool :=
  match l with
  | a :: (b :: _) as r => (a <=? b) && monotonic r
  | _ => true
  end.
(** sort_index on distinct ids (pandas' default sort is not stable). *)
Fixpoint finsert {A} (x : Z * A) (f : cframe A) : cframe A :=
  match f with
  | [] => [x]
  | y :: r => if fst x <=? fst y then x :: f else y :: finsert x r
  end.
(** pandas [sort_index()] (1575, 1702, 1766). *)
Definition sort_index {A} (f : cframe A) : cframe A := fold_right finsert [] f.
(** data_co 1574-1575, data_av 1701-1702, data_ch 1765-1766. *)
Definition set_sorted {A} (f : cframe A) : cframe A := if monotonic (ids f) then f else sort_index f.
(** data_wt, 1854-1858: not sorted. *)
Definition set_data_wt {A} (f : cframe A) : cframe A := f.
(** __init__ 557-560 with 623, 653, 655, 703: co, ch, av, and weights named as a column of co (taken before
    co is sorted). *)
Record data (A B C D : Type) := mkData { data_co : cframe A; data_ch : cframe B; data_av : cframe C; data_wt : cframe D }.
Arguments mkData {A B C D}. Arguments data_co {A B C D}. Arguments data_ch {A B C D}.
Arguments data_av {A B C D}. Arguments data_wt {A B C D}.
(** DataFrames.__init__, 557-560, 623-703: the four setters in order. *)
Definition init {A B C D} (co : cframe A) (ch : cframe B) (av : cframe C) (wt_of : A -> D) : data A B C D :=
  let wt := map (fun r => (fst r, wt_of (snd r))) co in
  mkData (set_sorted co) (set_sorted ch) (set_sorted av) (set_data_wt wt).

(** ** The row map *)
(** The index of idce data: case id and alternative position of each row. *)
(** MultiIndex of data_ce, 1638-1650. *)
Definition ceindex := list (Z * nat).
(** numpy.unique of the case codes, 1648. *)
Definition cases_of (ix : ceindex) : list Z := unique (map fst ix).
(** Line 1648-1649: numpy.unique(codes, return_inverse=True): rank of the case. *)
Definition caseindexes (ix : ceindex) : list nat := map (fun r => digitize (cases_of ix) (fst r)) ix.
(** Lines 1650-1655: the alternative code of each row. *)
Definition altindexes (ix : ceindex) : list nat := map snd ix.
(** Lines 1657-1662: filled with -1 ([None]), then written row by row. *)
Definition revmap := nat -> nat -> option nat.
(** Line 1661: [reversemap[caseindex[i], altindex[i]] = i]. *)
Definition put (m : revmap) (p : nat * (nat * nat)) : revmap :=
  fun c a => if Nat.eqb c (fst (snd p)) && Nat.eqb a (snd (snd p)) then Some (fst p) else m c a.
(** Lines 1656-1662. *)
Definition reversemap (ix : ceindex) : revmap :=
  fold_left put (combine (seq 0 (length ix)) (combine (caseindexes ix) (altindexes ix))) (fun _ _ => None).
(** Its shape. *)
(** Line 1657: [caseindex.max()+1]. *)
Definition rm_cases (ix : ceindex) : nat := S (maxn (caseindexes ix)).
(** Line 1657: [altindex.max()+1]. *)
Definition rm_alts (ix : ceindex) : nat := S (maxn (altindexes ix)).

(** ** Reformatting to idce *)
(** [result[row, :] = ...] (1602, 1727, 1845, 1868, 2338). *)
Definition set_nth {A} (l : list A) (i : nat) (v : A) : list A :=
  if Nat.ltb i (length l) then firstn i l ++ v :: skipn (S i) l else l.
(** The two nested loops over cases and alternatives (1598-1600, 2333-2335). *)
Definition cells (n m : nat) : list (nat * nat) := list_prod (seq 0 n) (seq 0 m).
(** One pass of the inner loop (1600-1604, 1725-1728, 1843-1847, 2336-2340). *)
Definition spread {A} (m : revmap) (arr : nat -> nat -> A) (out : list A) (ca : nat * nat) : list A :=
  match m (fst ca) (snd ca) with Some row => set_nth out row (arr (fst ca) (snd ca)) | None => out end.
(** data_ch_as_ce 1840-1847, data_av_as_ce 1722-1728, data_wt_as_ce 1863-1870 and data_co_as_ce 1597-1605
    (the array does not depend on the alternative in the last two). *)
Definition as_ce {A} (ix : ceindex) (zero : A) (arr : nat -> nat -> A) : list A :=
  fold_left (spread (reversemap ix) arr) (cells (rm_cases ix) (rm_alts ix)) (repeat zero (length ix)).
(** data_co_as_ce, 1606: the result is labelled [columns=['weight']], which pandas refuses unless there is
    exactly one column. *)
Definition data_co_as_ce {A} (ix : ceindex) (n_vars : nat) (zero : A) (arr : nat -> nat -> A) : option (list (list A)) :=
  if Nat.eqb n_vars 1 then Some (map (fun v => [v]) (as_ce ix zero (fun c _ => arr c 0%nat))) else None.
(** array_to_ce 2316-2341 runs over all cases and alternatives of the DataFrames; outside the map's shape
    the bounds check raises. *)
Definition array_to_ce {A} (ix : ceindex) (n_cases n_alts : nat) (zero : A) (arr : nat -> nat -> A) : option (list A) :=
  if Nat.leb n_cases (rm_cases ix) && Nat.leb n_alts (rm_alts ix)
  then Some (fold_left (spread (reversemap ix) arr) (cells n_cases n_alts) (repeat zero (length ix)))
  else None.
(** __init__ 659: availability built from the map. *)
Definition av_from_ce (ix : ceindex) (c a : nat) : bool := match reversemap ix c a with Some _ => true | None => false end.

(** ** data_ce_as_ca, 1667-1693: unstack, fill with zero, stack.  pandas drops levels that are not used, and
    refuses duplicates ([None]). *)
Definition alts_of (ix : ceindex) : list nat := map Z.to_nat (unique (map (fun r => Z.of_nat (snd r)) ix)).
(** Equality of (case, alternative) labels in pandas unstack (1683). *)
Definition eq_key (x y : Z * nat) : bool := (fst x =? fst y) && Nat.eqb (snd x) (snd y).
(** pandas unstack refuses a repeated index entry (1683). *)
Fixpoint has_dup (ix : ceindex) : bool :=
  match ix with [] => false | k :: r => existsb (eq_key k) r || has_dup r end.
(** The cell pandas unstack puts at a label (1683). *)
Fixpoint find_row {A} (rows : list ((Z * nat) * A)) (k : Z * nat) : option A :=
  match rows with [] => None | (k', v) :: r => if eq_key k' k then Some v else find_row r k end.
(** data_ce_as_ca, 1667-1693. *)
Definition data_ce_as_ca {A} (zero : A) (rows : list ((Z * nat) * A)) : option (list ((Z * nat) * A)) :=
  let ix := map fst rows in
  if has_dup ix then None
  else Some (map (fun k => (k, match find_row rows k with Some v => v | None => zero end))
                 (list_prod (cases_of ix) (alts_of ix))).

(** ** crack_idca, 239-266.  Cells are real numbers, here integers; NaN is [None]. *)
Definition arow := (Z * list (option Z))%type.
(** One cell (239-266). *)
Definition colval (j : nat) (r : arow) : option Z := nth j (snd r) None.
(** [df.groupby(caseid)] (255): the rows of one case. *)
Definition group (c : Z) (rows : list arow) : list arow := filter (fun r => fst r =? c) rows.
(** The values pandas aggregates: those that are not NaN (260, 266). *)
Definition vals (j : nat) (rows : list arow) : list Z :=
  flat_map (fun r => match colval j r with Some v => [v] | None => [] end) rows.
(** Line 260: [std()] of the values that are not NaN is a non-zero number iff two of them differ (NaN, skipped by
    [any()], for fewer than two). *)
Definition varies (l : list Z) : bool := match l with [] => false | v :: r => existsb (fun w => negb (w =? v)) r end.
(** Lines 260-263: a column is kept in idca iff it varies within some case. *)
Definition is_ca (rows : list arow) (j : nat) : bool :=
  existsb (fun c => varies (vals j (group c rows))) (unique (map fst rows)).
(** Line 266: [g[_to_co].first()]: the first value that is not NaN, by case in increasing order. *)
Definition crack_idca (n_cols : nat) (rows : list arow) : list arow * list arow :=
  let ca := filter (is_ca rows) (seq 0 n_cols) in
  let co := filter (fun j => negb (is_ca rows j)) (seq 0 n_cols) in
  (map (fun r => (fst r, map (fun j => colval j r) ca)) rows,
   map (fun c => (c, map (fun j => hd_error (vals j (group c rows))) co)) (unique (map fst rows))).
(** Columns left in idca, 260-264. *)
Definition ca_columns (n_cols : nat) (rows : list arow) : list nat := filter (is_ca rows) (seq 0 n_cols).
(** Columns moved to idco, 260-264. *)
Definition co_columns (n_cols : nat) (rows : list arow) : list nat := filter (fun j => negb (is_ca rows j)) (seq 0 n_cols).
