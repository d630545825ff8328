(** Model of the choice and availability summary: larch/dataset/__init__.py 1381-1524
    ([choice_avail_summary]), called by larch/numba/model.py 2086-2103 with no graph for a
    multinomial model, with the nesting tree otherwise, and of the cascades it uses
    (larch/numba/cascading.py 68-123, LogitModel.array_av_cascade / array_ch_cascade).

    Numbers are exact reals.  An exception is [None].  A cell is [option R], [None] being a
    missing value or a blank.  Not modelled: the 'name' column, the 'availability condition'
    column ([availability_co_vars] is None), and the conversion of integral columns to int
    (1503-1522), which changes no value. *)
From Coq Require Import ZArith.
From Verif Require Export LogitModel.

(** dataset/__init__.py 1399-1409, 1421: what the summary takes from the dataset: its
    alternative codes, and the 'ch', 'av' and 'wt' variables: one row per case (a row is a
    function of the position of the alternative), one weight per case. *)
Record sum_data := mkSumData {
  sd_codes : list Z;
  sd_ch : option (list (nat -> R));
  sd_av : option (list (nat -> bool));
  sd_wt : option (list R)
}.
(** dataset/__init__.py 1406-1409, 1453, 1483-1484: what it takes from the graph: the slot arrays, the codes
    of all nodes in slot order ([standard_sort]) and the code of the root. *)
Record sum_graph := mkSumGraph { sg_slots : slots; sg_sort : list Z; sg_root : Z }.

(** dataset/__init__.py 1460-1473: the columns. *)
Inductive sum_col := Chosen | Available | ChosenW | ChosenU | AvailableW | AvailableU | But | ButW | ButU.
(** dataset/__init__.py 1488-1499: the columns that get a total ('available...' is blank). *)
Definition has_total (c : sum_col) : bool :=
  match c with Available | AvailableW | AvailableU => false | _ => true end.

(** dataset/__init__.py 1459-1473: a column: its entry for each label of the index, in order. *)
Record sum_column := mkSumColumn { sc_name : sum_col; sc_cells : list (Z * option R) }.
(** dataset/__init__.py 1481-1524: the table returned: columns, and the last row. *)
Record summary := mkSummary {
  sm_columns : list sum_column;
  sm_total : list (sum_col * option R)
}.

(** helper: a boolean as a number (av_ is int8 or bool, dataset/__init__.py 1417 adds them up). *)
Definition b2r (b : bool) : R := if b then 1 else 0.
(** dataset/__init__.py 1412, 1417: [x.sum(0)], down the cases. *)
Definition sum0 (rows : list (nat -> R)) : nat -> R :=
  fold_left (fun acc row k => acc k + row k) rows (fun _ => 0).
(** dataset/__init__.py 1439: [ch_.sum()] over [m] columns. *)
Definition sum_all (m : nat) (rows : list (nat -> R)) : R :=
  fold_left (fun acc k => acc + sum0 rows k) (seq 0 m) 0.
(** dataset/__init__.py 1438: [ch_[av_ > 0] = 0], case by case. *)
Fixpoint blank_available (ch : list (nat -> R)) (av : list (nat -> bool)) : list (nat -> R) :=
  match ch, av with
  | c :: ch', a :: av' => (fun k => if a k then 0 else c k) :: blank_available ch' av'
  | _, _ => ch
  end.
(** dataset/__init__.py 1424, 1428: [(x * arr_wt.values).sum(0)] where [x] has one row per case and
    [m] columns and the weights are a one-dimensional array with one entry per case: numpy
    lines the weights up with the columns, so it works only for one case or as many cases
    as columns (with a single column and several cases the comparison at 1431 raises). *)
Definition weighted_sum (m : nat) (rows : list (nat -> R)) (wt : list R) : option (nat -> R) :=
  if (length wt =? 1)%nat then Some (sum0 (map (fun r k => r k * nth 0 wt 0) rows))
  else if (length wt =? m)%nat then Some (sum0 (map (fun r k => r k * nth k wt 0) rows))
  else None.
(** helper: [pd.Series(array, index=idx)]: entry by position (dataset/__init__.py 1462, 1464-1467, 1473). *)
Definition by_position (idx : list Z) (f : nat -> R) : list (Z * option R) :=
  map (fun p => (fst p, Some (f (snd p)))) (combine idx (seq 0 (length idx))).
(** helper: [pd.Series(series, index=idx)] where the inner series is labelled 0..m-1: entry by label, missing where
    there is no such label (dataset/__init__.py 1461, 1463). *)
Definition by_label (m : nat) (idx : list Z) (f : nat -> R) : list (Z * option R) :=
  map (fun c => (c, if ((0 <=? c) && (c <? Z.of_nat m))%Z then Some (f (Z.to_nat c)) else None)) idx.
(** dataset/__init__.py 1431: [np.any(ch != ch_w)]. *)
Definition any_differs (m : nat) (a b : nat -> R) : bool :=
  existsb (fun k => if Req_EM_T (a k) (b k) then false else true) (seq 0 m).

(** helper: the sum of a column, missing entries skipped ([result.sum()], dataset/__init__.py 1486). *)
Definition column_sum (cells : list (Z * option R)) : R :=
  fold_left (fun acc p => match snd p with Some x => acc + x | None => acc end) cells 0.
(** helper: [result.loc[label, col]] (dataset/__init__.py 1483). *)
Fixpoint lookup_label (c : Z) (cells : list (Z * option R)) : option R :=
  match cells with
  | nil => None
  | (d, v) :: rest => if (d =? c)%Z then v else lookup_label c rest
  end.

(** dataset/__init__.py 1481-1499: the table and its last row: without a graph the sums of
    the columns, with a graph the row of the root, which is then dropped. *)
Definition finish (root : option Z) (cols : list sum_column) : summary :=
  match root with
  | None => mkSummary cols
      (map (fun c => (sc_name c, if has_total (sc_name c) then Some (column_sum (sc_cells c)) else None)) cols)
  | Some r => mkSummary
      (map (fun c => mkSumColumn (sc_name c) (filter (fun p => negb (fst p =? r)%Z) (sc_cells c))) cols)
      (map (fun c => (sc_name c, if has_total (sc_name c) then lookup_label r (sc_cells c) else None)) cols)
  end.

(** dataset/__init__.py 1411-1499 once the (cascaded) choices and availability, [m] columns
    wide, and the index are known. *)
Definition summarize (m : nat) (idx : list Z) (root : option Z)
    (ch : list (nat -> R)) (av : list (nat -> bool)) (wt : option (list R)) : option summary :=
  let avr := map (fun a k => b2r (a k)) av in
  let chs := sum0 ch in
  let avs := sum0 avr in
  let left := blank_available ch av in
  let any_left := if Rlt_dec 0 (sum_all m left) then true else false in
  if negb (length idx =? m)%nat then None else
  match wt with
  | None =>
      Some (finish root (mkSumColumn Chosen (by_position idx chs) :: mkSumColumn Available (by_position idx avs) ::
        (if any_left then mkSumColumn But (by_position idx (sum0 left)) :: nil else nil)))
  | Some w =>
      match weighted_sum m ch w, weighted_sum m avr w with
      | Some chw, Some avw =>
          if any_left then None           (* 1442: ch_.columns of an ndarray *)
          else if any_differs m chs chw then
            Some (finish root (mkSumColumn ChosenW (by_label m idx chw) :: mkSumColumn ChosenU (by_position idx chs) ::
              mkSumColumn AvailableW (by_label m idx avw) :: mkSumColumn AvailableU (by_position idx avs) :: nil))
          else Some (finish root (mkSumColumn Chosen (by_position idx chs) ::
              mkSumColumn Available (by_position idx avs) :: nil))
      | _, _ => None
      end
  end.

(** cascading.py 90 and 120: [result[..., :n_elementals] = arr]: as wide as the graph has
    alternatives, or one column for all of them, or an exception. *)
Definition widen {A} (na m : nat) (rows : list (nat -> A)) : option (list (nat -> A)) :=
  if (m =? na)%nat then Some rows
  else if (m =? 1)%nat then Some (map (fun r _ => r 0%nat) rows)
  else None.

(** dataset/__init__.py 1399-1524.  Without 'ch' line 1438 raises ([None[...] = 0]) or, when
    'av' is missing as well, line 1513 does; without 'av' line 1417 raises when there is no
    graph ([np.asarray(None).sum(0)]) and line 1521 when there is one ([astype(int)] of a
    column of missing values). *)
Definition choice_avail_summary (d : sum_data) (graph : option sum_graph) : option summary :=
  match sd_ch d, sd_av d with
  | Some ch, Some av =>
      match graph with
      | None => summarize (length (sd_codes d)) (sd_codes d) None ch av (sd_wt d)
      | Some g =>
          let st := sg_slots g in
          match widen (n_alts st) (length (sd_codes d)) ch, widen (n_alts st) (length (sd_codes d)) av with
          | Some ch', Some av' =>
              summarize (n_nodes st) (sg_sort g) (Some (sg_root g))
                (map (array_ch_cascade st) ch') (map (array_av_cascade st) av') (sd_wt d)
          | _, _ => None
          end
      end
  | _, _ => None
  end.
(** numba/model.py 2086-2103: the model's own summary: the graph is not used for a multinomial model. *)
Definition model_summary (is_mnl : bool) (d : sum_data) (g : sum_graph) : option summary :=
  choice_avail_summary d (if is_mnl then None else Some g).
