(** Model of larch/troubleshooting.py (doctor and its checks, 12-378) with
    DataFrames.get_zero_quantity_ca (larch/dataframes.pyx 2600-2650, 2701-2729) and data_av_cascade
    (larch/dataframes.pyx 1731-1757).
    Choices are exact numbers (not NaN); quantities, weights and case data may be NaN ([None]).
    low_variance_data_co (381-430), which changes nothing and cannot be repaired, is not modelled. *)
From Verif Require Export WtModel.
Open Scope R_scope.

(** The data: choices, weights, normalization ([base], as in WtModel), availability, the quantity values of each
    cell ([None] when no quantity is defined or no model is attached), whether the cell has a row (always, for
    idca data), the case data. *)
(** DataFrames as the doctor sees them (troubleshooting.py 96-109, 178-185, 256-259, 314, 367). *)
Record dd := mkDD {
  base : dfs; av : list (list Z); qty : option (nat -> nat -> list (option R)); has_row : nat -> nat -> bool;
  co : option (list (list (option R))) }.
(** Assignment to the choices, weights or normalization (troubleshooting.py 136, 210, 274-277). *)
Definition with_base (d : dd) (b : dfs) : dd := mkDD b (av d) (qty d) (has_row d) (co d).
(** [dfs.data_ch.values[...] = 0] (troubleshooting.py 136, 210). *)
Definition with_ch (d : dd) (c : list (list R)) : dd := with_base d (mkD (d_n (base d)) c (d_wt (base d)) (d_norm (base d))).
(** [dfs.array_wt()[...] = 0], [data_wt.fillna] (troubleshooting.py 274, 329). *)
Definition with_wt (d : dd) (w : option (list (option R))) : dd := with_base d (mkD (d_n (base d)) (d_ch (base d)) w (d_norm (base d))).
(** [dfs.data_av.values[...] = 1] (troubleshooting.py 134). *)
Definition with_av (d : dd) (a : list (list Z)) : dd := mkDD (base d) a (qty d) (has_row d) (co d).
(** [dfs.data_co.fillna] (troubleshooting.py 372). *)
Definition with_co (d : dd) (c : option (list (list (option R)))) : dd := mkDD (base d) (av d) (qty d) (has_row d) c.

(** The boolean frame (troubleshooting.py 112-116, 188-192). *)
Definition mask := list (list bool).
(** troubleshooting.py 108-116 (184-192): two arrays compared cell by cell, cut to the narrower ([combine] cuts). *)
Definition zip_rows {A B} (f : A -> B -> bool) (a : list (list A)) (b : list (list B)) : mask :=
  map (fun p => map (fun q => f (fst q) (snd q)) (combine (fst p) (snd p))) (combine a b).
(** Boolean assignment [arr.values[mask] = v] (troubleshooting.py 134, 136, 210); numpy raises ([None]) unless the shapes agree. *)
Fixpoint same_shape {A} (m : mask) (arr : list (list A)) : bool :=
  match m, arr with
  | [], [] => true
  | x :: m, r :: arr => Nat.eqb (length x) (length r) && same_shape m arr
  | _, _ => false
  end.
(** One row of the boolean assignment (troubleshooting.py 134, 136, 210). *)
Definition assign_row {A} (v : A) (x : list bool) (r : list A) : list A := map (fun p => if fst p : bool then v else snd p) (combine x r).
(** Boolean assignment (troubleshooting.py 134, 136, 210). *)
Definition assign {A} (m : mask) (v : A) (arr : list (list A)) : option (list (list A)) :=
  if same_shape m arr then Some (map (fun p => assign_row v (fst p) (snd p)) (combine m arr)) else None.
(** troubleshooting.py 117-131 (193-207): the number of flagged cells of each alternative that has any, and the first
    [verbose] flagged cases. *)
Definition cell (m : mask) (i j : nat) : bool := nth j (nth i m []) false.
(** [i1[i2 == colnum]] (troubleshooting.py 122, 131, 198, 207). *)
Definition flagged (m : mask) (j : nat) : list nat := filter (fun i => cell m i j) (seq 0 (length m)).
(** Number of columns of the mask (troubleshooting.py 115, 129). *)
Definition ncols (m : mask) : nat := length (hd [] m).
(** The diagnosis frame: alternative, count, example rows (troubleshooting.py 124-131, 200-207). *)
Definition diagnosis := list (nat * nat * list nat).
(** troubleshooting.py 117-131, 193-207. *)
Definition diagnose (verbose : nat) (m : mask) : option diagnosis :=
  match filter (fun j => negb (Nat.eqb (length (flagged m j)) 0)) (seq 0 (ncols m)) with
  | [] => None
  | js => Some (map (fun j => (j, length (flagged m j), firstn verbose (flagged m j))) js)
  end.

(** The [repair] argument: None, '+', '-', '*' (troubleshooting.py 79-83, 153-156, 228-232). *)
Inductive repair := Keep | Plus | Minus | Star.
(** [data_ch > 0] (troubleshooting.py 109, 185). *)
Definition chosen (c : R) : bool := Rltb 0 c.

(** ** chosen_but_not_available, 71-141 *)
(** data_av_cascade, dataframes.pyx 1731-1757: [edges] lists (node, parent) in the order of the loops. *)
Definition upd_row (r : list Z) (e : nat * nat) : list Z :=
  let up := snd e in
  if Nat.ltb up (length r) then firstn up r ++ Z.lor (nth up r 0%Z) (nth (fst e) r 0%Z) :: skipn (S up) r else r.
(** data_av_cascade, dataframes.pyx 1731-1757. *)
Definition av_cascade (edges : list (nat * nat)) (n_nodes : nat) (r : list Z) : list Z :=
  fold_left upd_row edges (r ++ repeat 0%Z (n_nodes - length r)).
(** troubleshooting.py 96-106: the model's graph, if the data belong to a model. *)
Definition graph := option (list (nat * nat) * nat).
(** [data_ch.shape[1] == len(m.graph)] (troubleshooting.py 102). *)
Definition wide (g : graph) (d : dd) : bool :=
  match g with Some (_, n) => Nat.eqb (length (hd [] (d_ch (base d)))) n | None => false end.
(** troubleshooting.py 102-106. *)
Definition av_view (g : graph) (d : dd) : list (list Z) :=
  match g with Some (edges, n) => if wide g d then map (av_cascade edges n) (av d) else av d | None => av d end.
(** troubleshooting.py 108-116. *)
Definition av_mask (g : graph) (d : dd) : mask := zip_rows (fun a c => (a =? 0)%Z && chosen c) (av_view g d) (d_ch (base d)).
(** troubleshooting.py 71-141. *)
Definition chosen_but_not_available (g : graph) (r : repair) (verbose : nat) (d : dd) : option (dd * option diagnosis) :=
  let m := av_mask g d in
  match diagnose verbose m with
  | None => Some (d, None)
  | diag =>
    match r with
    | Plus => option_map (fun a => (with_av d a, diag)) (assign m 1%Z (av d))
    | Minus => option_map (fun c => (with_ch d c, diag)) (assign m 0 (d_ch (base d)))
    | _ => Some (d, diag)
    end
  end.

(** ** chosen_but_zero_quantity, 145-215 *)
(** A C float is true unless it is zero: NaN is true (dataframes.pyx 2600-2650). *)
Definition is_zero (q : option R) : bool := match q with Some q => Req0 q | None => false end.
(** get_zero_quantity_ca: the availability of the cell if it is available, has a row and all quantities are
    zero, else zero; then (line 184) [> 0]. *)
Definition zero_q (d : dd) : option (list (list bool)) :=
  match qty d with
  | None => None
  | Some q => Some (map (fun p => map (fun s => (0 <? snd s)%Z && has_row d (fst p) (fst s) && forallb is_zero (q (fst p) (fst s)))
                                      (combine (seq 0 (length (snd p))) (snd p)))
                        (combine (seq 0 (length (av d))) (av d)))
  end.
(** troubleshooting.py 145-215; the ValueError of line 170 is [None]. *)
Definition chosen_but_zero_quantity (r : repair) (verbose : nat) (d : dd) : option (dd * option diagnosis) :=
  match r with
  | Keep | Minus =>
    match zero_q d with
    | None => Some (d, None)
    | Some z =>
      let m := zip_rows (fun (x : bool) c => x && chosen c) z (d_ch (base d)) in
      match diagnose verbose m with
      | None => Some (d, None)
      | diag =>
        match r with
        | Minus => option_map (fun c => (with_ch d c, diag)) (assign m 0 (d_ch (base d)))
        | _ => Some (d, diag)
        end
      end
    end
  | _ => None
  end.

(** ** nothing_chosen_but_nonzero_weight, 220-281 *)
(** troubleshooting.py 258: [array_ch().sum(1) == 0]. *)
Definition nothing (row : list R) : bool := Req0 (sum row).
(** troubleshooting.py 259: [array_wt() > 0], false for NaN. *)
Definition positive (w : option R) : bool := match w with Some w => Rltb 0 w | None => false end.
(** troubleshooting.py 259. *)
Definition flag_wt (ch : list (list R)) (wt : list (option R)) : list bool :=
  map (fun p => nothing (fst p) && positive (snd p)) (combine ch wt).
(** troubleshooting.py 274, 276: [array_wt()[nothing_chosen] = 0]: every case without a choice, also those with a NaN weight. *)
Definition zero_wt (ch : list (list R)) (wt : list (option R)) : list (option R) :=
  map (fun p => if nothing (fst p) then Some 0 else snd p) (combine ch wt).
(** troubleshooting.py 220-281; the ValueError of line 272 is [None]. *)
Definition nothing_chosen_but_nonzero_weight (r : repair) (verbose : nat) (d : dd) : option (dd * option (nat * list nat)) :=
  match d_wt (base d) with
  | None => Some (d, None)
  | Some wt =>
    let f := flag_wt (d_ch (base d)) wt in
    match filter (fun i => nth i f false) (seq 0 (length f)) with
    | [] => Some (d, None)
    | rows =>
      let diag := Some (length rows, firstn verbose rows) in
      let d0 := with_wt d (Some (zero_wt (d_ch (base d)) wt)) in
      match r with
      | Plus => None
      | Minus => Some (d0, diag)
      | Star => Some (with_base d0 (snd (autoscale_weights (base d0))), diag)
      | Keep => Some (d, diag)
      end
    end
  end.

(** ** nan_weight, 284-334, and nan_data_co, 337-377 *)
(** numpy.isnan (troubleshooting.py 315, 368). *)
Definition isnan {A} (x : option A) : bool := match x with None => true | Some _ => false end.
(** pandas fillna(0) (troubleshooting.py 329, 372). *)
Definition fillna (x : option R) : option R := match x with None => Some 0 | Some v => Some v end.
(** troubleshooting.py 284-334. *)
Definition nan_weight (fix_it : bool) (verbose : nat) (d : dd) : dd * option (nat * list nat) :=
  match d_wt (base d) with
  | None => (d, None)
  | Some wt =>
    let rows := filter (fun i => isnan (nth i wt (Some 0))) (seq 0 (length wt)) in
    (if fix_it then with_wt d (Some (map fillna wt)) else d,
     match rows with [] => None | _ => Some (length rows, firstn verbose rows) end)
  end.
(** Column sums of isnan (troubleshooting.py 368). *)
Definition nan_count (j : nat) (rows : list (list (option R))) : nat :=
  length (filter (fun r => isnan (nth j r (Some 0))) rows).
(** troubleshooting.py 337-377. *)
Definition nan_data_co (fix_it : bool) (verbose : nat) (d : dd) : dd * option (list (nat * nat)) :=
  match co d with
  | None => (d, None)
  | Some rows =>
    let cols := filter (fun j => negb (Nat.eqb (nan_count j rows) 0)) (seq 0 (length (hd [] rows))) in
    (if fix_it then with_co d (Some (map (map fillna) rows)) else d,
     match cols with [] => None | _ => Some (firstn verbose (map (fun j => (j, nan_count j rows)) cols)) end)
  end.

(** ** doctor, 12-67 (without the low variance check). *)
(** The repair arguments of [doctor] (troubleshooting.py 12-21). *)
Record repairs := mkRepairs { ch_av : repair; ch_zq : repair; noch_nowt : repair; nan_wt : bool; nan_co : bool }.
(** The [problems] dictionary (troubleshooting.py 22, 27-61). *)
Record problems := mkProblems {
  p_zq : option diagnosis; p_av : option diagnosis; p_noch : option (nat * list nat);
  p_nanwt : option (nat * list nat); p_nanco : option (list (nat * nat)) }.
(** troubleshooting.py 12-67. *)
Definition doctor (g : graph) (r : repairs) (verbose : nat) (d : dd) : option (dd * problems) :=
  match chosen_but_zero_quantity (ch_zq r) verbose d with
  | None => None
  | Some (d, zq) =>
    match chosen_but_not_available g (ch_av r) verbose d with
    | None => None
    | Some (d, cav) =>
      match nothing_chosen_but_nonzero_weight (noch_nowt r) verbose d with
      | None => None
      | Some (d, nch) =>
        let (d, nwt) := nan_weight (nan_wt r) verbose d in
        let (d, nco) := nan_data_co (nan_co r) verbose d in
        Some (d, mkProblems zq cav nch nwt nco)
      end
    end
  end.
