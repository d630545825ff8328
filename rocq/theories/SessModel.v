(** Model of the evaluation methods of larch/numba/model.py: [_loglike_runner] (1362-1433) with the work arrays it
    writes into (859-897, 1068-1104), the kernel under its return flags (264-499, 516-653), and the methods built on
    it: loglike, d_loglike, loglike_casewise, d_loglike_casewise, bhhh, probability, utility, quantity, logsums,
    loglike2, loglike2_bhhh (1441-1796), constraint_converge_tolerance up to its sums (1334-1360), and
    [_wrap_as_dataframe] (1565-1608).
    Arrays returned without arithmetic are views of the work arrays; results of arithmetic are copies.
    The cases of a call are independent of each other, so the order in which the parallel kernel takes them does not
    matter; they are taken in slice order here.
    Not modelled: rounding; the retry without output arrays after a ValueError (1392-1396), which a model whose work
    arrays have the shape of its data does not meet; which parameters a vector of values may move (C25); the cache
    of the best parameters (C30).  The penalty is any function of the intensity and the values
    (constraint_penalty, 1304-1332, is the subject of C40). *)
From Coq Require Export ZArith.
From Verif Require Export UtilityModel.

(** ** The kernel under its flags *)
(** return_flags, 572-576 and 293-297. *)
Record flags := mkF { f_util : nat; f_prob : bool; f_grad : bool; f_bhhh : bool }.
(** One case's rows of the WorkArrays, 867-870. *)
Record wcase := mkW {
  w_util : nat -> option R; w_lp : nat -> option R; w_prob : nat -> R;
  w_bh : nat -> nat -> R; w_dll : nat -> R; w_ll : option R }.
(** 1095-1104: new work arrays are zero. *)
Definition zero_work : wcase := mkW (fun _ => Some 0) (fun _ => Some 0) (fun _ => 0) (fun _ _ => 0) (fun _ => 0) (Some 0).
(** The FixedArrays and the holdfast column, 874-884 and 1234-1236. *)
Record fixed := mkX {
  x_st : slots; x_hold : nat -> bool;
  x_q : list term; x_qs : option nat; x_ca : list term; x_co : list coterm }.
(** One case of the DataArrays (data_arrays.py 26-34); [dc_av], [dc_ch] are the elemental columns, rolled up by
    cascading.py as in [run_case]. *)
Record dcase := mkC { dc_av : nat -> bool; dc_ch : nat -> R; dc_wt : R; dc_data : idca; dc_co : nat -> R }.

(** 603-609: the size of each alternative, recovered from its logarithm. *)
Definition quantity_values (x : fixed) (par : nat -> R) (c : dcase) : nat -> option R :=
  let s := quantity_from_data_ca par (x_hold x) (n_alts (x_st x)) (x_q x) (x_qs x) (dc_av c) (dc_data c) (fun _ => Some 0, fun _ _ => 0) in
  fun k => if (k <? n_alts (x_st x))%nat
           then Some (match fst s k with Some v => exp (v / q_scale_value par (x_qs x)) | None => 0 end)
           else Some 0.

(** 264-499 and 578-653: one case, from the previous contents [w] of its work arrays to the new ones. *)
Definition kern (x : fixed) (par : nat -> R) (f : flags) (c : dcase) (w : wcase) : wcase :=
  let st := x_st x in
  if (f_util f =? 3)%nat then
    mkW (quantity_values x par c) (w_lp w) (w_prob w) (w_bh w) (w_dll w) (w_ll w)
  else
    let s := utilities par (x_hold x) (n_alts st) (x_q x) (x_qs x) (x_ca x) (x_co x) (dc_av c) (dc_data c) (dc_co c) in
    if (f_util f =? 1)%nat then
      mkW (init_utility st (fst s)) (w_lp w) (w_prob w) (w_bh w) (w_dll w) (w_ll w)
    else
      let avx := array_av_cascade st (dc_av c) in
      let chx := array_ch_cascade st (dc_ch c) in
      let U := node_utilities st par (fst s) in
      if (f_util f =? 2)%nat then
        mkW U (w_lp w) (w_prob w) (w_bh w) (w_dll w) (Some 0)
      else
        let (lp, ll) := logprob_loop st par U chx (dc_wt c) (w_lp w) in
        if f_prob f || f_grad f || f_bhhh f then
          let cp := cond_prob avx lp in
          let lp' := fun i => if avx i then Some (cp i) else lp i in
          let P := probabilities st avx cp (w_prob w) in
          if f_grad f || f_bhhh f then
            let D := dutility_loop st par avx U cp (fun k p => if (k <? n_alts st)%nat then snd s k p else 0) in
            let DP := dprob_loop st par chx U cp P D in
            let (dll, bh) := dll_loop st chx P (dc_wt c) DP in
            mkW U lp' P (if f_bhhh f then bh else w_bh w) dll ll
          else mkW U lp' P (w_bh w) (w_dll w) ll
        else mkW U lp (w_prob w) (w_bh w) (w_dll w) ll.

(** ** Slices *)
(** CPython's slice.indices, as applied by numpy at 864 and data_arrays.py 20: one end, limited to the array. *)
Definition slice_end (n : nat) (neg : bool) (v : Z) : Z :=
  let n := Z.of_nat n in
  if (v <? 0)%Z then (if (v + n <? 0)%Z then (if neg then -1 else 0) else v + n)%Z
  else if (n <=? v)%Z then (if neg then n - 1 else n)%Z else v.
(** (start_case, stop_case, step_case), 1374. *)
Record pyslice := mkS { s_start : option Z; s_stop : option Z; s_step : option Z }.
(** 899: the default, all cases. *)
Definition null_slice : pyslice := mkS None None None.
(** The positions [slice(start, stop, step)] selects from [n] (1374, 864); [None] is the ValueError for a step of
    zero. *)
Definition positions (n : nat) (s : pyslice) : option (list nat) :=
  let step := match s_step s with Some z => z | None => 1%Z end in
  if (step =? 0)%Z then None
  else
    let neg := (step <? 0)%Z in
    let a := match s_start s with Some v => slice_end n neg v | None => if neg then (Z.of_nat n - 1)%Z else 0%Z end in
    let b := match s_stop s with Some v => slice_end n neg v | None => if neg then (-1)%Z else Z.of_nat n end in
    let len := if neg then (if (b <? a)%Z then ((a - b - 1) / (- step) + 1)%Z else 0%Z)
               else (if (a <? b)%Z then ((b - a - 1) / step + 1)%Z else 0%Z) in
    Some (map (fun i => Z.to_nat (a + Z.of_nat i * step)) (seq 0 (Z.to_nat len))).

(** ** The session *)
(** What stays the same: fixed arrays, data, penalty as a function of intensity and values, weight_normalization (874-897, 1304-1332, 1413). *)
Record nmodel := mkM {
  m_x : fixed; m_n : nat; m_case : nat -> dcase;
  m_pen : R -> (nat -> R) -> R * (nat -> R) * (nat -> R);   (* penalty, d_penalty, d_penalty_binding: 1332 *)
  m_norm : R }.
(** What changes: the values, constraint_intensity (912) and the work arrays.  Work arrays made anew (1095-1104) are other
    memory: [v_heap g] are the ones made in the [g]th place, [v_gen] is the number of those in use. *)
Record sess := mkSess { v_par : nat -> R; v_int : R; v_gen : nat; v_heap : nat -> nat -> wcase }.
(** self.work_arrays (1390). *)
Definition v_work (s : sess) : nat -> wcase := v_heap s (v_gen s).
(** The session after a call that set the values [par] and left [W] in the work arrays (1388-1406). *)
Definition left_in (s : sess) (par : nat -> R) (W : nat -> wcase) : sess :=
  mkSess par (v_int s) (v_gen s) (upd (v_heap s) (v_gen s) W).

(** 1388-1391: the kernel on the rows of the slice. *)
Definition run_rows (m : nmodel) (par : nat -> R) (f : flags) (idx : list nat) (W : nat -> wcase) : nat -> wcase :=
  fold_left (fun W i => upd W i (kern (m_x m) par f (m_case m i) (W i))) idx W.
(** 1400-1406 (1353-1355): the penalty on the rows of the slice. *)
Definition penal (pen : R) (d : nat -> R) (w : wcase) : wcase :=
  let g := fun p => w_dll w p + d p in
  mkW (w_util w) (w_lp w) (w_prob w) (fun p q => g p * g q) g (oadd (w_ll w) (Some pen)).
(** 1398-1408. *)
Definition pen_rows (m : nmodel) (k : R) (par : nat -> R) (idx : list nat) (W : nat -> wcase) : nat -> wcase :=
  if Req_EM_T k 0 then W
  else let '(pen, d, _) := m_pen m k par in fold_left (fun W i => upd W i (penal pen d (W i))) idx W.
(** [_loglike_runner], 1362-1408 and 1193-1238: new values are set first; [None] is an exception. *)
Definition runner (m : nmodel) (s : sess) (x : option (nat -> R)) (f : flags) (sl : pyslice) : sess * option (list nat) :=
  let par := match x with Some v => v | None => v_par s end in
  match positions (m_n m) sl with
  | None => (mkSess par (v_int s) (v_gen s) (v_heap s), None)
  | Some idx => (left_in s par (pen_rows m (v_int s) par idx (run_rows m par f idx (v_work s))), Some idx)
  end.

(** The methods.  [Qll2]'s integers are leave_out, keep_only and subsample (1732-1734). *)
Inductive query :=
| Qll | Qdll | Qll_casewise | Qdll_casewise | Qbhhh | Qprob (nests : bool) | Qutil | Qquant | Qlogsums
| Qll2 (leave_out keep_only subsample : Z) | Qll2_bhhh (leave_out keep_only subsample : Z).
(** The flags each method sets: 1477, 1498-1504, 1519-1524, 1535-1541, 1554-1560, 1622-1627, 1684-1689, 1709-1714,
    1729-1734, 1756-1761, 1782-1788. *)
Definition flags_of (q : query) : flags :=
  match q with
  | Qll | Qll_casewise => mkF 0 false false false
  | Qdll | Qdll_casewise | Qll2 _ _ _ => mkF 0 false true false
  | Qbhhh => mkF 0 false false true
  | Qprob _ => mkF 0 true false false
  | Qutil | Qlogsums => mkF 2 false false false
  | Qquant => mkF 3 false false false
  | Qll2_bhhh _ _ _ => mkF 0 false true true
  end.

(** Which work array a view looks at (1620, 1684, 1709). *)
Inductive field := FUtil | FProb.
(** What a method hands back (1479, 1506, 1526, 1543, 1562, 1629, 1691, 1716, 1739, 1763-1766, 1789-1800): numbers and new arrays, or a
    view of columns [cols], rows [idx] of a work array (of a certain set of work arrays). *)
Inductive response :=
| RNum (x : option R) | RVec (v : nat -> R) | RMat (a : nat -> nat -> R)
| RNums (l : list (option R)) | RVecs (l : list (nat -> R))
| RLl2 (x : option R) (v : nat -> R) | RLl2b (x : option R) (v : nat -> R) (a : nat -> nat -> R) (penalty : R)
| RView (gen : nat) (f : field) (cols : list nat) (idx : list nat)
| RError.

(** [.sum()] of the log likelihoods of the rows times weight_normalization (1479). *)
Definition scale_o (k : R) (x : option R) : option R := match x with Some v => Some (v * k) | None => None end.
(** [.sum()] (1479). *)
Definition osum (l : list (option R)) : option R := fold_left oadd l (Some 0).
(** [.sum(0)] of vectors (1506). *)
Definition vsum (l : list (nat -> R)) (p : nat) : R := fold_left (fun a v => a + v p) l 0.
(** [.sum(0)] of matrices (1562). *)
Definition msum (l : list (nat -> nat -> R)) (p q : nat) : R := fold_left (fun a v => a + v p q) l 0.
(** The [penalty] returned with the arrays, 1399 and 1408. *)
Definition penalty_value (m : nmodel) (s : sess) : R :=
  if Req_EM_T (v_int s) 0 then 0 else fst (fst (m_pen m (v_int s) (v_par s))).
(** 1441-1800: one method call. *)
Definition reply (m : nmodel) (s : sess) (q : query) (idx : list nat) : response :=
  let W := v_work s in
  let k := m_norm m in
  let ll := scale_o k (osum (map (fun i => w_ll (W i)) idx)) in
  let dll := fun p => vsum (map (fun i => w_dll (W i)) idx) p * k in
  let bh := fun p r => msum (map (fun i => w_bh (W i)) idx) p r * k in
  let st := x_st (m_x m) in
  match q with
  | Qll => RNum ll
  | Qdll => RVec dll
  | Qll_casewise => RNums (map (fun i => scale_o k (w_ll (W i))) idx)
  | Qdll_casewise => RVecs (map (fun i p => w_dll (W i) p * k) idx)
  | Qbhhh => RMat bh
  | Qprob nests => RView (v_gen s) FProb (seq 0 (if nests then n_nodes st else n_alts st)) idx
  | Qutil | Qquant => RView (v_gen s) FUtil (seq 0 (n_nodes st)) idx
  | Qlogsums => RView (v_gen s) FUtil [(n_nodes st - 1)%nat] idx
  | Qll2 _ _ _ => RLl2 ll dll
  | Qll2_bhhh _ _ _ => RLl2b ll dll bh (penalty_value m s)
  end.

(** Things done to a model between or in evaluations: set_values; constraint_intensity assigned (912); the work
    arrays made anew after a change that needs it (918-927, 1068-1104); constraint_converge_tolerance (1334-1360);
    a method call. *)
Inductive op :=
| OSet (v : nat -> R)
| OIntensity (k : R)
| ORemake
| OTolerance (x : option (nat -> R))
| OCall (q : query) (x : option (nat -> R)) (sl : pyslice).
(** 1334-1358: the kernel on all rows; the penalty with its binding derivative; the sums used for the direction. *)
Definition tolerance (m : nmodel) (s : sess) (x : option (nat -> R)) : sess * response :=
  let par := match x with Some v => v | None => v_par s end in
  let idx := seq 0 (m_n m) in
  let W := run_rows m par (mkF 0 false true true) idx (v_work s) in
  let W' := if Req_EM_T (v_int s) 0 then W
            else let '(pen, _, d) := m_pen m (v_int s) par in fold_left (fun W i => upd W i (penal pen d (W i))) idx W in
  (left_in s par W',
   RLl2b (osum (map (fun i => w_ll (W' i)) idx)) (vsum (map (fun i => w_dll (W' i)) idx)) (msum (map (fun i => w_bh (W' i)) idx)) 0).
(** One operation and what it hands back (1441-1796). *)
Definition step (m : nmodel) (s : sess) (o : op) : sess * response :=
  match o with
  | OSet v => (mkSess v (v_int s) (v_gen s) (v_heap s), RError)
  | OIntensity k => (mkSess (v_par s) k (v_gen s) (v_heap s), RError)
  | ORemake => (mkSess (v_par s) (v_int s) (S (v_gen s)) (upd (v_heap s) (S (v_gen s)) (fun _ => zero_work)), RError)
  | OTolerance x => tolerance m s x
  | OCall q x sl =>
    match runner m s x (flags_of q) sl with
    | (s', None) => (s', RError)
    | (s', Some idx) => (s', reply m s' q idx)
    end
  end.
(** Several in a row (1441-1796). *)
Definition after (m : nmodel) (s : sess) (ops : list op) : sess := fold_left (fun s o => fst (step m s o)) ops s.

(** What the caller sees when looking at a response (1441-1796): a view shows the work arrays as they are now. *)
Inductive seen :=
| SNum (x : option R) | SVec (v : nat -> R) | SMat (a : nat -> nat -> R)
| SNums (l : list (option R)) | SVecs (l : list (nat -> R))
| SLl2 (x : option R) (v : nat -> R) | SLl2b (x : option R) (v : nat -> R) (a : nat -> nat -> R) (penalty : R)
| STable (rows : list (list (option R)))
| SNothing.
(** A cell of a work array (867-870). *)
Definition cell (f : field) (w : wcase) (k : nat) : option R :=
  match f with FUtil => w_util w k | FProb => Some (w_prob w k) end.
(** A view (1628, 1691, 1716, 1739) read in session [s]. *)
Definition look (s : sess) (r : response) : seen :=
  match r with
  | RNum x => SNum x | RVec v => SVec v | RMat a => SMat a | RNums l => SNums l | RVecs l => SVecs l
  | RLl2 x v => SLl2 x v | RLl2b x v a p => SLl2b x v a p
  | RView g f cols idx => STable (map (fun i => map (cell f (v_heap s g i)) cols) idx)
  | RError => SNothing
  end.
(** The transcript of a session: each response looked at when it is returned (1441-1796). *)
Fixpoint transcript (m : nmodel) (s : sess) (ops : list op) : list seen :=
  match ops with
  | [] => []
  | o :: r => let (s', a) := step m s o in look s' a :: transcript m s' r
  end.

(** ** Labels: [_wrap_as_dataframe], 1565-1608 *)
(** return_dataframe / return_format: not given; 'names'; 'dataarray'; 'idce'; 'idca'; any other true value (1572-1608). *)
Inductive format := FmtNone | FmtNames | FmtDataArray | FmtIdce | FmtIdca | FmtFrame.
(** The labels a model has: case ids of the datatree ([None] when it has none, 1574), node codes and names in
    standard order (1579, 1587), the stacked availability of [_dataframes] if it has one (1597). *)
Record labels := mkLab { l_ids : option (list Z); l_codes : list Z; l_names : list Z; l_av : option (list bool) }.
(** A labelled result (1575-1608). *)
Inductive wrapped :=
| WArray (rows : list (list (option R)))
| WFrame (idx : list Z) (cols : list Z) (rows : list (list (option R)))
| WSeries (cells : list (Z * Z * option R))
| WRaise.
(** helper: the default integer index when [idx] is None (1576, 1592). *)
Definition range_index (n : nat) : list Z := map Z.of_nat (seq 0 n).
(** pd.DataFrame / DataArray refuse labels of another length (1577, 1583, 1590). *)
Definition make_frame (idx cols : list Z) (w : nat) (rows : list (list (option R))) : wrapped :=
  if (length idx =? length rows)%nat && (length cols =? w)%nat then WFrame idx cols rows else WRaise.
(** DataFrame.stack (1597, 1599; NaN, which would be dropped, does not occur). *)
Definition stack (idx cols : list Z) (rows : list (list (option R))) : list (Z * Z * option R) :=
  flat_map (fun ir => map (fun cv => (fst ir, fst cv, snd cv)) (combine cols (snd ir))) (combine idx rows).
(** A boolean mask (1597): raises on another length. *)
Fixpoint mask {A} (b : list bool) (l : list A) : option (list A) :=
  match b, l with
  | [], [] => Some []
  | x :: b, y :: l => match mask b l with Some r => Some (if x then y :: r else r) | None => None end
  | _, _ => None
  end.
(** helper: numpy / pandas [a[start:stop:step]] (1575). *)
Definition take {A} (d : A) (sl : pyslice) (l : list A) : option (list A) :=
  match positions (length l) sl with Some idx => Some (map (fun i => nth i l d) idx) | None => None end.
(** 1565-1608; [w] is the number of columns of [arr]. *)
Definition wrap (lab : labels) (fmt : format) (sl : pyslice) (w : nat) (rows : list (list (option R))) : wrapped :=
  match fmt with
  | FmtNone => WArray rows
  | _ =>
    let idx := match l_ids lab with
               | None => Some (range_index (length rows))
               | Some ids => take 0%Z sl ids
               end in
    match idx with
    | None => WRaise
    | Some idx =>
      match fmt with
      | FmtNames => make_frame idx (firstn w (l_names lab)) w rows
      | FmtDataArray => make_frame idx (l_codes lab) w rows
      | _ =>
        match make_frame idx (firstn w (l_codes lab)) w rows with
        | WFrame idx cols rows =>
          match fmt with
          | FmtIdce =>
            match l_av lab with
            | None => WRaise
            | Some av => match mask av (stack idx cols rows) with Some r => WSeries r | None => WRaise end
            end
          | FmtIdca => WSeries (stack idx cols rows)
          | _ => WFrame idx cols rows
          end
        | r => r
        end
      end
    end
  end.
(** The labelled forms of probability (1620-1637), utility (1684-1698) and quantity (1709-1720): quantity does not pass
    the slice on. *)
Definition labelled (m : nmodel) (lab : labels) (q : query) (x : option (nat -> R)) (sl : pyslice) (fmt : format) (s : sess) : sess * wrapped :=
  let (s', r) := step m s (OCall q x sl) in
  (s', match look s' r, r with
       | STable rows, RView _ _ cols _ => wrap lab fmt (match q with Qquant => null_slice | _ => sl end) (length cols) rows
       | _, _ => WRaise
       end).
