(** Model of the parameter frame: larch/model/parameter_frame.pyx (rows, name scanning,
    [set_value], [lock_value], [set_values], [set_cap], mangling), the parts of
    larch/model/abstract_model.pyx that read and write it ([_check_if_best],
    [clear_best_loglike], [mangle], [loglike_null], [likelihood_ratio]) and the evaluation
    entry points of larch/numba/model.py 1441-1483 and larch/model/controller.pyx 670-930.

    Floating point numbers are exact reals plus the IEEE specials the code distinguishes
    (NaN, the infinities); rounding, signed zero and integer wrap-around are not modelled.
    An exception is an explicit result; the state at the time it was raised is kept. *)
From Coq Require Export Reals String List Bool ZArith Lia Lra Permutation.
Export ListNotations.

(** A float: numpy's specials and the reals (no larch code). *)
Inductive num := NaN | NInf | Fin (x : R) | PInf.

(** IEEE [<=], [<], [==] (as in abstract_model.pyx 453, 731, optimization.py 490): every comparison with NaN is false. *)
Definition nle (a b : num) : bool :=
  match a, b with
  | NaN, _ | _, NaN => false
  | NInf, _ | _, PInf => true
  | Fin x, Fin y => if Rle_dec x y then true else false
  | _, _ => false
  end.
(** IEEE [<] (as in abstract_model.pyx 453). *)
Definition nlt (a b : num) : bool :=
  match a, b with
  | NaN, _ | _, NaN => false
  | _, _ => negb (nle b a)
  end.
(** IEEE [==] (as in abstract_model.pyx 731, 1277). *)
Definition neqb (a b : num) : bool := nle a b && nle b a.
(** numpy.isnan / pandas.isnull on a float (parameter_frame.pyx 380, 596). *)
Definition is_nan (a : num) : bool := match a with NaN => true | _ => false end.
(** numpy.maximum / numpy.minimum: NaN if either operand is NaN. *)
Definition nmax (a b : num) : num :=
  if is_nan a || is_nan b then NaN else if nle a b then b else a.
(** numpy.minimum (parameter_frame.pyx 623). *)
Definition nmin (a b : num) : num :=
  if is_nan a || is_nan b then NaN else if nle a b then a else b.
(** IEEE negation and subtraction. *)
(** IEEE negation (numpy; parameter_frame.pyx 622). *)
Definition nneg (a : num) : num :=
  match a with NaN => NaN | NInf => PInf | PInf => NInf | Fin x => Fin (- x) end.
(** IEEE subtraction (numpy; abstract_model.pyx 1285). *)
Definition nsub (a b : num) : num :=
  match a, b with
  | NaN, _ | _, NaN => NaN
  | Fin x, Fin y => Fin (x - y)
  | PInf, PInf | NInf, NInf => NaN
  | PInf, _ => PInf
  | NInf, _ => NInf
  | Fin _, PInf => NInf
  | Fin _, NInf => PInf
  end.

(** One row of [self._frame] (parameter_frame.pyx 22-50).  [r_hold] is the int8 holdfast
    column, [None] when it is missing (a row created by [DataFrame.loc[name, col] = v]
    has NaN in every other column).  [r_best] is meaningful only when the frame has a 'best'
    column.  The note and the statistics columns (std_err, ...) are not modelled. *)
Record row := mkRow {
  r_name : string; r_value : num; r_init : num; r_null : num;
  r_min : num; r_max : num; r_hold : option Z; r_best : num }.

(** [self._frame]: its rows and whether it has a 'best' column (parameter_frame.pyx 22-50, abstract_model.pyx 53-58). *)
Record frame := mkFrame { rows : list row; has_best : bool }.

(** parameter_frame.pyx 589, 604: [holdfast == 0]; false for NaN. *)
Definition is_free (r : row) : bool :=
  match r_hold r with Some z => Z.eqb z 0 | None => false end.

(** [frame.loc[name, 'value'] = v], parameter_frame.pyx 593, 598, 605. *)
Definition with_value (v : num) (r : row) : row :=
  mkRow (r_name r) v (r_init r) (r_null r) (r_min r) (r_max r) (r_hold r) (r_best r).

(** parameter_frame.pyx 22-50: [_empty_parameter_frame], one row; keyword defaults
    nullvalue=0, initvalue=0, min=-inf, max=inf; the value starts at initvalue. *)
Record defaults := mkDef { d_null : num; d_init : num; d_min : num; d_max : num }.
(** Keyword defaults of [_empty_parameter_frame], parameter_frame.pyx 22-27. *)
Definition plain_defaults : defaults := mkDef (Fin 0) (Fin 0) NInf PInf.
(** numba/model.py 1160-1177, controller.pyx 333-350 ([_scan_logsums_ensure_names]). *)
Definition logsum_defaults : defaults := mkDef (Fin 1) (Fin 1) (Fin (1/1000)) (Fin 1).
(** [_empty_parameter_frame], one row, parameter_frame.pyx 29-37. *)
Definition new_row (d : defaults) (n : string) : row :=
  mkRow n (d_init d) (d_init d) (d_null d) (d_min d) (d_max d) (Some 0%Z) NaN.

(** [self._frame.index], parameter_frame.pyx 105. *)
Definition names (l : list row) : list string := map r_name l.
(** [name in self._frame.index], parameter_frame.pyx 362, 603. *)
Definition mem (n : string) (l : list string) : bool := existsb (String.eqb n) l.
(** What [verify_integrity=True] looks for, parameter_frame.pyx 114. *)
Fixpoint has_dup (l : list string) : bool :=
  match l with [] => false | n :: r => mem n r || has_dup r end.

(** parameter_frame.pyx 104-115 (also numba/model.py 1179-1190): [_ensure_names].  The argument
    is a sequence or a set; a set is presented in some iteration order.
    [None]: ValueError from [verify_integrity=True]. *)
Definition ensure_names (ns : list string) (d : defaults) (f : frame) : option frame :=
  let missing := filter (fun n => negb (mem n (names (rows f)))) ns in
  match missing with
  | [] => Some f
  | _ =>
    let l := rows f ++ map (new_row d) missing in
    if has_dup (names l) then None else Some (mkFrame l (has_best f))
  end.

(** [sort_index] (parameter_frame.pyx 118): insertion by name.  (pandas' default sort is not stable, which is
    unobservable when names are distinct.)  Python compares str by code point; names are
    ASCII here. *)
Definition name_leb (a b : string) : bool :=
  match String.compare a b with Gt => false | _ => true end.
(** helper of [sort_rows]. *)
Fixpoint insert_row (r : row) (l : list row) : list row :=
  match l with
  | [] => [r]
  | x :: t => if name_leb (r_name r) (r_name x) then r :: l else x :: insert_row r t
  end.
(** [self._frame.sort_index(inplace=True)], parameter_frame.pyx 118. *)
Definition sort_rows (l : list row) : list row := fold_right insert_row [] l.

(** The names a model uses (controller.pyx 292-360): in its utility functions, its quantity functions, and its logsum
    parameters. *)
Record modelnames := mkNames { n_util : list string; n_quant : list string; n_logsum : list string }.

(** controller.pyx 286-290, parameter_frame.pyx 117-118: [_scan_all_ensure_names]. *)
Definition obind {A B} (x : option A) (f : A -> option B) : option B :=
  match x with Some a => f a | None => None end.
(** controller.pyx 286-290: utility, quantity, logsum names, then the sort. *)
Definition scan_all (m : modelnames) (f : frame) : option frame :=
  obind (ensure_names (n_util m) plain_defaults f) (fun f =>
  obind (ensure_names (n_quant m) plain_defaults f) (fun f =>
  obind (ensure_names (n_logsum m) logsum_defaults f) (fun f =>
  Some (mkFrame (sort_rows (rows f)) (has_best f))))).

(** Which cases an evaluation uses.  numba/model.py 1441-1483 takes start, stop and step
    (default None) and silently ignores the fold arguments; controller.pyx 670-930 takes all of
    them (defaults 0, -1, 1, -1, -1, -1). *)
Record sample := mkSample {
  s_start : option Z; s_stop : option Z; s_step : option Z;
  s_leave_out : Z; s_keep_only : Z; s_subsample : Z }.
(** Default arguments of NumbaModel.loglike, numba/model.py 1441-1450. *)
Definition numba_full : sample := mkSample None None None (-1) (-1) (-1).
(** Default arguments of loglike, controller.pyx 736-760. *)
Definition cython_full : sample := mkSample (Some 0%Z) (Some (-1)%Z) (Some 1%Z) (-1) (-1) (-1).

(** What an observer of the calls would write down, newest first (helper).  This history is not in the
    code and nothing in the model reads it. *)
Inductive event :=
| Evaluated (s : sample) (at_values : list (string * num)) (ll : num)
| Reset.

(** The model object: the frame, the names its functions mention, the mangled flag, the two
    cached log likelihoods (abstract_model.pyx 27-30) and the observer's history. *)
Record model := mkModel {
  m_frame : frame; m_names : modelnames; m_mangled : bool;
  m_null_ll : num; m_best_ll : num; m_log : list event }.
(** helper: the model with another frame (parameter_frame.pyx 109). *)
Definition with_frame (f : frame) (m : model) : model :=
  mkModel f (m_names m) (m_mangled m) (m_null_ll m) (m_best_ll m) (m_log m).

(** helper: a call either returns a value or raises; both carry the state left behind. *)
Inductive outcome (A : Type) := Ret (a : A) (m : model) | Exn (m : model).
Arguments Ret {A}. Arguments Exn {A}.
(** helper: sequencing of Python statements that may raise. *)
Definition bind {A B} (x : outcome A) (f : A -> model -> outcome B) : outcome B :=
  match x with Ret a m => f a m | Exn m => Exn m end.
(** helper: the state a call leaves behind, whether it returns or raises. *)
Definition state_of {A} (x : outcome A) : model := match x with Ret _ m => m | Exn m => m end.

(** abstract_model.pyx 53-56: [clear_best_loglike]. *)
Definition clear_best (m : model) : model :=
  mkModel (mkFrame (rows (m_frame m)) false) (m_names m) (m_mangled m) (m_null_ll m) NInf
    (Reset :: m_log m).
(** abstract_model.pyx 49-51, parameter_frame.pyx 161-162: [mangle]. *)
Definition mangle (m : model) : model :=
  let m := clear_best m in
  mkModel (m_frame m) (m_names m) true (m_null_ll m) (m_best_ll m) (m_log m).
(** parameter_frame.pyx 167-170, controller.pyx 266-274: [unmangle].  Reloading the data is
    not modelled. *)
Definition unmangle (force : bool) (m : model) : outcome unit :=
  let m := if force then mangle m else m in
  if m_mangled m then
    match scan_all (m_names m) (m_frame m) with
    | Some f => Ret tt (mkModel f (m_names m) false (m_null_ll m) (m_best_ll m) (m_log m))
    | None => Exn m
    end
  else Ret tt m.

(** parameter_frame.pyx 335-387: [set_value].  The optional fields are the keyword arguments
    (a number given positionally is the keyword 'value'). *)
Record fields := mkFields {
  f_value : option num; f_init : option num; f_null : option num;
  f_min : option num; f_max : option num; f_hold : option Z }.
(** helper: an optional keyword argument, parameter_frame.pyx 368-376. *)
Definition or_else {A} (o : option A) (d : A) : A := match o with Some x => x | None => d end.
(** parameter_frame.pyx 368-385: the keyword arguments applied to one row. *)
Definition apply_fields (x : fields) (r : row) : row :=
  mkRow (r_name r)
    (or_else (f_value x) (r_value r))
    (match f_init x, f_value x with
     | Some i, _ => i
     | None, Some v => if is_nan (r_init r) then v else r_init r
     | None, None => r_init r
     end)
    (match f_null x with
     | Some n => n
     | None => if is_nan (r_null r) then Fin 0 else r_null r
     end)
    (or_else (f_min x) (r_min r)) (or_else (f_max x) (r_max r))
    (match f_hold x with Some h => Some h | None => r_hold r end) (r_best r).
(** The row [DataFrame.loc[name, column] = v] (parameter_frame.pyx 376) adds for an unknown name. *)
Definition blank_row (n : string) : row := mkRow n NaN NaN NaN NaN NaN None NaN.
(** No keyword argument was given, parameter_frame.pyx 368. *)
Definition nothing_given (x : fields) : bool :=
  match x with mkFields None None None None None None => true | _ => false end.
(** parameter_frame.pyx 335-387. *)
Definition set_value (n : string) (x : fields) (m : model) : outcome unit :=
  bind (if mem n (names (rows (m_frame m))) then Ret tt m else unmangle false m) (fun _ m =>
  let l := rows (m_frame m) in
  if mem n (names l) then
    Ret tt (with_frame (mkFrame
      (map (fun r => if String.eqb (r_name r) n then apply_fields x r else r) l)
      (has_best (m_frame m))) m)
  else if nothing_given x then Exn m  (* KeyError at line 384 *)
  else Ret tt (with_frame (mkFrame (l ++ [apply_fields x (blank_row n)]) (has_best (m_frame m))) m)).

(** parameter_frame.pyx 389-424: [lock_value] with a number, and with 'null'. *)
Definition lock_value (n : string) (v : num) (m : model) : outcome unit :=
  set_value n (mkFields (Some v) (Some v) (Some v) (Some v) (Some v) (Some 1%Z)) m.

(** parameter_frame.pyx 524-609: [set_values].  The positional argument: nothing, a keyword, a
    number, or a vector. (A dict argument is the keyword argument list.) *)
Inductive values_arg :=
| VNone | VNull | VInit | VBest | VScalar (v : num) | VArray (l : list num).

(** lines 568-579: a keyword is replaced by the frame's column; [None]: 'best' not stored. *)
Definition resolve (a : values_arg) (f : frame) : option values_arg :=
  match a with
  | VNull => Some (VArray (map r_null (rows f)))
  | VInit => Some (VArray (map r_init (rows f)))
  | VBest => if has_best f then Some (VArray (map r_best (rows f))) else None
  | _ => Some a
  end.
(** lines 588-591: the mask of rows to change. *)
Definition mask (respect : bool) (l : list row) : list bool :=
  if respect then map is_free l else map (fun _ => true) l.
(** lines 593, 598: assignment of the selected entries. *)
Fixpoint assign (l : list row) (mk : list bool) (vs : list num) : list row :=
  match l, mk, vs with
  | r :: l, b :: mk, v :: vs => (if b then with_value v r else r) :: assign l mk vs
  | l, _, _ => l
  end.
(** parameter_frame.pyx 596. *)
Fixpoint any_nan (mk : list bool) (vs : list num) : bool :=
  match mk, vs with
  | b :: mk, v :: vs => (b && is_nan v) || any_nan mk vs
  | _, _ => false
  end.
(** lines 584-598; [None]: ValueError. *)
Definition set_array (a : values_arg) (respect : bool) (f : frame) : option frame :=
  match a with
  | VScalar v =>
      Some (mkFrame (assign (rows f) (mask respect (rows f)) (map (fun _ => v) (rows f))) (has_best f))
  | VArray vs =>
      if Nat.eqb (length vs) (length (rows f)) then
        if any_nan (mask respect (rows f)) vs then None
        else Some (mkFrame (assign (rows f) (mask respect (rows f)) vs) (has_best f))
      else None
  | _ => Some f
  end.
(** lines 602-608: one keyword argument; unknown names only warn. *)
Definition set_kw (f : frame) (kv : string * num) : frame :=
  mkFrame (map (fun r => if String.eqb (r_name r) (fst kv) && is_free r
                         then with_value (snd kv) r else r) (rows f)) (has_best f).
(** parameter_frame.pyx 524-609. *)
Definition set_values (a : values_arg) (respect : bool) (kw : list (string * num)) (m : model)
  : outcome unit :=
  match resolve a (m_frame m) with
  | None => Exn m
  | Some a =>
    match set_array a respect (m_frame m) with
    | None => Exn m
    | Some f =>
      let m := with_frame f m in
      match kw with
      | [] => Ret tt m
      | _ =>
        (* line 600: scans if mangled, without clearing the flag *)
        match (if m_mangled m then scan_all (m_names m) (m_frame m) else Some (m_frame m)) with
        | None => Exn m
        | Some f => Ret tt (with_frame (fold_left set_kw kw f) m)
        end
      end
    end
  end.

(** parameter_frame.pyx 611-628: [set_cap], one row, after unmangling. *)
Definition cap_row (c : R) (r : row) : row :=
  let mn := nmax (r_min r) (Fin (- c)) in
  let mx := nmin (r_max r) (Fin c) in
  let mn1 := if nle mn mx then mn else r_min r in
  let mx1 := if nle mn mx then mx else r_max r in
  mkRow (r_name r) (r_value r) (r_init r) (r_null r)
    (if is_nan mn1 then Fin (- c) else mn1) (if is_nan mx1 then Fin c else mx1)
    (r_hold r) (r_best r).
(** parameter_frame.pyx 611-628. *)
Definition set_cap (c : R) (m : model) : outcome unit :=
  bind (unmangle false m) (fun _ m =>
  Ret tt (with_frame (mkFrame (map (cap_row c) (rows (m_frame m))) (has_best (m_frame m))) m)).

(** [get_values], parameter_frame.pyx 630-631, and the (name, value) pairs an evaluation
    sees. *)
Definition values_of (f : frame) : list (string * num) :=
  map (fun r => (r_name r, r_value r)) (rows f).

(** numba/model.py 1481, 1753, 1788. *)
Definition numba_checks_best (s : sample) : bool :=
  match s_start s, s_stop s, s_step s with None, None, None => true | _, _, _ => false end.
(** controller.pyx 733, 799, 919: the fold arguments are not consulted. *)
Definition cython_checks_best (s : sample) : bool :=
  match s_start s, s_stop s, s_step s with
  | Some a, Some b, Some c => Z.eqb a 0 && Z.eqb b (-1) && Z.eqb c 1
  | _, _, _ => false
  end.

(** abstract_model.pyx 452-458: [_check_if_best]. *)
Definition check_if_best (ll : num) (m : model) : model :=
  if nlt (m_best_ll m) ll then
    mkModel (mkFrame (map (fun r => mkRow (r_name r) (r_value r) (r_init r) (r_null r) (r_min r)
                             (r_max r) (r_hold r) (r_value r)) (rows (m_frame m))) true)
      (m_names m) (m_mangled m) (m_null_ll m) ll (m_log m)
  else m.

Section Evaluation.
(** The log likelihood of the loaded data at given parameter values, on a given sample
    (the function computed by the compiled kernels), and which of the two engines is
    used. *)
Variable LL : sample -> list (string * num) -> num.
Variable checks_best : sample -> bool.
Variable full : sample.

(** numba/model.py 1193-1209 and 1477-1483 (likewise 1742-1755, 1765-1790; controller.pyx
    670-930): unmangle, set the values given, evaluate, record the best. *)
Definition loglike_at (x : values_arg) (kw : list (string * num)) (s : sample) (m : model)
  : outcome num :=
  bind (unmangle false m) (fun _ m =>
  bind (set_values x true kw m) (fun _ m =>
  let ll := LL s (values_of (m_frame m)) in
  let m := mkModel (m_frame m) (m_names m) (m_mangled m) (m_null_ll m) (m_best_ll m)
             (Evaluated s (values_of (m_frame m)) ll :: m_log m) in
  Ret ll (if checks_best s then check_if_best ll m else m))).
(** [self.loglike()] with default arguments (abstract_model.pyx 738, 1266). *)
Definition loglike (m : model) : outcome num := loglike_at VNone [] full m.

(** abstract_model.pyx 710-740: [loglike_null].  [use_cache = -1] is not modelled. *)
Definition loglike_null (use_cache : bool) (m : model) : outcome num :=
  if negb (neqb (m_null_ll m) (Fin 0)) && use_cache then Ret (m_null_ll m) m
  else
    bind (unmangle false m) (fun _ m =>
    let current := map r_value (rows (m_frame m)) in
    bind (set_values VNull true [] m) (fun _ m =>
    bind (loglike m) (fun ll m =>
    let m := mkModel (m_frame m) (m_names m) (m_mangled m) ll (m_best_ll m) (m_log m) in
    bind (set_values (VArray current) true [] m) (fun _ m =>
    Ret ll m)))).

(** abstract_model.pyx 1239-1288: [likelihood_ratio] for one named parameter, given the
    current log likelihood; [ref] is the optional reference value.  The
    'likelihood_ratio' column is not modelled. *)
Definition find_row (n : string) (l : list row) : option row :=
  find (fun r => String.eqb (r_name r) n) l.
(** [self.set_value(param, v)], abstract_model.pyx 1282, 1284. *)
Definition only_value (v : num) : fields := mkFields (Some v) None None None None None.
(** abstract_model.pyx 1273-1288: [param] is a str. *)
Definition likelihood_ratio1 (n : string) (ref : option num) (cur_ll : num) (m : model)
  : outcome num :=
  bind (unmangle false m) (fun _ m =>
  match find_row n (rows (m_frame m)) with
  | None => Exn m
  | Some r =>
    let refv := or_else ref (r_null r) in
    let cur := r_value r in
    if neqb refv cur then Ret (Fin 0) m
    else
      bind (set_value n (only_value refv) m) (fun _ m =>
      bind (loglike m) (fun alt m =>
      bind (set_value n (only_value cur) m) (fun _ m =>
      Ret (nsub cur_ll alt) m)))
  end).
(** abstract_model.pyx 1267-1272: for every parameter that is not held. *)
Fixpoint likelihood_ratios_over (ns : list string) (ref : option num) (include_hold : bool)
    (cur_ll : num) (m : model) : outcome (list (string * num)) :=
  match ns with
  | [] => Ret [] m
  | n :: ns =>
    match find_row n (rows (m_frame m)) with
    | None => Exn m
    | Some r =>
      if is_free r || include_hold then
        bind (likelihood_ratio1 n ref cur_ll m) (fun v m =>
        bind (likelihood_ratios_over ns ref include_hold cur_ll m) (fun vs m => Ret ((n, v) :: vs) m))
      else
        bind (likelihood_ratios_over ns ref include_hold cur_ll m) (fun vs m => Ret ((n, NaN) :: vs) m)
    end
  end.
(** abstract_model.pyx 1265-1272: [param] is None. *)
Definition likelihood_ratios (ref : option num) (include_hold : bool) (m : model)
  : outcome (list (string * num)) :=
  bind (loglike m) (fun cur m =>
  bind (unmangle false m) (fun _ m =>
  likelihood_ratios_over (names (rows (m_frame m))) ref include_hold cur m)).


(** The public calls a history is made of (parameter_frame.pyx 335, 389, 524, 611; abstract_model.pyx 49, 710, 1239). *)
Inductive op :=
| OpSetValues (x : values_arg) (respect : bool) (kw : list (string * num))
| OpSetValue (n : string) (x : fields)
| OpLockValue (n : string) (v : num)
| OpSetCap (c : R)
| OpLoglike (x : values_arg) (kw : list (string * num)) (s : sample)
| OpMangle
| OpUnmangle (force : bool)
| OpLoglikeNull (use_cache : bool)
| OpLikelihoodRatios (ref : option num) (include_hold : bool).
(** helper: the effect of one call of a history on the model. *)
Definition step (o : op) (m : model) : model :=
  match o with
  | OpSetValues x r kw => state_of (set_values x r kw m)
  | OpSetValue n x => state_of (set_value n x m)
  | OpLockValue n v => state_of (lock_value n v m)
  | OpSetCap c => state_of (set_cap c m)
  | OpLoglike x kw s => state_of (loglike_at x kw s m)
  | OpMangle => mangle m
  | OpUnmangle b => state_of (unmangle b m)
  | OpLoglikeNull b => state_of (loglike_null b m)
  | OpLikelihoodRatios r i => state_of (likelihood_ratios r i m)
  end.
(** helper: a history of calls. *)
Definition run (os : list op) (m : model) : model := fold_left (fun m o => step o m) os m.
End Evaluation.
