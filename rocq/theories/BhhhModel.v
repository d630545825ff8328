(** Model of estimation: the BHHH optimizers of larch/model/abstract_model.pyx 236-396,
    larch/model/optimization.py 404-511, larch/numba/optimization.py, the two jumpstarts
    (abstract_model.pyx 298-319, numba/model.py 1859-1907), and the driver
    [maximize_loglike] (larch/model/optimization.py 50-401).

    The log likelihood, its gradient, the BHHH matrix and the penalty are an arbitrary
    function [eval] of the sample, the parameter values and the constraint intensity and
    sharpness (modules Logit* and Utility* model what it computes); matrix inversion and
    least squares are arbitrary functions.  Parameter values, gradients and matrix entries
    are exact reals (a NaN proposal makes [set_values] raise, see ParamModel.set_array, and
    is not modelled here); the log likelihood may be NaN or infinite.  A [while] loop with no
    counter takes fuel: [None] means that the fuel ran out. *)
From Verif Require Import ParamModel.
Open Scope R_scope.

(** What [_loglike2_bhhh_tuple] (abstract_model.pyx 191-200) and numba [loglike2_bhhh]
    (numba/model.py 1759-1796) return. *)
Record point := mkPt { e_ll : num; e_dll : list R; e_bhhh : list (list R); e_pen : R }.

(** The model object: parameter values, constraint intensity and sharpness
    (numba/model.py 912-913).  [visited] is the observer's list of the values the model was
    ever given, newest first; nothing reads it. *)
Record mst := mkSt { vals : list R; intens : R; sharp : R; visited : list (list R) }.

(** [direction * steplen] added to the current values (e.g. optimization.py 483). *)
Fixpoint axpy (p d : list R) (t : R) : list R :=
  match p, d with x :: p, y :: d => (x + y * t) :: axpy p d t | _, _ => [] end.
(** numpy.dot of two vectors. *)
Fixpoint dot (a b : list R) : R :=
  match a, b with x :: a, y :: b => x * y + dot a b | _, _ => 0 end.

(** [set_values] with a vector: the held positions keep their value
    (parameter_frame.pyx 584-598; ParamModel.set_array, see [C34_upd_is_set_values]). *)
Fixpoint upd (held : list bool) (old new : list R) : list R :=
  match held, old, new with
  | h :: held, o :: old, n :: new => (if h then o else n) :: upd held old new
  | _, old, _ => old
  end.
(** [set_values] on the whole model (parameter_frame.pyx 524-609, array form). *)
Definition set_vals (held : list bool) (v : list R) (st : mst) : mst :=
  let p := upd held (vals st) v in
  mkSt p (intens st) (sharp st) (p :: visited st).
(** Attribute assignment [model.constraint_intensity = x] (numba/optimization.py 65-66, 198-202). *)
Definition set_intens (x : R) (st : mst) : mst := mkSt (vals st) x (sharp st) (visited st).
(** Attribute assignment [model.constraint_sharpness = x] (numba/optimization.py 67-68, 154-157). *)
Definition set_sharp (x : R) (st : mst) : mst := mkSt (vals st) (intens st) x (visited st).

(** Boolean-mask selection [v[freedoms]], [m[freedoms,:][:,freedoms]] and assignment
    [direction[freedoms] = v] into zeros (optimization.py 405-411). [held] is the negation of [freedoms]. *)
Fixpoint select {A} (held : list bool) (v : list A) : list A :=
  match held, v with
  | h :: held, x :: v => if h then select held v else x :: select held v
  | _, _ => []
  end.
(** [bhhh[freedoms,:][:,freedoms]] (optimization.py 409, numba/optimization.py 8-10). *)
Definition submat (held : list bool) (m : list (list R)) : list (list R) :=
  map (select held) (select held m).
(** [direction = zeros; direction[freedoms] = v] (optimization.py 405, 411, numba/optimization.py 6, 17). *)
Fixpoint scatter {A} (zero : A) (held : list bool) (v : list A) : list A :=
  match held with
  | [] => []
  | h :: held =>
    if h then zero :: scatter zero held v
    else match v with
         | x :: v => x :: scatter zero held v
         | [] => zero :: scatter zero held []
         end
  end.

(** optimization.py 404-417 ([solve] = lstsq) and numba/optimization.py 5-18 ([solve] = inverse
    or pseudo-inverse, times the vector): [propose_direction]. *)
Definition propose_direction (solve : list (list R) -> list R -> list R)
  (held : list bool) (bhhh : list (list R)) (dll : list R) : list R :=
  scatter 0 held (solve (submat held bhhh) (select held dll)).

(** abstract_model.pyx 236-258: [_free_slots_inverse_matrix]: the inverse of the free block,
    zero elsewhere. *)
Definition free_slots_inverse (inverse : list (list R) -> list (list R))
  (held : list bool) (m : list (list R)) : list (list R) :=
  let zrow := map (fun _ => 0) held in
  scatter zrow held (map (scatter 0 held) (inverse (submat held m))).
(** numpy.dot(vector, matrix), the result having as many entries as [held]. *)
Definition vecmat (n : nat) (v : list R) (m : list (list R)) : list R :=
  map (fun j => dot v (map (fun r => nth j r 0) m)) (seq 0 n).
(** abstract_model.pyx 282-283, 317-318, 361-362: the direction of the simple optimizers. *)
Definition simple_direction (inverse : list (list R) -> list (list R))
  (held : list bool) (bhhh : list (list R)) (dll : list R) : list R :=
  vecmat (length held) dll (free_slots_inverse inverse held bhhh).

(** The message strings returned (abstract_model.pyx 391-394; optimization.py 506-509; numba/optimization.py 111-121, 170). *)
Inductive message := Success | ConstrainedSuccess | MaxIter | SoftMaxIter.
(** How an optimizer ends: the tuple (ll, tolerance, iterations, steps, message), or
    BHHHSimpleStepFailure (abstract_model.pyx 378, 396); the state of the model either way. *)
Inductive ended :=
| Fit (ll : num) (tol : R) (iters : nat) (steps : list R) (msg : message) (st : mst)
| StepFailure (st : mst).
(** Observer: the model after the optimizer ended (abstract_model.pyx 323-395). *)
Definition end_state (e : ended) : mst :=
  match e with Fit _ _ _ _ _ st => st | StepFailure st => st end.

Section Optimizers.
Variable held : list bool.
Variable eval : sample -> list R -> R -> R -> point.
Variable direction : list (list R) -> list R -> list R.

(** Evaluate at the model's current values (optimization.py 466). *)
Definition eval_at (s : sample) (st : mst) : point := eval s (vals st) (intens st) (sharp st).
(** optimization.py 470-474, numba/optimization.py 94-98: [find_direction], and lines 282-284 of
    abstract_model.pyx. *)
Definition dir_of (e : point) : list R := direction (e_bhhh e) (e_dll e).
(** [tolerance = dot(direction, dll)] (abstract_model.pyx 284, 363; optimization.py 473; numba/optimization.py 97). *)
Definition tol_of (e : point) : R := dot (dir_of e) (e_dll e).

(** abstract_model.pyx 285-290, 367-375; optimization.py 482-489; numba/optimization.py 128-139:
    the inner loop.  Returns the last point evaluated, the step length and the state. *)
Fixpoint search (fuel : nat) (s : sample) (cur dir : list R) (cur_ll : num)
  (minlen steplen : R) (st : mst) : option (point * R * mst) :=
  match fuel with
  | O => None
  | S fuel =>
    let st1 := set_vals held (axpy cur dir steplen) st in
    let e := eval_at s st1 in
    if nlt cur_ll (e_ll e) then Some (e, steplen, st1)
    else
      let half := steplen * (1/2) in
      if Rlt_dec half minlen then Some (e, half, st1)
      else search fuel s cur dir cur_ll minlen half st1
  end.

(** abstract_model.pyx 264-296: [simple_step_bhhh]; the direction comes from sample [s], the line
    search evaluates [self.loglike()], the full sample.  Returns (ll, tolerance). *)
Definition simple_step (fuel : nat) (full s : sample) (steplen : R) (st : mst)
  : option (option (num * R) * mst) :=
  let cur := vals st in
  let e := eval_at s st in
  match search fuel full cur (dir_of e) (e_ll e) (1/100) steplen st with
  | None => None
  | Some (p, _, st1) =>
    if nle (e_ll p) (e_ll e) then Some (None, set_vals held cur st1)
    else Some (Some (e_ll p, tol_of e), st1)
  end.

(** abstract_model.pyx 365-394: the outer loop of [simple_fit_bhhh]; [rem] = maxiter - iter.
    [cur] is current_pvals, [e] the current log likelihood, gradient and BHHH.  The callback
    and the printer are not modelled. *)
Fixpoint simple_loop (rem fuel : nat) (s : sample) (ctol minlen : R)
  (iter : nat) (steplen : R) (steps : list R) (cur : list R) (e : point) (st : mst)
  : option ended :=
  if Rlt_dec ctol (Rabs (tol_of e)) then
    match rem with
    | O => Some (Fit (e_ll e) (tol_of e) iter steps MaxIter st)
    | S rem =>
      match search fuel s cur (dir_of e) (e_ll e) minlen steplen st with
      | None => None
      | Some (p, steplen, st1) =>
        if nle (e_ll p) (e_ll e) then Some (StepFailure (set_vals held cur st1))
        else simple_loop rem fuel s ctol minlen (S iter) steplen (steps ++ [steplen])
               (vals st1) p st1
      end
    end
  else Some (Fit (e_ll e) (tol_of e) iter steps Success st).

(** abstract_model.pyx 298-319: [jumpstart_bhhh] of the Cython models: one jump over the given
    chunks of cases; every chunk restarts from the values at the head of the jump.
    [jdir] is the direction function (abstract_model.pyx 317-318). *)
Fixpoint jump_cython (jdir : list (list R) -> list R -> list R) (steplen : R)
  (chunks : list sample) (base : list R) (st : mst) : mst :=
  match chunks with
  | [] => st
  | s :: chunks =>
    let e := eval_at s st in
    jump_cython jdir steplen chunks base
      (set_vals held (axpy base (jdir (e_bhhh e) (e_dll e)) steplen) st)
  end.
(** abstract_model.pyx 309-319: the loop over the jumps. *)
Fixpoint jumpstart_cython jdir (steplen : R) (jumps : nat) (chunks : list sample) (st : mst) : mst :=
  match jumps with
  | O => st
  | S k => jumpstart_cython jdir steplen k chunks (jump_cython jdir steplen chunks (vals st) st)
  end.
(** numba/model.py 1859-1907: [jumpstart_bhhh] of the numba model: [j_pvals += ...] accumulates
    over the chunks. *)
Fixpoint jump_numba (jdir : list (list R) -> list R -> list R) (steplen : R)
  (chunks : list sample) (base : list R) (st : mst) : mst :=
  match chunks with
  | [] => st
  | s :: chunks =>
    let e := eval_at s st in
    let base := axpy base (jdir (e_bhhh e) (e_dll e)) steplen in
    jump_numba jdir steplen chunks base (set_vals held base st)
  end.
(** numba/model.py 1885-1907: the loop over the jumps. *)
Fixpoint jumpstart_numba jdir (steplen : R) (jumps : nat) (chunks : list sample) (st : mst) : mst :=
  match jumps with
  | O => st
  | S k => jumpstart_numba jdir steplen k chunks (jump_numba jdir steplen chunks (vals st) st)
  end.

(** abstract_model.pyx 323-396: [simple_fit_bhhh].  [current_pvals] is read before the jumpstart
    (line 349), the current log likelihood and gradient after it.  The jumpstart's step length
    is its default 0.5. *)
Definition simple_fit (fuel maxiter : nat) (s : sample) (ctol minlen steplen : R)
  (jumps : nat) (chunks : list sample) (st : mst) : option ended :=
  let cur := vals st in
  let st1 := jumpstart_cython direction (1/2) jumps chunks st in
  simple_loop (maxiter - jumps) fuel s ctol minlen jumps steplen [] cur (eval_at s st1) st1.

(** [steps[-momentum:]] (optimization.py 481): Python's [-0:] is the whole list. *)
Definition last_n (m : nat) (l : list R) : list R :=
  match m with O => l | _ => skipn (length l - m) l end.
(** Python [sum] (optimization.py 481). *)
Definition sum (l : list R) : R := fold_right Rplus 0 l.
(** optimization.py 480-481, numba/optimization.py 126-127. *)
Definition next_len (momentum : nat) (maxlen : R) (steps : list R) (steplen : R) : R :=
  match steps with
  | [] => steplen
  | _ => let l := last_n momentum steps in Rmin (2 * sum l / INR (length l)) maxlen
  end.

(** optimization.py 478-509: the loop of [fit_bhhh] for the non-numba models.  Intensity and
    sharpness grow after each accepted step; the current log likelihood is not recomputed. *)
Fixpoint fit_loop (rem fuel : nat) (s : sample) (ctol minlen maxlen : R) (momentum : nat)
  (stepI stepS : R) (iter : nat) (steplen : R) (steps : list R) (cur : list R) (e : point)
  (st : mst) : option ended :=
  if Rlt_dec ctol (Rabs (tol_of e)) then
    match rem with
    | O => Some (Fit (e_ll e) (tol_of e) iter steps MaxIter st)
    | S rem =>
      match search fuel s cur (dir_of e) (e_ll e) minlen (next_len momentum maxlen steps steplen) st with
      | None => None
      | Some (p, steplen, st1) =>
        if nle (e_ll p) (e_ll e) then Some (StepFailure (set_vals held cur st1))
        else
          let st2 := set_sharp (sharp st1 * stepS) (set_intens (intens st1 * stepI) st1) in
          fit_loop rem fuel s ctol minlen maxlen momentum stepI stepS (S iter) steplen
            (steps ++ [steplen]) (vals st1) p st2
      end
    end
  else Some (Fit (e_ll e) (tol_of e) iter steps Success st).

(** optimization.py 457-460, numba/optimization.py 65-68: the initial_constraint_... arguments. *)
Definition init_penalty (i0 s0 : option R) (st : mst) : mst :=
  let st := match i0 with Some x => set_intens x st | None => st end in
  match s0 with Some x => set_sharp x st | None => st end.

(** optimization.py 421-511: [fit_bhhh] for the non-numba models. *)
Definition fit_model (fuel maxiter : nat) (s : sample) (ctol minlen maxlen : R) (momentum : nat)
  (stepI stepS : R) (i0 s0 : option R) (steplen : R) (st : mst) : option ended :=
  let st := init_penalty i0 s0 st in
  fit_loop maxiter fuel s ctol minlen maxlen momentum stepI stepS 0 steplen [] (vals st)
    (eval_at s st) st.

(** numba [constraint_violation] (numba/model.py 1243-1298) as a yes/no function of the values;
    numba [constraint_converge_tolerance] (1333-1360); the number of cases. *)
Variable violated : list R -> bool.
Variable cct : list R -> R -> R -> R.
Variable ncases : R.
(** [intensity_check=True]: numba/model.py 1270-1271. *)
Definition violated_ic (st : mst) : bool :=
  if Req_EM_T (intens st) 0 then false else violated (vals st).

(** numba/optimization.py 149-163: raise the sharpness until the penalty is small.  Returns the
    last point evaluated, if any. *)
Fixpoint sharpen (fuel : nat) (s : sample) (maxS stepS : R) (pen : R) (last : point) (st : mst)
  : option (point * mst) :=
  match fuel with
  | O => None
  | S fuel =>
    if Rlt_dec (1/100) (Rabs (pen * ncases)) then
      if Rlt_dec (sharp st) maxS then
        let st1 := set_sharp (Rmin (sharp st * stepS) maxS) st in
        let e := eval_at s st1 in
        sharpen fuel s maxS stepS (e_pen e) e st1
      else Some (last, st)
    else Some (last, st)
  end.

(** Arguments of numba [fit_bhhh] (numba/optimization.py 21-43). *)
Record numba_args := mkNA {
  na_ctol : R; na_minlen : R; na_maxlen : R; na_momentum : nat;
  na_stepI : R; na_maxI : R; na_stepS : R; na_maxS : R; na_soft : option nat }.

(** numba/optimization.py 193-212: after a step, raise intensity and sharpness together and
    recompute. *)
Definition intensify (a : numba_args) (s : sample) (e : point) (cpen : R) (st : mst)
  : point * R * mst :=
  if Req_EM_T (intens st) 0 then (e, cpen, st)
  else if (if Rlt_dec (intens st) (na_maxI a) then true
           else if Rlt_dec (sharp st) (na_maxS a) then true else false) then
    let st := set_sharp (Rmin (sharp st * na_stepS a) (na_maxS a))
                (set_intens (Rmin (intens st * na_stepI a) (na_maxI a)) st) in
    let e := eval_at s st in (e, e_pen e, st)
  else (e, cpen, st).

(** numba/optimization.py 110-122: the stopping rules other than maxiter. *)
Definition converged (a : numba_args) (tol : R) (bad : bool) : bool :=
  if Rle_dec (Rabs tol) (na_ctol a) then negb bad else false.
(** numba/optimization.py 119-122: [soft_maxiter]. *)
Definition soft_stop (a : numba_args) (iter : nat) (bad : bool) : bool :=
  match na_soft a with Some k => Nat.leb k iter && negb bad | None => false end.

(** numba/optimization.py 104-218: the loop.  [e] is current_ll, current_dll, current_bhhh;
    [cpen] is current_result.penalty; [tol] is the tolerance variable (line 100 or 215, equal to
    [tol_of e]). *)
Fixpoint numba_loop (rem fuel : nat) (s : sample) (a : numba_args)
  (iter : nat) (steplen : R) (steps : list R) (cur : list R) (e : point) (cpen : R) (st : mst)
  : option ended :=
  let bad := violated_ic st in
  if converged a (tol_of e) bad then Some (Fit (e_ll e) (tol_of e) iter steps Success st)
  else
    match rem with
    | O => Some (Fit (e_ll e) (tol_of e) iter steps MaxIter st)
    | S rem =>
      if soft_stop a iter bad then Some (Fit (e_ll e) (tol_of e) iter steps SoftMaxIter st)
      else
      match search fuel s cur (dir_of e) (e_ll e) (na_minlen a)
              (next_len (na_momentum a) (na_maxlen a) steps steplen) st with
      | None => None
      | Some (p, steplen, st1) =>
        let continue_with (p : point) (st2 : mst) :=
          let '(e', cpen', st3) := intensify a s p cpen st2 in
          numba_loop rem fuel s a (S iter) steplen (steps ++ [steplen]) (vals st2) e' cpen' st3 in
        if nle (e_ll p) (e_ll e) then
          let st2 := set_vals held cur st1 in
          if violated (vals st2) then Some (StepFailure st2)
          else if Rlt_dec (1/100) (Rabs (cpen * ncases)) then
            match sharpen fuel s (na_maxS a) (na_stepS a) cpen p st2 with
            | None => None
            | Some (p, st3) => continue_with p st3
            end
          else
            let t := cct (vals st2) (intens st2) (sharp st2) in
            if Rlt_dec (Rabs t) (na_ctol a)
            then Some (Fit (e_ll e) t (S iter) steps ConstrainedSuccess st2)
            else continue_with p st2
        else continue_with p st1
      end
    end.

(** numba/optimization.py 21-220: [fit_bhhh].  [current_pvals] is read after the jumpstart here
    (line 84). [jdir] is the direction of the jumpstart, with its own inverse. *)
Definition fit_numba (jdir : list (list R) -> list R -> list R)
  (fuel maxiter : nat) (s : sample) (a : numba_args) (i0 s0 : option R)
  (steplen : R) (jumps : nat) (chunks : list sample) (st : mst) : option ended :=
  let st := init_penalty i0 s0 st in
  let st := jumpstart_numba jdir (1/2) jumps chunks st in
  let e := eval_at s st in
  numba_loop (maxiter - jumps) fuel s a jumps steplen [] (vals st) e (e_pen e) st.

(** scipy.optimize.minimize as maximize_loglike calls it (optimization.py 319-330): the optimizer
    evaluates [neg_loglike] / [neg_d_loglike] at points of its own choosing, each of which
    goes through [set_values]. *)
Definition scipy_evaluations (xs : list (list R)) (st : mst) : mst :=
  fold_left (fun st x => set_vals held x st) xs st.
End Optimizers.

(** abstract_model.pyx 312: the chunks of the Cython jumpstart, as (start, stop) with stop -1
    meaning the end.  [None]: range() with step 0. *)
Definition jump_step (n split : nat) : nat :=
  (n / split + (if Nat.eqb (n mod split) 0 then 0 else 1))%nat.
(** [range(0, n, step)] (abstract_model.pyx 312) by counting up; [fuel] bounds the number of entries. *)
Fixpoint py_range (fuel start stop step : nat) : list nat :=
  match fuel with
  | O => []
  | S f => if Nat.ltb start stop then start :: py_range f (start + step) stop step else []
  end.
(** Consecutive pairs of the chunk limits (abstract_model.pyx 313). *)
Fixpoint pairs (l : list Z) : list (Z * Z) :=
  match l with a :: ((b :: _) as t) => (a, b) :: pairs t | _ => [] end.
(** abstract_model.pyx 312-313: the (start, stop) chunks of one jump. *)
Definition jump_chunks (n split : nat) : option (list (Z * Z)) :=
  if Nat.eqb (jump_step n split) 0 then None
  else Some (pairs (map Z.of_nat (py_range n 0 n (jump_step n split)) ++ [(-1)%Z])).
(** The Cython evaluation loop visits the cases [start, start+1, ...] below [stop], where
    a negative stop is the number of cases (mnl.pyx 535-536, 573; nl.pyx 501-502, 552). *)
Definition chunk_cases (n : nat) (c : Z * Z) : list nat :=
  let stop := if Z.eqb (snd c) (-1) then n else Z.to_nat (snd c) in
  seq (Z.to_nat (fst c)) (stop - Z.to_nat (fst c)).

(** ** maximize_loglike: choice of method, fallback and clean-up. *)

(** str.lower on one ASCII character (optimization.py 174-187 call [method.lower()]). *)
Definition lower_char (c : Ascii.ascii) : Ascii.ascii :=
  let n := Ascii.nat_of_ascii c in
  if (Nat.leb 65 n && Nat.leb n 90)%bool then Ascii.ascii_of_nat (n + 32) else c.
(** str.lower (optimization.py 174-187). *)
Fixpoint lower (s : string) : string :=
  match s with EmptyString => EmptyString | String c s => String (lower_char c) (lower s) end.
(** [method.lower() == 'bhhh'] (optimization.py 174, 187, 235). *)
Definition is_bhhh (m : string) : bool := String.eqb (lower m) "bhhh".

(** pandas [Series.max] / [Series.min] skip NaN; NaN when nothing is left. *)
Definition skip_nan (l : list num) : list num := filter (fun x => negb (is_nan x)) l.
(** pandas [Series.max] (optimization.py 182: [model.pf['minimum'].max()]). *)
Definition series_max (l : list num) : num :=
  match skip_nan l with [] => NaN | x :: t => fold_left nmax t x end.
(** pandas [Series.min] (optimization.py 182: [model.pf['maximum'].min()]). *)
Definition series_min (l : list num) : num :=
  match skip_nan l with [] => NaN | x :: t => fold_left nmin t x end.
(** [numpy.isfinite] (optimization.py 182). *)
Definition is_finite (x : num) : bool := match x with Fin _ => true | _ => false end.

(** optimization.py 173-188: the method and method2 after defaults. *)
Definition choose_method (bhhh_start : nat) (method : option string) (has_constraints : bool)
  (mins maxs : list num) : string :=
  let method :=
    if Nat.eqb bhhh_start 0 then method
    else match method with
         | None => Some "slsqp"%string
         | Some m => if is_bhhh m then Some "slsqp"%string else Some m
         end in
  match method with
  | Some m => m
  | None =>
    if (has_constraints || is_finite (series_max mins) || is_finite (series_min maxs))%bool
    then "slsqp"%string else "bhhh"%string
  end.
(** optimization.py 187-188: [method2]. *)
Definition choose_method2 (method : string) (method2 : option string) : option string :=
  match method2 with
  | None => if is_bhhh method then Some "slsqp"%string else None
  | Some m => Some m
  end.

(** The two attributes [constraint_intensity] and [constraint_sharpness]; [None] when the model
    has none (the Cython models) or it is None. *)
(** Attributes saved at optimization.py 104-105 and restored in the [finally] clause, 397-401. *)
Record attrs := mkAttrs { a_intens : option R; a_sharp : option R }.
(** How [fit_bhhh] can end for the caller (optimization.py 193-299). *)
Inductive fit_exit := FitOk (ll : num) | FitStepFailure | FitNotImplemented | FitOther.
(** How [minimize] can end for the caller (optimization.py 301-337). *)
Inductive scipy_exit := ScipyOk (ll : num) | ScipyRaise.

(** What happens inside: how fit_bhhh of the model ends for the start and for the main fit,
    and what it leaves in the attributes; how minimize ends. *)
(** Oracles for the two calls (optimization.py 193-337). *)
Record world := mkWorld {
  w_start : attrs -> fit_exit * attrs;
  w_fit : attrs -> fit_exit * attrs;
  w_scipy : scipy_exit }.

(** What [maximize_loglike] gives its caller (optimization.py 339-401). *)
Inductive exit := Returned (ll : option num) (method_used : string) | Raised.

(** The scipy part, optimization.py 301-337. *)
Definition scipy_part (w : world) (ll : option num) (used : string) (at_ : attrs) : exit * attrs :=
  match w_scipy w with
  | ScipyOk v => (Returned (Some v) used, at_)
  | ScipyRaise => (Raised, at_)
  end.

(** optimization.py 193-337 and the result dictionary: 'loglike' is present iff some optimizer
    produced it. *)
Definition body (w : world) (bhhh_start : nat) (method : string) (method2 : option string)
  (start_name : string) (at_ : attrs) : exit * attrs :=
  let '(ok, ll, used, at_) :=
    if Nat.eqb bhhh_start 0 then (true, None, method, at_)
    else
      let '(r, at1) := w_start w at_ in
      let at1 := mkAttrs (Some 0) (a_sharp at1) in     (* finally: constraint_intensity = 0.0 *)
      match r with
      | FitOk v => (true, Some v, start_name, at1)
      | FitStepFailure => (true, None, start_name, at1)
      | _ => (false, None, start_name, at1)
      end in
  if negb ok then (Raised, at_)
  else if is_bhhh method then
    let '(r, at1) := w_fit w at_ in
    match r with
    | FitOk v => (Returned (Some v) used, at1)
    | FitNotImplemented =>
      match method2 with
      | Some m2 => if is_bhhh m2 then (Returned ll m2, at1) else scipy_part w ll m2 at1
      | None => (Returned ll used, at1)
      end
    | FitStepFailure =>
      match method2 with
      | Some m2 =>
        let used := (used ++ "|" ++ m2)%string in
        if is_bhhh m2 then (Returned ll used, at1) else scipy_part w ll used at1
      | None => (Returned ll used, at1)
      end
    | FitOther => (Raised, at1)
    end
  else scipy_part w ll used at_.

(** optimization.py 50-401. [name_of] builds "bhhh(k)->method". *)
Definition maximize_loglike (w : world) (name_of : nat -> string -> string)
  (bhhh_start : nat) (method method2 : option string) (has_constraints : bool)
  (mins maxs : list num) (at_ : attrs) : exit * attrs :=
  let m := choose_method bhhh_start method has_constraints mins maxs in
  let m2 := choose_method2 m method2 in
  let '(x, at1) := body w bhhh_start m m2 (name_of bhhh_start m) at_ in
  (x, mkAttrs (match a_intens at_ with Some i => Some i | None => a_intens at1 end)
              (match a_sharp at_ with Some i => Some i | None => a_sharp at1 end)).
