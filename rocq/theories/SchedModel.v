(** The multi-threaded likelihood kernels of the Cython engine: the parallel loop over cases, the
    per-thread and per-case buffers, and the reductions.
    Source: larch/model/mnl.pyx 91-125, 261-294, 399-457, 461-690 and larch/model/nl.pyx 211-257,
    424-720 at the pinned commit.

    Memory is a function from locations to numbers; one instruction is one store.  Each thread runs
    the instructions of its own cases in its own order; the threads interleave arbitrarily.
    Numbers are exact, [None] is minus infinity or NaN; adding floats in another order can change
    the last bits, which exact numbers do not show.  Cython's rules: a scalar assigned in the
    parallel loop belongs to the thread, and [ll += ...] is a reduction (each thread has its own
    [ll], added up at the end). *)
From Coq Require Export Reals Permutation.
From Verif Require Export RangeModel.
Open Scope Z_scope.

(** The arrays of mnl.pyx 552-570 and nl.pyx 521-547, and the scalars of a thread: [SSum] sum_expU,
    [SLLt] ll_temp, [SLL] the thread's part of the reduction variable ll. *)
Inductive arr :=
| AU | AE | ACP | AP | ADU | ADP | ALLc | ADLLc      (* stored per case or per thread *)
| ADLLtot | ADLLtmp | ABhhh | AScratch | AChWide | SSum | SLLt | SLL.   (* per thread *)
(** Comparison of arrays by identity (the numpy arrays of mnl.pyx 552-570 are distinct objects). *)
Definition arr_eq_dec (a b : arr) : {a = b} + {a <> b}. Proof. decide equality. Defined.
(** A cell: array, row, and up to two more indices. *)
(** mnl.pyx 552-570. *)
Definition loc := (arr * nat * (nat * nat))%type.
(** Equality of cells: same array, same indices (mnl.pyx 552-570). *)
Definition loc_eqb (a b : loc) : bool :=
  if arr_eq_dec (fst (fst a)) (fst (fst b)) then
    (Nat.eqb (snd (fst a)) (snd (fst b)) && Nat.eqb (fst (snd a)) (fst (snd b)) && Nat.eqb (snd (snd a)) (snd (snd b)))%bool
  else false.
(** The memory shared by all threads (mnl.pyx 552-570: numpy arrays made before the loop). *)
Definition mem := loc -> option R.
(** One store: where, and the value computed from the memory at that moment (e.g. mnl.pyx 112). *)
Definition instr := (loc * (mem -> option R))%type.
(** Execution of one store (e.g. mnl.pyx 112). *)
Definition exec (m : mem) (i : instr) : mem := fun l => if loc_eqb l (fst i) then snd i m else m l.
(** Execution in sequence (mnl.pyx 573-640). *)
Definition run (p : list instr) (m : mem) : mem := fold_left exec p m.
(** All arrays start as zeros (mnl.pyx 552-570). *)
Definition zeros : mem := fun _ => Some 0%R.

(** Interleavings of the threads' programs: at each step some thread executes its next store.
    (OpenMP's schedule, mnl.pyx 570-573: any.) *)
Inductive interleaving : list (list instr) -> list instr -> Prop :=
| il_done ps : (forall p, In p ps -> p = []) -> interleaving ps []
| il_step l1 i p l2 tr : interleaving (l1 ++ p :: l2) tr -> interleaving (l1 ++ (i :: p) :: l2) (i :: tr).

Open Scope R_scope.
(** Reading a cell as a number; cells other than utilities and log likelihoods are never
    infinite.  (mnl.pyx 112-125) *)
Definition rd (m : mem) (l : loc) : R := match m l with Some x => x | None => 0 end.
(** Addition and scaling of numbers that may be minus infinity or NaN.  (mnl.pyx 292, 625-626) *)
Definition oplus (a b : option R) : option R := match a, b with Some x, Some y => Some (x + y) | _, _ => None end.
(** Multiplication by a finite number.  (mnl.pyx 292, 624) *)
Definition oscale (c : R) (a : option R) : option R := option_map (fun x => x * c) a.
(** [log] (mnl.pyx 292). *)
Definition flog (x : R) : option R := if Rlt_dec 0 x then Some (ln x) else None.

(** The data and the model as the kernel reads them: number of alternatives and parameters, of
    nodes and edges (nested logit), weights, choices, weight normalization; and what the single
    case functions compute: utility and its derivatives (dataframes.pyx 2356-2561), and for
    the nested logit the node utilities, the conditional log probabilities, the probabilities and
    their derivatives (nl.pyx 41-210).  (mnl.pyx 483-489, 648) *)
Record data := mkData {
  d_alts : nat; d_params : nat;
  d_wt : Z -> R; d_ch : Z -> nat -> R; d_norm : R;
  d_u : Z -> nat -> option R; d_du : Z -> nat -> nat -> R }.
(** The arguments of the kernel: mnl.pyx 464-477.  The flags of [persist] by array. *)
Record opts := mkOpts {
  o_dll : bool; o_bhhh : bool; o_start : Z; o_step : Z; o_leave : Z; o_keep : Z; o_sub : Z; o_only : bool;
  o_keep_arr : arr -> bool }.
(** mnl.pyx 535-536: a negative stop is the number of cases. *)
Definition stop_of (n stop : Z) : Z := if (stop <? 0)%Z then n else stop.
(** mnl.pyx 538-540. *)
Definition want_dll (o : opts) : bool := o_dll o || o_bhhh o.

(** mnl.pyx 575-579 (nl.pyx 554-558): the cross-validation filters.  Python's modulo. *)
Definition selected (o : opts) (c : Z) : bool :=
  if ((0 <=? o_leave o) && (c mod o_sub o =? o_leave o))%Z then false
  else if ((0 <=? o_keep o) && negb (c mod o_sub o =? o_keep o))%Z then false
  else true.
(** mnl.pyx 581-589 (nl.pyx 560-568): the row of an array used for case [c] on thread [t]. *)
Definition row (o : opts) (t : nat) (c : Z) (a : arr) : nat :=
  if o_keep_arr o a then Z.to_nat ((c - o_start o) / o_step o) else t.

Section Program.
Variables (d : data) (o : opts) (t : nat) (c : Z).
(** Cells of the case's row, and scalars of the thread (mnl.pyx 581-592). *)
Definition cell (a : arr) (i j : nat) : loc := (a, row o t c a, (i, j)).
(** Thread-local cell (mnl.pyx 634-636). *)
Definition local (a : arr) (i j : nat) : loc := (a, t, (i, j)).

(** dataframes.pyx 2393-2460, called at mnl.pyx 599-608: the rows are zeroed, then filled.
    Simplification: each cell gets its final value in one store. *)
Definition utility_prog : list instr :=
  map (fun i => (cell AU i 0, fun _ => Some 0)) (seq 0 (d_alts d)) ++
  (if want_dll o then
     flat_map (fun i => map (fun v => (cell ADU i v, fun _ => Some 0)) (seq 0 (d_params d))) (seq 0 (d_alts d)) else []) ++
  map (fun i => (cell AU i 0, fun _ => d_u d c i)) (seq 0 (d_alts d)) ++
  (if want_dll o then
     flat_map (fun i => map (fun v => (cell ADU i v, fun _ => Some (d_du d c i v))) (seq 0 (d_params d))) (seq 0 (d_alts d)) else []).

(** mnl.pyx 100-125 [_mnl_probability_from_utility]. *)
Definition probability_prog : list instr :=
  (local SSum 0 0, fun _ => Some 0) ::
  flat_map (fun i =>
    [(cell AE i 0, fun m => match m (cell AU i 0) with Some u => Some (exp u) | None => Some 0 end);
     (local SSum 0 0, fun m => match m (cell AU i 0) with
                               | Some _ => Some (rd m (local SSum 0 0) + rd m (cell AE i 0))
                               | None => m (local SSum 0 0) end)]) (seq 0 (d_alts d)) ++
  map (fun i => (cell AP i 0, fun m =>
    if Req_EM_T (rd m (local SSum 0 0)) 0 then Some 0
    else Some (rd m (cell AE i 0) / rd m (local SSum 0 0)))) (seq 0 (d_alts d)).

(** mnl.pyx 279-294 [_mnl_log_likelihood_from_probability_stride] and 620-626. *)
Definition loglike_prog : list instr :=
  (local SLLt 0 0, fun _ => Some 0) ::
  map (fun i => (local SLLt 0 0, fun m =>
    if Req_EM_T (d_ch d c i) 0 then m (local SLLt 0 0)
    else oplus (m (local SLLt 0 0)) (oscale (d_ch d c i) (flog (rd m (cell AP i 0)))))) (seq 0 (d_alts d)) ++
  [(local SLLt 0 0, fun m => oscale (d_wt d c) (m (local SLLt 0 0)));
   (local SLL 0 0, fun m => oplus (m (local SLL 0 0)) (m (local SLLt 0 0)));
   (cell ALLc 0 0, fun m => oplus (m (cell ALLc 0 0)) (m (local SLLt 0 0)))].

(** mnl.pyx 443-452: one alternative [i] and parameter [v] under chosen alternative [a]. *)
Definition grad_cell (a i v : nat) : list instr :=
  let tv m := (if (i =? a)%nat then 1 else 0) - rd m (cell AP i 0) in
  let tv2 m := rd m (cell ADU i v) * tv m in
  let add l x : instr := (l, fun m => if Req_EM_T (tv m) 0 then m l else oplus (m l) (Some (x m))) in
  [add (local ADLLtmp v 0) tv2;
   add (cell ADLLc v 0) (fun m => tv2 m * (d_ch d c a * d_wt d c));
   add (local ADLLtot v 0) (fun m => tv2 m * (d_ch d c a * d_wt d c))].
(** mnl.pyx 434-457: one chosen alternative. *)
Definition grad_alt (a : nat) : list instr :=
  if Req_EM_T (d_ch d c a * d_wt d c) 0 then []
  else
    map (fun v => (local ADLLtmp v 0, fun _ => Some 0)) (seq 0 (d_params d)) ++
    flat_map (fun i => flat_map (grad_cell a i) (seq 0 (d_params d))) (seq 0 (d_alts d)) ++
    (if o_bhhh o then
       flat_map (fun v => map (fun w => (local ABhhh v w, fun m =>
         oplus (m (local ABhhh v w)) (Some (rd m (local ADLLtmp v 0) * rd m (local ADLLtmp w 0) * (d_ch d c a * d_wt d c)))))
         (seq 0 (d_params d))) (seq 0 (d_params d)) else []).
(** mnl.pyx 399-457 [_mnl_d_log_likelihood_from_d_utility], and the test at 628. *)
Definition grad_prog : list instr :=
  if Req_EM_T (d_wt d c) 0 then []
  else map (fun v => (cell ADLLc v 0, fun _ => Some 0)) (seq 0 (d_params d)) ++
       flat_map grad_alt (seq 0 (d_alts d)).

(** mnl.pyx 573-641: the body of the loop. *)
Definition case_prog : list instr :=
  if selected o c then
    utility_prog ++ probability_prog ++
    (if o_only o then [] else loglike_prog ++ (if want_dll o then grad_prog else []))
  else [].
End Program.

(** mnl.pyx 570-573: the program of a thread that is given these cases. *)
Definition thread_prog (d : data) (o : opts) (t : nat) (cs : list Z) : list instr :=
  flat_map (case_prog d o t) cs.
(** All threads (mnl.pyx 570-573); [dist] lists the cases given to each. *)
Definition threads (d : data) (o : opts) (dist : list (list Z)) : list (list instr) :=
  map (fun p => thread_prog d o (fst p) (snd p)) (combine (seq 0 (length dist)) dist).

(** What is returned: mnl.pyx 643-687. *)
Record result := mkRes {
  x_ll : option R; x_dll : nat -> R; x_bhhh : nat -> nat -> R;
  x_utility : nat -> nat -> option R; x_exp : nat -> nat -> R; x_prob : nat -> nat -> R; x_du : nat -> nat -> nat -> R;
  x_llc : nat -> option R; x_dllc : nat -> nat -> R }.
(** Sum over threads: the reduction of ll, and [.base.sum(0)], mnl.pyx 650, 652. *)
Definition osum (l : list (option R)) : option R := fold_left oplus l (Some 0).
(** numpy sum (mnl.pyx 650, 652). *)
Definition rsum (l : list R) : R := fold_left Rplus l 0.
(** mnl.pyx 643-687 after the loop has left memory [m]; [nt] threads.  The rows of the casewise
    arrays are meaningful when the array is persisted. *)
Definition finish (d : data) (o : opts) (nt : nat) (m : mem) : result :=
  mkRes
    (if o_only o then None else oscale (d_norm d) (osum (map (fun t => m (SLL, t, (0, 0)%nat)) (seq 0 nt))))
    (fun v => rsum (map (fun t => rd m (ADLLtot, t, (v, 0%nat))) (seq 0 nt)) * d_norm d)
    (fun v w => rsum (map (fun t => rd m (ABhhh, t, (v, w))) (seq 0 nt)) * d_norm d)
    (fun r i => m (AU, r, (i, 0%nat))) (fun r i => rd m (AE, r, (i, 0%nat))) (fun r i => rd m (AP, r, (i, 0%nat)))
    (fun r i v => rd m (ADU, r, (i, v)))
    (fun r => m (ALLc, r, (0, 0)%nat)) (fun r v => rd m (ADLLc, r, (v, 0%nat)) * d_norm d).
(** mnl.pyx 532-533. *)
Definition n_threads (requested : Z) : nat := if (requested <=? 0)%Z then 1 else Z.to_nat requested.

(** An execution of the kernel: OpenMP hands the cases of the range to the threads in some way, the
    threads interleave in some way (mnl.pyx 570-573). *)
Inductive execution (d : data) (o : opts) (nt : nat) (stop : Z) : result -> Prop :=
| execute dist tr : length dist = nt -> Permutation (concat dist) (case_range (o_start o) stop (o_step o)) ->
    interleaving (threads d o dist) tr ->
    execution d o nt stop (finish d o nt (run tr zeros)).

(** The kernel as called: mnl.pyx 461-536, with [n_cases] cases; the stop is resolved and the number
    of threads made positive.  Not modelled: a stop beyond the last case (bounds checks are off,
    mnl.pyx 458). *)
Definition kernel (d : data) (o : opts) (n_cases stop requested : Z) (res : result) : Prop :=
  execution d o (n_threads requested) (stop_of n_cases stop) res.
