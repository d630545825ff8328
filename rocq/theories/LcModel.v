(** Latent class models: the mixture probability, its log likelihood and gradient, and the BHHH
    accumulation with its buffers.
    Source: larch/model/latentclass.py, larch/model/nl.pyx and larch/model/mnl.pyx at the pinned
    commit.  Simplification: floats are real numbers; the log of a probability that is not positive
    is [None]. *)
From Coq Require Export Reals.
From Verif Require Export RangeModel.
Open Scope Z_scope.

(** The ways a call can end.  [Undefined] stands for the reads outside the data arrays that the
    kernels do not check for (larch/model/mnl.pyx 461-464, larch/model/nl.pyx 208-211: boundscheck is off). *)
Inductive res (A : Type) := Ok (a : A) | IndexError | KeyError | Undefined.
Arguments Ok {A}. Arguments IndexError {A}. Arguments KeyError {A}. Arguments Undefined {A}.

(** larch/model/latentclass.py 158-169 (and 195-206, 256-267, 295-306): the checks on the range,
    giving the stop that is used.  The last two cases are not checked by the code. *)
Definition resolve_range (n start stop step : Z) : res Z :=
  if n <=? start then IndexError else
  let stop' := if stop =? -1 then n else stop in
  if stop' <? start then IndexError else
  if step <=? 0 then IndexError else
  if start <? 0 then Undefined else
  if n <? stop' then Undefined else Ok stop'.

(** Elementwise combination of two arrays of the same shape (numpy's in-place [+=] and [*]). 
    larch/model/latentclass.py 183-186. *)
Fixpoint map2 {A B C} (f : A -> B -> C) (l : list A) (m : list B) : list C :=
  match l, m with
  | x :: l, y :: m => f x y :: map2 f l m
  | _, _ => []
  end.

Open Scope R_scope.
(** larch/model/latentclass.py 626-631: the class membership data has alternatives 1, ..., K, and
    [return_dataframe='idco'] (line 140) labels the columns with those codes
    (larch/model/controller.pyx 1055-1059).  [None] is the KeyError of [.loc[:, k_name]]. *)
Definition column_of (K : nat) (key : Z) : option nat :=
  if ((1 <=? key) && (key <=? Z.of_nat K))%Z then Some (Z.to_nat (key - 1)) else None.

(** larch/model/latentclass.py 183-186: one class added into [p].  [k_pr] are the rows of the class
    model (its nests included), [mem] the membership rows, [col] the column of this class. *)
Definition add_class (n_alts col : nat) (p k_pr mem : list (list R)) : list (list R) :=
  map2 (map2 Rplus) p
    (map2 (fun row m => map (fun x => x * nth col m 0) (firstn n_alts row)) k_pr mem).

(** larch/model/latentclass.py 181-186: the loop over the classes, in the order of the mapping. *)
Fixpoint add_classes (n_alts K : nat) (keys : list Z) (k_pr : Z -> list (list R))
    (mem p : list (list R)) : res (list (list R)) :=
  match keys with
  | [] => Ok p
  | k :: keys =>
    match column_of K k with
    | None => KeyError
    | Some col => add_classes n_alts K keys k_pr mem (add_class n_alts col p (k_pr k) mem)
    end
  end.

(** larch/model/latentclass.py 155-194 and 195-235, [probability].  [pk k c] is the row of class [k]'s model for case
    [c], [pm c] the row of the membership model. *)
Definition lc_probability (n : Z) (n_alts : nat) (keys : list Z) (pk : Z -> Z -> list R)
    (pm : Z -> list R) (start stop step : Z) : res (list (list R)) :=
  match resolve_range n start stop step with
  | Ok stop' =>
    add_classes n_alts (length keys) keys
      (fun k => persisted [] (pk k) start stop' step)
      (persisted [] pm start stop' step)
      (repeat (repeat 0 n_alts) (Z.to_nat (n_rows start stop' step)))
  | IndexError => IndexError | KeyError => KeyError | Undefined => Undefined
  end.

(** Natural log of a float: [None] for minus infinity or NaN.  Used in larch/model/mnl.pyx 292. *)
Definition flog (x : R) : option R := if Rlt_dec 0 x then Some (ln x) else None.
(** Addition of such floats.  larch/model/mnl.pyx 292, 353 and 383. *)
Definition oplus (a b : option R) : option R :=
  match a, b with Some x, Some y => Some (x + y) | _, _ => None end.
(** Multiplication by a finite float.  larch/model/mnl.pyx 292 and 382. *)
Definition oscale (c : R) (a : option R) : option R := option_map (fun x => x * c) a.

(** larch/model/mnl.pyx 279-294: log likelihood of one case; alternatives with a zero choice are skipped. *)
Definition case_ll (probs chs : list R) : option R :=
  fold_left (fun ll pc => if Req_EM_T (snd pc) 0 then ll else oplus ll (oscale (snd pc) (flog (fst pc))))
    (combine probs chs) (Some 0).

(** larch/model/mnl.pyx 327-395, [loglike_from_probability]; without weights every weight is 1. *)
Definition loglike_from_probability (probs chs : list (list R)) (wts : list R) : option R :=
  fold_left (fun ll pcw => oplus ll (oscale (snd pcw) (case_ll (fst (fst pcw)) (snd (fst pcw)))))
    (combine (combine probs chs) wts) (Some 0).

(** larch/model/latentclass.py 560-599, [loglike] (and 388-425 in [loglike2]): the choices and weights are the slices
    [start:stop:step] of the data, which for a valid range are the cases of the range. *)
Definition lc_loglike (n : Z) (n_alts : nat) (keys : list Z) (pk : Z -> Z -> list R)
    (pm : Z -> list R) (ch : Z -> list R) (wt : Z -> R) (start stop step : Z) : res (option R) :=
  match lc_probability n n_alts keys pk pm start stop step with
  | Ok p =>
    let cs := case_range start (if (stop =? -1)%Z then n else stop) step in
    Ok (loglike_from_probability p (map ch cs) (map wt cs))
  | IndexError => IndexError | KeyError => KeyError | Undefined => Undefined
  end.

(** larch/model/latentclass.py 282-293: the derivative of the mixture for one case: for each class in turn the class
    derivative times the membership share, then the class probability times the share's
    derivative.  Arrays of one case are functions of alternative (or class column) and parameter. *)
Fixpoint d_mixture (K : nat) (keys : list Z) (pk : Z -> nat -> R) (dpk : Z -> nat -> nat -> R)
    (pm : nat -> R) (dpm : nat -> nat -> R) (acc : nat -> nat -> R) : res (nat -> nat -> R) :=
  match keys with
  | [] => Ok acc
  | k :: keys =>
    match column_of K k with
    | None => KeyError
    | Some col =>
      d_mixture K keys pk dpk pm dpm
        (fun a i => acc a i + dpk k a i * pm col + pk k a * dpm col i)
    end
  end.

(** * The gradient and BHHH kernel, with its buffers *)

(** Buffers by identity; two arguments that are the same identity are the same memory. 
    larch/model/nl.pyx 216-223 (the arguments [d_LL], [d_loglike_cum] and [dLL_temp]). *)
Record mem := mkMem { buf : nat -> nat -> R; bhhh : nat -> nat -> R }.
(** One write [b[i] = v].  larch/model/nl.pyx 244-247. *)
Definition write (b i : nat) (v : R) (m : mem) : mem :=
  mkMem (fun b' i' => if ((b' =? b) && (i' =? i))%nat then v else buf m b' i') (bhhh m).

(** larch/model/nl.pyx 242-247: one parameter of the inner loop, statement by statement. *)
Definition param_step (dLL cum tmp : nat) (da : nat -> R) (ch_over_pr ch wt : R) (m : mem) (i : nat) : mem :=
  let t := da i * ch_over_pr in
  let m := write tmp i (t / ch) m in
  let t := t * wt in
  let m := write dLL i (buf m dLL i + t) m in
  write cum i (buf m cum i + t) m.

(** larch/model/nl.pyx 249-252: the outer product of the temporary buffer is added. *)
Definition bhhh_step (n_params tmp : nat) (ch wt : R) (m : mem) : mem :=
  mkMem (buf m) (fun v v2 => if ((v <? n_params) && (v2 <? n_params))%nat
    then bhhh m v v2 + buf m tmp v * buf m tmp v2 * ch * wt else bhhh m v v2).

(** larch/model/nl.pyx 232-255: one alternative.  The flag for a chosen alternative without probability is returned
    but neither caller looks at it, so it is left out. *)
Definition alt_step (n_params dLL cum tmp : nat) (ret_bhhh : bool) (P : nat -> R)
    (dP : nat -> nat -> R) (ch : nat -> R) (wt : R) (m : mem) (a : nat) : mem :=
  if Req_EM_T (ch a) 0 then m else
  if Rlt_dec 0 (P a) then
    let m := fold_left (param_step dLL cum tmp (dP a) (ch a / P a) (ch a) wt) (seq 0 n_params) m in
    if ret_bhhh then bhhh_step n_params tmp (ch a) wt m else m
  else m.

(** larch/model/nl.pyx 211-257, [_nl_d_loglike_from_d_probability]: one case. *)
Definition case_kernel (n_params n_alts dLL cum tmp : nat) (ret_bhhh : bool) (P : nat -> R)
    (dP : nat -> nat -> R) (ch : nat -> R) (wt : R) (m : mem) : mem :=
  let m := fold_left (fun m i => write dLL i 0 m) (seq 0 n_params) m in
  fold_left (alt_step n_params dLL cum tmp ret_bhhh P dP ch wt) (seq 0 n_alts) m.

(** A loop over cases that share the buffers.  larch/model/nl.pyx 293-312 and 660-674 (one thread; there a
    case of weight zero is skipped, which adds the same nothing). *)
Definition cases_kernel (n_params n_alts dLL cum tmp : nat) (ret_bhhh : bool) (P : nat -> nat -> R)
    (dP : nat -> nat -> nat -> R) (ch : nat -> nat -> R) (wt : nat -> R) (n_cases : nat) : mem :=
  fold_left (fun m c => case_kernel n_params n_alts dLL cum tmp ret_bhhh (P c) (dP c) (ch c) (wt c) m)
    (seq 0 n_cases) (mkMem (fun _ _ => 0) (fun _ _ => 0)).

(** larch/model/nl.pyx 260-316, [d_loglike_from_d_probability], as the latent class model calls it: the buffer
    [d_LL_temp] is passed both as [d_LL] (line 305) and, through [&d_LL_temp[0]] (line 311), as
    [dLL_temp].  The result is the cumulated gradient and the BHHH matrix. *)
Definition lc_dll_bhhh (n_params n_alts : nat) P dP ch wt (n_cases : nat) :=
  let m := cases_kernel n_params n_alts 0 1 0 true P dP ch wt n_cases in (buf m 1%nat, bhhh m).

(** larch/model/nl.pyx 660-674: the nested logit kernel has three different buffers. *)
Definition nl_dll_bhhh (n_params n_alts : nat) P dP ch wt (n_cases : nat) :=
  let m := cases_kernel n_params n_alts 0 1 2 true P dP ch wt n_cases in (buf m 1%nat, bhhh m).
