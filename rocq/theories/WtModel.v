(** Model of the weights of larch/dataframes.pyx: scale_weights (2867-2930), autoscale_weights
    (2932-2993), unscale_weights (2995-3007), weight_normalization (3009-3023), total_weight
    (1414-1418), and of the choice-weighted sums that the likelihoods take over them
    (larch/model/mnl.pyx 585-652, nl.pyx 605-683).
    Arithmetic is exact; a NaN weight is [None]. *)
From Coq Require Export Reals List Bool Lra Lia.
Export ListNotations.
Open Scope R_scope.

(** helper: [<] of floats (lines 2954, 3097). *)
Definition Rltb (a b : R) : bool := if Rlt_dec a b then true else false.
(** helper: [temp == 0] (line 2971). *)
Definition Req0 (a : R) : bool := if Req_EM_T a 0 then true else false.

(** The parts of a DataFrames (dataframes.pyx 337-706) that matter: number of cases, choices (no rows when there is no
    data_ch), weights (None when there is no data_wt), weight_normalization. *)
Record dfs := mkD { d_n : nat; d_ch : list (list R); d_wt : option (list (option R)); d_norm : R }.

(** The accumulation of lines 2951-2953. *)
Definition sum (l : list R) : R := fold_left Rplus l 0.
(** Lines 2951-2954 (2891-2894): total choice of a case outside [0.99999999, 1.00000001]. *)
Definition lo : R := 0.99999999.
(** The upper limit of line 2954. *)
Definition hi : R := 1.00000001.
(** The test of line 2954. *)
Definition off (row : list R) : bool := Rltb (sum row) lo || Rltb hi (sum row).
(** Lines 2950-2956: the index at which the loop breaks. *)
Fixpoint first_off (ch : list (list R)) : option nat :=
  match ch with
  | [] => None
  | r :: ch => if off r then Some O else option_map S (first_off ch)
  end.
(** Lines 2968-2974, one case: divide the choices by their total unless it is zero; multiply the weight. *)
Definition ext_row (r : list R) : list R := if Req0 (sum r) then r else map (fun x => x / sum r) r.
(** helper: a product with a possibly NaN factor (line 2974). *)
Definition omul (w : option R) (x : R) : option R := option_map (fun w => w * x) w.
(** Line 2974. *)
Definition ext_wt (w : option R) (r : list R) : option R := omul w (sum r).
(** Lines 2967-2975, the weights. *)
Fixpoint zip_wt (wt : list (option R)) (ch : list (list R)) : list (option R) :=
  match wt, ch with
  | w :: wt, r :: ch => ext_wt w r :: zip_wt wt ch
  | _, _ => wt
  end.
(** Lines 2950-2975 (2890-2915): move weights embedded in the choices to the weights. *)
Definition extract (d : dfs) : dfs :=
  match first_off (d_ch d) with
  | None => d
  | Some i =>
    let wt := match d_wt d with Some w => w | None => repeat (Some 1) (d_n d) end in
    mkD (d_n d) (firstn i (d_ch d) ++ map ext_row (skipn i (d_ch d)))
        (Some (firstn i wt ++ zip_wt (skipn i wt) (skipn i (d_ch d)))) (d_norm d)
  end.
(** numpy sum, or (2980-2982) pandas sum if that is NaN: missing weights are left out. *)
Definition osum (l : list (option R)) : R := fold_left (fun a w => match w with Some w => a + w | None => a end) l 0.
(** Lines 2983-2988. *)
Definition rescale (d : dfs) (wt : list (option R)) (scale : R) : dfs :=
  mkD (d_n d) (d_ch d) (Some (map (option_map (fun w => w / scale)) wt)) (d_norm d * scale).
(** autoscale_weights, 2932-2993: the scale and the new state. *)
Definition autoscale_weights (d : dfs) : R * dfs :=
  let d := extract d in
  match d_wt d with
  | None => (1, d)
  | Some wt => let scale := osum wt / INR (d_n d) in (scale, rescale d wt scale)
  end.
(** scale_weights, 2867-2930. Without weights the loop over them is empty. *)
Definition scale_weights (scale : R) (d : dfs) : R * dfs :=
  let d := extract d in
  match d_wt d with
  | None => if Req_EM_T scale 1 then (1, d) else (scale, mkD (d_n d) (d_ch d) None (d_norm d * scale))
  | Some wt => (scale, rescale d wt scale)
  end.
(** unscale_weights, 2995-3007. *)
Definition unscale_weights (d : dfs) : R * dfs :=
  let s := d_norm d in
  (s, mkD (d_n d) (d_ch d) (option_map (map (option_map (fun w => w * s))) (d_wt d)) (d_norm d / s)).
(** total_weight, 1414-1418. *)
Definition total_weight (d : dfs) : R :=
  match d_wt d with None => INR (d_n d) | Some wt => osum wt * d_norm d end.

(** mnl.pyx 594-597 (nl.pyx 610-613): the weight of a case. *)
Definition case_weight (d : dfs) (c : nat) : option R :=
  match d_wt d with None => Some 1 | Some wt => nth c wt None end.
(** [self._array_ch[i,j]], line 2953. *)
Definition choice (d : dfs) (c a : nat) : R := nth a (nth c (d_ch d) []) 0.
(** mnl.pyx 261-274 with 622-628: the contribution of one case, given what each alternative contributes
    when chosen; and 648: the total over cases, times the normalization.  For the log likelihood the
    contributions are the log probabilities; for a component of the gradient (mnl.pyx 430-452, 650) they
    are [sum_i dU[i,v] * ((i==a) - pr[i])], and for an entry of the bhhh matrix (454-457, 652) the products
    of two of these.  A NaN weight makes the total NaN. *)
Definition dotl (a b : list R) : R := sum (map (fun p => fst p * snd p) (combine a b)).
(** mnl.pyx 620-624: one case. *)
Definition case_term (d : dfs) (f : nat -> list R) (c : nat) : option R :=
  omul (case_weight d c) (dotl (nth c (d_ch d) []) (f c)).
(** mnl.pyx 625: the total over cases. *)
Fixpoint weighted_sum (d : dfs) (f : nat -> list R) (n : nat) : option R :=
  match n with
  | O => Some 0
  | S n =>
    match weighted_sum d f n, case_term d f n with
    | Some t, Some x => Some (t + x)
    | _, _ => None
    end
  end.
(** mnl.pyx 648: the total times the normalization. *)
Definition loglike (d : dfs) (f : nat -> list R) : option R :=
  omul (weighted_sum d f (d_n d)) (d_norm d).
(** mnl.pyx 629, 661; nl.pyx 628, 694: the casewise values are not multiplied by the normalization. *)
Definition ll_casewise (d : dfs) (f : nat -> list R) (c : nat) : option R := case_term d f c.
