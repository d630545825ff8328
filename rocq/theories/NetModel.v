(** Model of the nested and cross-nested logit kernel of the Cython engine, larch/model/nl.pyx
    46-257, 321-392 and 552-674 for one case, over the arrays of larch/model/tree_struct.pyx
    (tree.py 910-957): nodes in slots, edges with allocation parameters.

    Numbers are exact reals; a utility, log probability or log likelihood is [option R] with
    [None] minus infinity; an entry of the derivative of the probabilities is [option R] with
    [None] NaN.  Arrays are functions, loops are [fold_left].  All logsum parameters are taken
    to be positive (the theorems say so): nl.pyx 37-43 is meant to reject zero, but it is a
    [cdef void] function, whose exception is only printed.
    Not modelled: rounding; the roll-up of the choices at nl.pyx 173-177, whose result is not
    read (line 188 tests [True or ...]). *)
From Verif Require Export LogitModel.

(** tree_struct.pyx 7-21: one edge is (up, down, allocation). *)
Record net := mkNet {
  w_alts : nat;                    (* n_elementals *)
  w_nodes : nat;                   (* n_nodes; the root is the last *)
  w_edges : list (nat * nat * R);  (* edge_up, edge_dn, edge_alpha_values *)
  w_first : nat -> nat;            (* first_edge_for_up *)
  w_num : nat -> nat               (* n_edges_for_up *)
}.
(** edge_up (tree_struct.pyx 16). *)
Definition e_up (e : nat * nat * R) : nat := fst (fst e).
(** edge_dn (tree_struct.pyx 15). *)
Definition e_dn (e : nat * nat * R) : nat := snd (fst e).
(** edge_alpha_values (tree_struct.pyx 17). *)
Definition e_al (e : nat * nat * R) : R := snd e.
(** nl.pyx 79-81: edges [first_edge_for_up[parent] + n], n below n_edges_for_up[parent]. *)
Definition slice (w : net) (k : nat) : list (nat * nat * R) :=
  map (fun i => nth (w_first w k + i) (w_edges w) (0%nat, 0%nat, 0)) (seq 0 (w_num w k)).

(** nl.pyx 82-87: one edge of the search for the largest term. *)
Definition top_step (m : R) (U : nat -> option R) (acc : R * option nat) (e : nat * nat * R) : R * option nat :=
  match U (e_dn e) with
  | None => acc
  | Some u =>
    if Rlt_dec 0 (e_al e) then
      let z := (ln (e_al e) + u) / m in
      if Rlt_dec (fst acc) z then (z, Some (e_dn e)) else acc
    else acc
  end.
(** nl.pyx 91-99: one edge of the sum. *)
Definition sum_step (m : R) (U : nat -> option R) (sh : R) (pos : option nat) (acc : R) (e : nat * nat * R) : R :=
  match U (e_dn e) with
  | None => acc
  | Some u =>
    if Rlt_dec 0 (e_al e) then
      if (match pos with Some c => (c =? e_dn e)%nat | None => false end) then acc + 1
      else acc + exp ((ln (e_al e) + u) / m - sh)
    else acc
  end.
(** nl.pyx 69-101: one nest.  [log 0] is minus infinity. *)
Definition nest_up (w : net) (mu : nat -> R) (U : nat -> option R) (k : nat) : nat -> option R :=
  let '(sh, pos) := fold_left (top_step (mu k) U) (slice w k) (- 10 ^ 100, None) in
  let s := fold_left (sum_step (mu k) U sh pos) (slice w k) 0 in
  upd U k (if Rlt_dec 0 s then Some ((ln s + sh) * mu k) else None).
(** nl.pyx 69: all nests, in slot order. *)
Definition net_utilities (w : net) (mu : nat -> R) (u : nat -> option R) : nat -> option R :=
  fold_left (nest_up w mu) (seq (w_alts w) (w_nodes w - w_alts w)) u.

(** nl.pyx 123-139: log of the conditional probability of an edge. *)
Definition edge_cond (mu : nat -> R) (U : nat -> option R) (e : nat * nat * R) : option R :=
  match U (e_up e), U (e_dn e) with
  | Some a, Some b =>
    Some ((b - a) / mu (e_up e) + (if Req_EM_T (e_al e) 1 then 0 else ln (e_al e) / mu (e_up e)))
  | _, _ => None
  end.
(** exp of a log probability (nl.pyx 203, 345, 392). *)
Definition ocexp (x : option R) : R := match x with Some v => exp v | None => 0 end.
(** nl.pyx 387-392: one edge. *)
Definition tot_step (mu : nat -> R) (U : nat -> option R) (P : nat -> R) (e : nat * nat * R) : nat -> R :=
  if Req_EM_T (P (e_up e)) 0 then P
  else upd P (e_dn e) (P (e_dn e) + ocexp (edge_cond mu U e) * P (e_up e)).
(** nl.pyx 367-392: the total probabilities, from the root down. *)
Definition net_probabilities (w : net) (mu : nat -> R) (U : nat -> option R) : nat -> R :=
  fold_left (tot_step mu U) (rev (w_edges w)) (upd (fun _ => 0) (w_nodes w - 1) 1).

(** mnl.pyx 284-294 and nl.pyx 613-617: the log likelihood of a case; [width] entries of the choice. *)
Definition net_loglike (width : nat) (P ch : nat -> R) (wt : R) : option R :=
  match fold_left (fun ll i => if Req_EM_T (ch i) 0 then ll
                   else match ll with
                        | Some x => if Rlt_dec 0 (P i) then Some (x + ln (P i) * ch i) else None
                        | None => None end) (seq 0 width) (Some 0) with
  | Some x => Some (x * wt)
  | None => None
  end.

(** helper: assignment to an element of a two-dimensional array (nl.pyx 338). *)
Definition upd2 (D : nat -> nat -> R) (k p : nat) (v : R) : nat -> nat -> R := upd D k (upd (D k) p v).
(** helper: the number in an entry (nl.pyx 350). *)
Definition uval (x : option R) : R := match x with Some v => v | None => 0 end.
(** nl.pyx 340-362: one edge; the third step is for every parameter. *)
Definition net_dutil_edge (w : net) (mu : nat -> R) (slot : nat -> option nat) (U : nat -> option R)
    (D : nat -> nat -> R) (e : nat * nat * R) : nat -> nat -> R :=
  match edge_cond mu U e with
  | None => D
  | Some c =>
    let cp := exp c in
    let D1 := if Nat.leb (w_alts w) (e_dn e) then
                match slot (e_dn e) with
                | Some s => upd2 D (e_dn e) s ((D (e_dn e) s + uval (U (e_dn e))) / mu (e_dn e))
                | None => D
                end
              else D in
    let D2 := match slot (e_up e) with
              | Some s => upd2 D1 (e_up e) s (D1 (e_up e) s -
                  cp * (if Req_EM_T (e_al e) 1 then uval (U (e_dn e))
                        else uval (U (e_dn e)) + mu (e_dn e) * ln (e_al e)))
              | None => D1
              end in
    upd D2 (e_up e) (fun p => D2 (e_up e) p + cp * D2 (e_dn e) p)
  end.
(** nl.pyx 321-365: the derivatives of the node utilities from those of the alternatives. *)
Definition net_dutility (w : net) (mu : nat -> R) (slot : nat -> option nat) (U : nat -> option R)
    (du : nat -> nat -> R) : nat -> nat -> R :=
  fold_left (net_dutil_edge w mu slot U) (w_edges w)
    (fun k p => if (k <? w_alts w)%nat then du k p else 0).

(** nl.pyx 190-203: the scratch entry of parameter [p]: NaN when it takes the difference with an
    infinite utility. *)
Definition scratch (mu : nat -> R) (slot : nat -> option nat) (U : nat -> option R) (P : nat -> R)
    (D : nat -> nat -> R) (e : nat * nat * R) (p : nat) : option R :=
  let m := mu (e_up e) in
  let base := D (e_dn e) p - D (e_up e) p in
  match slot (e_up e) with
  | Some s =>
    if (s =? p)%nat then
      match U (e_up e), U (e_dn e) with
      | Some a, Some b =>
        Some ((base + (a - b) / m - (if Req_EM_T (e_al e) 1 then 0 else ln (e_al e) / m)) * (P (e_up e) / m))
      | _, _ => None
      end
    else Some (base * (P (e_up e) / m))
  | None => Some (base * (P (e_up e) / m))
  end.
(** nl.pyx 183-203: one edge, every parameter. *)
Definition net_dprob_edge (mu : nat -> R) (slot : nat -> option nat) (U : nat -> option R) (P : nat -> R)
    (D : nat -> nat -> R) (Q : nat -> nat -> option R) (e : nat * nat * R) : nat -> nat -> option R :=
  upd Q (e_dn e) (fun p =>
    oadd (Q (e_dn e) p)
      match oadd (scratch mu slot U P D e p) (Q (e_up e) p) with
      | Some x => Some (x * ocexp (edge_cond mu U e))
      | None => None
      end).
(** nl.pyx 144-203: the derivatives of the total probabilities, from the root down. *)
Definition net_dprobability (w : net) (mu : nat -> R) (slot : nat -> option nat) (U : nat -> option R)
    (P : nat -> R) (D : nat -> nat -> R) : nat -> nat -> option R :=
  fold_left (net_dprob_edge mu slot U P D) (rev (w_edges w)) (fun _ _ => Some 0).

(** nl.pyx 225-249 and 659: the gradient of the log likelihood of the case. *)
Definition net_dloglike (width : nat) (P ch : nat -> R) (wt : R) (Q : nat -> nat -> option R) (p : nat) : option R :=
  if Req_EM_T wt 0 then Some 0
  else fold_left (fun g a => if Req_EM_T (ch a) 0 then g
                  else if Rlt_dec 0 (P a) then
                    oadd g match Q a p with Some x => Some (x * (ch a / P a) * wt) | None => None end
                  else g) (seq 0 width) (Some 0).

(** nl.pyx 552-674: what the kernel computes for one case. *)
Record net_case := mkNetCase {
  v_util : nat -> option R; v_prob : nat -> R; v_ll : option R;
  v_dutil : nat -> nat -> R; v_dprob : nat -> nat -> option R; v_dll : nat -> option R }.
(** nl.pyx 552-674. *)
Definition net_run (w : net) (mu : nat -> R) (slot : nat -> option nat) (u : nat -> option R)
    (du : nat -> nat -> R) (width : nat) (ch : nat -> R) (wt : R) : net_case :=
  let U := net_utilities w mu u in
  let P := net_probabilities w mu U in
  let D := net_dutility w mu slot U du in
  let Q := net_dprobability w mu slot U P D in
  mkNetCase U P (net_loglike width P ch wt) D Q (net_dloglike width P ch wt Q).

(** tree.py 919-925: the logsum parameter of a node in slot form: the parameter's value, else the fixed
    value; the slot is kept for the derivative only. *)
Definition net_mu (slot : nat -> option nat) (fixed : nat -> R) (par : nat -> R) (k : nat) : R :=
  match slot k with Some s => par s | None => fixed k end.
