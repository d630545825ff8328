(** Model of the numba likelihood kernel, larch/numba/model.py 263-499
    ([_numba_utility_to_loglike]) and of larch/numba/cascading.py 1-123.

    Numbers are exact reals.  A utility or log probability is [option R], [None] being
    minus infinity.  (float32/float64 rounding, overflow and the numba [fastmath] flag are
    not modelled.)  Arrays are functions from index to value; loops are [fold_left].
    Not modelled: cross-nesting allocation ([allocslot], unused by the code) and the
    [else] branch of [if True] at line 301, which is dead code. *)
From Coq Require Export List Arith Lia Bool Reals Lra.
Export ListNotations.
Open Scope R_scope.

(** helper: array assignment [f[k] = v], as in model.py 340. *)
Definition upd {A} (f : nat -> A) (k : nat) (v : A) : nat -> A :=
  fun i => if (i =? k)%nat then v else f i.

(** The integer arrays describing the tree (model.py 1124-1145: node slot arrays are cut
    to the nests, so they are indexed by [node - n_alts]).  [mu_slots] = -1 is [None]. *)
Record slots := mkSlots {
  n_alts : nat;
  n_nodes : nat;                  (* utility.size; the root is the last node *)
  edges : list (nat * nat);       (* (upslot, dnslot) *)
  start_slots : nat -> nat;
  len_slots : nat -> nat;
  mu_slots : nat -> option nat
}.

(** model.py 307-310 and 379-382: the logsum parameter of a nest, 1 if it has none. *)
Definition mu_of (st : slots) (par : nat -> R) (up : nat) : R :=
  match mu_slots st (up - n_alts st) with None => 1 | Some s => par s end.

(** model.py 312-314: the children of nest [up]:
    [dnslots[start_slots[up_nest] + n]] for [n in range(len_slots[up_nest])]. *)
Definition children (st : slots) (up : nat) : list nat :=
  map (fun i => snd (nth (start_slots st (up - n_alts st) + i) (edges st) (0%nat, 0%nat)))
      (seq 0 (len_slots st (up - n_alts st))).

(** model.py 312-319: find the largest scaled utility and where it is. *)
Definition shifter_step (mu : R) (U : nat -> option R) (acc : option R * option nat) (dn : nat)
  : option R * option nat :=
  match U dn with
  | None => acc
  | Some u =>
      let z := u / mu in
      match fst acc with
      | None => (Some z, Some dn)
      | Some s => if Rlt_dec s z then (Some z, Some dn) else acc
      end
  end.

(** model.py 326-333: accumulate the shifted exponentials. *)
Definition exp_step (mu sh : R) (pos : option nat) (U : nat -> option R) (acc : R) (dn : nat) : R :=
  match U dn with
  | None => acc
  | Some u =>
      if (match pos with Some p => (p =? dn)%nat | None => false end) then acc + 1
      else acc + exp (u / mu - sh)
  end.

(** model.py 341-346 (mu is zero): keep the larger utility. *)
Definition max_step (U : nat -> option R) (acc : option R) (dn : nat) : option R :=
  match U dn, acc with
  | None, _ => acc
  | Some u, None => Some u
  | Some u, Some a => if Rlt_dec a u then Some u else acc
  end.

(** model.py 302-346: one nest.  [utility[up]] starts from its current value (0).  When no
    child is available the code computes (log 0 + -inf)*mu, that is minus infinity for
    mu > 0 (plus infinity for mu < 0: the theorems exclude that case). *)
Definition nest_step (st : slots) (par : nat -> R) (U : nat -> option R) (up : nat) : nat -> option R :=
  let mu := mu_of st par up in
  let cs := children st up in
  if Req_EM_T mu 0 then upd U up (fold_left (max_step U) cs (U up))
  else
    let '(sh, pos) := fold_left (shifter_step mu U) cs (None, None) in
    upd U up
      match sh with
      | None => None
      | Some s =>
          let base := match U up with Some x => x | None => 0 end in
          Some ((ln (fold_left (exp_step mu s pos U) cs base) + s) * mu)
      end.

(** model.py 577 [utility[:] = 0.0] and 302: all nests in slot order. *)
Definition init_utility (st : slots) (u : nat -> option R) : nat -> option R :=
  fun k => if (k <? n_alts st)%nat then u k else Some 0.
(** model.py 302-346: the nests in slot order, from the zeroed array. *)
Definition node_utilities (st : slots) (par : nat -> R) (u : nat -> option R) : nat -> option R :=
  fold_left (nest_step st par) (seq (n_alts st) (n_nodes st - n_alts st)) (init_utility st u).

(** model.py 383-386: log of the conditional probability of [dn] given [up]. *)
Definition edge_logprob (mu : R) (uup udn : option R) : option R :=
  match uup, udn with
  | Some a, Some b => Some ((b - a) / mu)
  | _, _ => None
  end.

(** model.py 376-388: logprob and loglike, edge by edge.  A sum that meets an infinite term
    is [None] (minus infinity, or NaN, in the code). *)
Definition oadd (a b : option R) : option R :=
  match a, b with Some x, Some y => Some (x + y) | _, _ => None end.
(** model.py 376-388: one edge. *)
Definition logprob_step (st : slots) (par : nat -> R) (U : nat -> option R)
    (ch : nat -> R) (wt : R) (acc : (nat -> option R) * option R) (e : nat * nat)
  : (nat -> option R) * option R :=
  let (lp, ll) := acc in
  let (up, dn) := e in
  let v := edge_logprob (mu_of st par up) (U up) (U dn) in
  (upd lp dn v,
   if Req_EM_T (ch dn) 0 then ll
   else oadd ll (match v with Some x => Some (x * ch dn * wt) | None => None end)).
(** model.py 376-388: all edges, in slot order. *)
Definition logprob_loop st par U ch wt (lp0 : nat -> option R) : (nat -> option R) * option R :=
  fold_left (logprob_step st par U ch wt) (edges st) (lp0, Some 0).

(** model.py 393-396: exponentiate for available nodes (unavailable entries keep minus
    infinity in the code; they are never read for available paths and are 0 here). *)
Definition cond_prob (av : nat -> bool) (lp : nat -> option R) : nat -> R :=
  fun i => if av i then (match lp i with Some x => exp x | None => 0 end) else 0.

(** model.py 399-406: total probability from the root down. *)
Definition prob_step (av : nat -> bool) (cp : nat -> R) (P : nat -> R) (e : nat * nat) : nat -> R :=
  let (up, dn) := e in
  if av dn then upd P dn (P up * cp dn) else upd P dn 0.
(** model.py 399-406: the root has probability 1, then the edges backwards. *)
Definition probabilities (st : slots) (av : nat -> bool) (cp : nat -> R) (P0 : nat -> R) : nat -> R :=
  fold_left (prob_step av cp) (rev (edges st)) (upd P0 (n_nodes st - 1) 1).

(** helper: the number in an entry (model.py 421-426 use it only for available nodes). *)
Definition val (x : option R) : R := match x with Some v => v | None => 0 end.

(** model.py 413-427: derivatives of utilities, rolled up the tree. *)
Definition addmu (st : slots) (par : nat -> R) (U : nat -> option R)
    (D : nat -> nat -> R) (dn : nat) : nat -> nat -> R :=
  if (n_alts st <=? dn)%nat then
    match mu_slots st (dn - n_alts st) with
    | Some s => upd D dn (upd (D dn) s ((D dn s + val (U dn)) / par s))
    | None => D
    end
  else D.
(** model.py 413-427: one edge. *)
Definition dutil_step (st : slots) (par : nat -> R) (av : nat -> bool) (U : nat -> option R)
    (cp : nat -> R) (D : nat -> nat -> R) (e : nat * nat) : nat -> nat -> R :=
  let (up, dn) := e in
  if av dn then
    let D1 := addmu st par U D dn in
    let D2 := match mu_slots st (up - n_alts st) with
              | Some s => upd D1 up (upd (D1 up) s (D1 up s - cp dn * val (U dn)))
              | None => D1
              end in
    upd D2 up (fun p => D2 up p + cp dn * D2 dn p)
  else D.
(** model.py 413-427: all edges, in slot order. *)
Definition dutility_loop st par av U cp (D0 : nat -> nat -> R) : nat -> nat -> R :=
  fold_left (dutil_step st par av U cp) (edges st) D0.

(** model.py 455-475: derivatives of probabilities, from the root down, only along chosen
    nodes. *)
Definition dprob_step (st : slots) (par : nat -> R) (ch : nat -> R) (U : nat -> option R)
    (cp P : nat -> R) (D : nat -> nat -> R) (DP : nat -> nat -> R) (e : nat * nat) : nat -> nat -> R :=
  let (up, dn) := e in
  if Req_EM_T (ch dn) 0 then DP
  else
    let mu := mu_of st par up in
    upd DP dn (fun p =>
      let s1 :=
        if Req_EM_T mu 0 then 0
        else (D dn p - D up p +
              (match mu_slots st (up - n_alts st) with
               | Some s => if (p =? s)%nat then (val (U up) - val (U dn)) / mu else 0
               | None => 0 end)) * (P up / mu) in
      DP dn p + (s1 + DP up p) * cp dn).
(** model.py 455-475: all edges, backwards. *)
Definition dprob_loop st par ch U cp P D : nat -> nat -> R :=
  fold_left (dprob_step st par ch U cp P D) (rev (edges st)) (fun _ _ => 0).

(** model.py 481-499: gradient and bhhh over the elemental alternatives; a probability
    under 1e-250 is replaced by 1e-250. *)
Definition clamp (p : R) : R := if Rlt_dec p (/ 10 ^ 250) then / 10 ^ 250 else p.
(** model.py 481-499: one elemental alternative. *)
Definition dll_step (ch P : nat -> R) (wt : R) (DP : nat -> nat -> R)
    (acc : (nat -> R) * (nat -> nat -> R)) (a : nat) : (nat -> R) * (nat -> nat -> R) :=
  let (dll, bh) := acc in
  if Req_EM_T (ch a) 0 then acc
  else if Rlt_dec 0 (P a) then
    let temp := fun p => DP a p * (ch a / clamp (P a)) in
    let dtemp := fun p => temp p / ch a in
    (fun p => dll p + temp p * wt, fun p q => bh p q + dtemp p * dtemp q * ch a * wt)
  else acc.
(** model.py 410, 477-499: all elemental alternatives. *)
Definition dll_loop st ch P wt DP : (nat -> R) * (nat -> nat -> R) :=
  fold_left (dll_step ch P wt DP) (seq 0 (n_alts st)) (fun _ => 0, fun _ _ => 0).

(** cascading.py 5-9. *)
Definition cascade_or (es : list (nat * nat)) (a : nat -> bool) : nat -> bool :=
  fold_left (fun a e => upd a (fst e) (a (fst e) || a (snd e))) es a.
(** cascading.py 11-15. *)
Definition cascade_sum (es : list (nat * nat)) (a : nat -> R) : nat -> R :=
  fold_left (fun a e => upd a (fst e) (a (fst e) + a (snd e))) es a.
(** cascading.py 87-93, 114-123: nest columns start at zero. *)
Definition array_av_cascade (st : slots) (av : nat -> bool) : nat -> bool :=
  cascade_or (edges st) (fun k => if (k <? n_alts st)%nat then av k else false).
(** cascading.py 114-123. *)
Definition array_ch_cascade (st : slots) (ch : nat -> R) : nat -> R :=
  cascade_sum (edges st) (fun k => if (k <? n_alts st)%nat then ch k else 0).

(** The whole computation for one case (model.py 263-499, 577-653, and 1095-1145 where the cascaded
    arrays are prepared): elemental utilities [u], their derivatives [du], elemental
    availability [av] and choice [ch], weight [wt].  [lp0], [P0] are the unspecified initial
    contents of the output arrays. *)
Record result := mkResult {
  r_utility : nat -> option R;
  r_logprob : nat -> option R;
  r_loglike : option R;
  r_prob : nat -> R;
  r_dloglike : nat -> R;
  r_bhhh : nat -> nat -> R
}.
(** model.py 577-578 and 634-653: the kernel called for one case. *)
Definition run_case (st : slots) (par : nat -> R) (u : nat -> option R) (du : nat -> nat -> R)
    (av : nat -> bool) (ch : nat -> R) (wt : R) (lp0 : nat -> option R) (P0 : nat -> R) : result :=
  let avx := array_av_cascade st av in
  let chx := array_ch_cascade st ch in
  let U := node_utilities st par u in
  let (lp, ll) := logprob_loop st par U chx wt lp0 in
  let cp := cond_prob avx lp in
  let P := probabilities st avx cp P0 in
  let D := dutility_loop st par avx U cp (fun k p => if (k <? n_alts st)%nat then du k p else 0) in
  let DP := dprob_loop st par chx U cp P D in
  let (dll, bh) := dll_loop st chx P wt DP in
  mkResult U lp ll P dll bh.
