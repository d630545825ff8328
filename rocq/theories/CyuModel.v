(** Model of the utility functions of the compiled engine, larch/dataframes.pyx:
    [_link_to_model_structure] (the arrays of terms, 2107-2203), [link_to_model_parameters] (2213-2240),
    [_read_in_model_parameters] (2249-2281), [_compute_d_utility_onecase] (2356-2463),
    [_compute_utility_onecase] (2466-2553) and [get_zero_quantity_ca] (2599-2735).
    Exact reals, [None] = minus infinity.  The log of a total size of zero is minus infinity, as in C; after it the
    product with the scale parameter is modelled for a positive scale only, and the derivative of that alternative
    (0/0 in C) is not meaningful, nor is a negative total size (NaN in C): the theorems ask for positive sizes where
    it matters.  Not modelled: rounding, and reads outside the arrays. *)
From Verif Require Export UtilityModel.

(** ** Terms as the kernel sees them *)
(** One linked idca or quantity term: current value (of a quantity term: its exponential), scale, holdfast,
    parameter slot, data column (2123-2134, 2149-2156). *)
Record lterm := mkL { l_val : R; l_scale : R; l_hold : bool; l_par : nat; l_data : nat }.
(** One linked idco term: alternative, value, scale, holdfast, slot, data column ([None] = -1) (2168-2194). *)
Record lcoterm := mkLC { lc_alt : nat; lc_val : R; lc_scale : R; lc_hold : bool; lc_par : nat; lc_data : option nat }.
(** The linked state of a DataFrames object (2123-2203). *)
Record linked := mkLinked {
  k_q : list lterm; k_qs : option nat; k_qval : R; k_qhold : bool; k_ca : list lterm; k_co : list lcoterm }.

(** 2125-2156: value arrays start at zero, holdfast arrays at zero. *)
Definition fresh_term (t : term) : lterm := mkL 0 (t_scale t) false (t_par t) (t_data t).
(** 2169-2194: the same for idco terms. *)
Definition fresh_co (t : coterm) : lcoterm := mkLC (c_alt t) 0 (c_scale t) false (c_par t) (c_data t).
(** [_link_to_model_structure], 2107-2203: [v0], [h0] are whatever the scale fields held before. *)
Definition link_structure (q : list term) (qs : option nat) (ca : list term) (co : list coterm) (v0 : R) (h0 : bool) : linked :=
  mkLinked (map fresh_term q) qs v0 h0 (map fresh_term ca) (map fresh_co co).

Section Read.
Variable par : nat -> R.
Variable hold : nat -> bool.
(** 2226-2231, 2261-2266: a quantity term takes the exponential of its parameter. *)
Definition read_q (t : lterm) : lterm := mkL (exp (par (l_par t))) (l_scale t) (hold (l_par t)) (l_par t) (l_data t).
(** 2233-2235, 2275-2277. *)
Definition read_ca (t : lterm) : lterm := mkL (par (l_par t)) (l_scale t) (hold (l_par t)) (l_par t) (l_data t).
(** 2237-2239, 2279-2281. *)
Definition read_co (t : lcoterm) : lcoterm :=
  mkLC (lc_alt t) (par (lc_par t)) (lc_scale t) (hold (lc_par t)) (lc_par t) (lc_data t).
(** [_read_in_model_parameters], 2249-2281. *)
Definition read_in (k : linked) : linked :=
  mkLinked (map read_q (k_q k)) (k_qs k)
    (match k_qs k with Some s => par s | None => 1 end)
    (match k_qs k with Some s => hold s | None => true end)
    (map read_ca (k_ca k)) (map read_co (k_co k)).
(** [link_to_model_parameters], 2213-2240: no line for the scale of the quantity. *)
Definition link_to_model_parameters (k : linked) : linked :=
  mkLinked (map read_q (k_q k)) (k_qs k) (k_qval k) (k_qhold k) (map read_ca (k_ca k)) (map read_co (k_co k)).
End Read.

(** ** Data *)
(** The [row] variable: -2 (idca data are used), -1 (no row), or a row of the idce array (2386, 2398-2402). *)
Inductive altrow := UseCa | NoRow | Row (i : nat).
(** The arrays (2398-2411, 2443-2452): [rm] is the shape and content of the reverse map, absent without idce data. *)
Record arrays := mkArrays {
  a_rm : option (nat * nat * (nat -> nat -> option nat));
  a_ce : nat -> nat -> R; a_ca : nat -> nat -> nat -> R; a_co : nat -> nat -> R; a_av : nat -> nat -> bool }.
(** 2398-2402, 2501-2505, 2631-2635, 2677-2681. *)
Definition row_for (A : arrays) (c j : nat) : altrow :=
  match a_rm A with
  | None => UseCa
  | Some (ncase, nalt, m) =>
    if ((ncase <=? c) || (nalt <=? j))%nat then NoRow
    else match m c j with Some i => Row i | None => NoRow end
  end.
(** 2408-2411, 2432-2435. *)
Definition fetch (A : arrays) (c j : nat) (r : altrow) (d : nat) : R :=
  match r with Row i => a_ce A i d | _ => a_ca A c j d end.
(** 2404: [self._array_av[c,j] and row!=-1]. *)
Definition usable (A : arrays) (c j : nat) : bool :=
  (a_av A c j && match row_for A c j with NoRow => false | _ => true end)%bool.

(** ** One case, with derivatives *)
(** Utilities, derivatives, quantities (2360-2363). *)
Definition dstate := ((nat -> option R) * (nat -> nat -> R) * (nat -> R))%type.
(** C [log]: minus infinity at zero (2422-2425, 2519-2522). *)
Definition clog (x : option R) : option R :=
  match x with Some v => if Rlt_dec 0 v then Some (ln v) else None | None => None end.
(** 2426, 2523: times the scale parameter (a positive one, if the log is minus infinity). *)
Definition cscale (x : option R) (s : R) : option R := match x with Some v => Some (v * s) | None => None end.

Section Case.
Variable A : arrays.
Variable k : linked.
Variable c : nat.

(** 2407-2415: one quantity term. *)
Definition dq_step (j : nat) (s : ustate) (t : lterm) : ustate :=
  let (U, D) := s in
  let temp := fetch A c j (row_for A c j) (l_data t) * (l_val t * l_scale t) in
  (addU U j temp, if l_hold t then D else addD D j (l_par t) (temp * k_qval k)).
(** 2417-2419: division by the total size. *)
Definition dq_divide (j : nat) (U : nat -> option R) (D : nat -> nat -> R) (t : lterm) : nat -> nat -> R :=
  if l_hold t then D else upd D j (upd (D j) (l_par t) (D j (l_par t) / val (U j))).
(** 2431-2439: one idca term. *)
Definition dca_step (j : nat) (s : ustate) (t : lterm) : ustate :=
  let (U, D) := s in
  let temp := fetch A c j (row_for A c j) (l_data t) * l_scale t in
  (addU U j (temp * l_val t), if l_hold t then D else addD D j (l_par t) temp).
(** 2406-2429: the quantity part of alternative [j]. *)
Definition dq_alt (j : nat) (s : dstate) : dstate :=
  let '(U, D, Q) := s in
  match k_q k with
  | [] => s
  | _ =>
    let (U1, D1) := fold_left (dq_step j) (k_q k) (U, D) in
    let D2 := fold_left (dq_divide j U1) (k_q k) D1 in
    let Q1 := upd Q j (val (U1 j)) in
    let temp := clog (U1 j) in
    (upd U1 j (cscale temp (k_qval k)),
     match k_qs k with
     | Some p => if k_qhold k then D2 else addD D2 j p (val temp)
     | None => D2
     end, Q1)
  end.
(** 2396-2441: one alternative. *)
Definition d_alt (s : dstate) (j : nat) : dstate :=
  if usable A c j then
    let '(U, D, Q) := dq_alt j s in
    let (U', D') := fold_left (dca_step j) (k_ca k) (U, D) in (U', D', Q)
  else let '(U, D, Q) := s in (upd U j None, D, Q).
(** 2443-2455: one idco term; only the availability array is looked at. *)
Definition dco_step (s : ustate) (t : lcoterm) : ustate :=
  let (U, D) := s in
  if a_av A c (lc_alt t) then
    match lc_data t with
    | None => (addU U (lc_alt t) (lc_val t * lc_scale t),
               if lc_hold t then D else addD D (lc_alt t) (lc_par t) (lc_scale t))
    | Some d =>
      let temp := a_co A c d * lc_scale t in
      (addU U (lc_alt t) (temp * lc_val t), if lc_hold t then D else addD D (lc_alt t) (lc_par t) temp)
    end
  else s.
(** 2457-2460, 2547-2550: the largest utility, at least zero. *)
Definition max_U (n : nat) (U : nat -> option R) : R :=
  fold_left (fun m j => match U j with Some v => if Rlt_dec m v then v else m | None => m end) (seq 0 n) 0.
(** 2457-2463, 2547-2553: keep exp(U) from overflowing. *)
Definition guard (n : nat) (U : nat -> option R) : nat -> option R :=
  let m := max_U n U in
  if Rlt_dec 500 m then fold_left (fun U j => addU U j (- m)) (seq 0 n) U else U.
(** 2391-2463 [_compute_d_utility_onecase]; [n] alternatives. *)
Definition d_utility_onecase (n : nat) : dstate :=
  let '(U, D, Q) := fold_left d_alt (seq 0 n) (fun _ => Some 0, fun _ _ => 0, fun _ => 0) in
  let (U', D') := fold_left dco_step (k_co k) (U, D) in
  (guard n U', D', Q).

(** ** One case, utilities only *)
(** 2510-2516. *)
Definition q_step1 (j : nat) (U : nat -> option R) (t : lterm) : nat -> option R :=
  addU U j (fetch A c j (row_for A c j) (l_data t) * (l_val t * l_scale t)).
(** 2526-2532. *)
Definition ca_step1 (j : nat) (U : nat -> option R) (t : lterm) : nat -> option R :=
  addU U j (fetch A c j (row_for A c j) (l_data t) * l_scale t * l_val t).
(** 2499-2534: one alternative. *)
Definition u_alt (s : (nat -> option R) * (nat -> R)) (j : nat) : (nat -> option R) * (nat -> R) :=
  let (U, Q) := s in
  if usable A c j then
    let '(U1, Q1) :=
      match k_q k with
      | [] => (U, Q)
      | _ => let U0 := fold_left (q_step1 j) (k_q k) U in
             (upd U0 j (cscale (clog (U0 j)) (k_qval k)), upd Q j (val (U0 j)))
      end in
    (fold_left (ca_step1 j) (k_ca k) U1, Q1)
  else (upd U j None, Q).
(** 2536-2543. *)
Definition co_step1 (U : nat -> option R) (t : lcoterm) : nat -> option R :=
  if a_av A c (lc_alt t) then
    match lc_data t with
    | None => addU U (lc_alt t) (lc_val t * lc_scale t)
    | Some d => addU U (lc_alt t) (a_co A c d * lc_scale t * lc_val t)
    end
  else U.
(** 2494-2553 [_compute_utility_onecase]. *)
Definition utility_onecase (n : nat) : (nat -> option R) * (nat -> R) :=
  let (U, Q) := fold_left u_alt (seq 0 n) (fun _ => Some 0, fun _ => 0) in
  (guard n (fold_left co_step1 (k_co k) U), Q).

(** ** Zero quantities *)
(** 2637-2646, 2683-2692: some quantity term has non-zero data. *)
Definition some_quantity (j : nat) : bool :=
  existsb (fun t => if Req_EM_T (fetch A c j (row_for A c j) (l_data t)) 0 then false else true) (k_q k).
(** 2627-2649 [_is_zero_quantity_onecase], for one non-zero entry [j] of the availability copy. *)
Definition zero_quantity (j : nat) : bool :=
  if usable A c j then negb (some_quantity j) else false.
(** 2699-2735 [get_zero_quantity_ca]: the cell of case [c] and alternative [j] (the copy of data_av, where zero
    cells stay zero); [None] is the ValueError without quantity terms. *)
Definition get_zero_quantity_ca (j : nat) : option bool :=
  match k_q k with
  | [] => None
  | _ => Some (if a_av A c j then zero_quantity j else false)
  end.
End Case.

(** A case from data and parameters: link, read the parameters, compute (controller.pyx 847, 2356-2463). *)
Definition cy_case (A : arrays) (par : nat -> R) (hold : nat -> bool) (q : list term) (qs : option nat) (ca : list term)
    (co : list coterm) (c n : nat) : dstate :=
  d_utility_onecase A (read_in par hold (link_structure q qs ca co 0 false)) c n.
