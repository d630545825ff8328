(** Model of the utility functions of larch/numba/model.py 54-231 and of the case driver
    [_numba_master] 516-653.  Exact reals, [None] = minus infinity, as in LogitModel.
    Not modelled: the [only_utility] early exits (they return a prefix of the same
    computation), rounding, and writes outside the arrays. *)
From Verif Require Export LogitModel.

(** One idca (or quantity) term: scale, parameter slot, data column (model.py 86-88,
    178-180). *)
Record term := mkTerm { t_scale : R; t_par : nat; t_data : nat }.
(** One idco term: alternative slot, scale, parameter slot, data column ([None] = -1, a
    constant) (model.py 56-59). *)
Record coterm := mkCo { c_alt : nat; c_scale : R; c_par : nat; c_data : option nat }.

(** Utilities and their derivatives, the two output arrays (model.py 64-65). *)
Definition ustate := ((nat -> option R) * (nat -> nat -> R))%type.
(** [utility_elem[j] += x], model.py 73, 204. *)
Definition addU (U : nat -> option R) (j : nat) (x : R) : nat -> option R :=
  upd U j (match U j with Some v => Some (v + x) | None => None end).
(** [dutility_elem[j, p] += x], model.py 75, 206. *)
Definition addD (D : nat -> nat -> R) (j p : nat) (x : R) : nat -> nat -> R :=
  upd D j (upd (D j) p (D j p + x)).

Section Kernel.
Variable par : nat -> R.
Variable hold : nat -> bool.

(** model.py 55-80 [utility_from_data_co]. *)
Definition co_step (av : nat -> bool) (co : nat -> R) (s : ustate) (t : coterm) : ustate :=
  let (U, D) := s in
  if av (c_alt t) then
    let x := match c_data t with None => c_scale t | Some d => co d * c_scale t end in
    (addU U (c_alt t) (x * par (c_par t)),
     if hold (c_par t) then D else addD D (c_alt t) (c_par t) x)
  else s.
(** model.py 67-80: all idco terms. *)
Definition utility_from_data_co (terms : list coterm) (av : nat -> bool) (co : nat -> R) (s : ustate) : ustate :=
  fold_left (co_step av co) terms s.

(** model.py 201-206, 220-228: the idca terms of alternative [j] with data row [x]. *)
Definition ca_step (j : nat) (x : nat -> R) (s : ustate) (t : term) : ustate :=
  let (U, D) := s in
  let v := x (t_data t) * t_scale t in
  (addU U j (v * par (t_par t)), if hold (t_par t) then D else addD D j (t_par t) v).
(** model.py 201-206, 220-228: all idca terms of one alternative. *)
Definition ca_alt (terms : list term) (j : nat) (x : nat -> R) (s : ustate) : ustate :=
  fold_left (ca_step j x) terms s.

(** model.py 102-107, 116-134, 147-170: the quantity of alternative [j] with data row [x].
    [q_scale] = -1 is [None]. *)
Definition q_scale_value (q_scale : option nat) : R :=
  match q_scale with Some s => par s | None => 1 end.
(** model.py 117-125, 150-161: one quantity term. *)
Definition q_step (qs : option nat) (j : nat) (x : nat -> R) (s : ustate) (t : term) : ustate :=
  let (U, D) := s in
  let v := x (t_data t) * t_scale t * exp (par (t_par t)) in
  (addU U j v, if hold (t_par t) then D else addD D j (t_par t) (v * q_scale_value qs)).
(** model.py 127-129, 163-165: divide by the total size. *)
Definition q_divide (j : nat) (U : nat -> option R) (D : nat -> nat -> R) (t : term) : nat -> nat -> R :=
  if hold (t_par t) then D
  else upd D j (upd (D j) (t_par t) (D j (t_par t) / val (U j))).
(** model.py 116-134, 149-170: the whole quantity of one alternative. *)
Definition q_alt (terms : list term) (qs : option nat) (j : nat) (x : nat -> R) (s : ustate) : ustate :=
  match terms with
  | [] => s
  | _ =>
    let (U1, D1) := fold_left (q_step qs j x) terms s in
    let D2 := fold_left (q_divide j U1) terms D1 in
    let size := ln (val (U1 j)) in
    (upd U1 j (Some (size * q_scale_value qs)),
     match qs with
     | Some p => if hold p then D2 else addD D2 j p size
     | None => D2
     end)
  end.

(** model.py 141-173, 214-230: dense data, alternatives in turn; unavailable ones get minus
    infinity. *)
Definition dense (na : nat) (av : nat -> bool) (f : nat -> ustate -> ustate) (s : ustate) : ustate :=
  fold_left (fun s j => if av j then f j s else (upd (fst s) j None, snd s)) (seq 0 na) s.

(** model.py 109-140, 193-211: sparse rows (alternative index, data).  The position [j] is
    advanced to the row's index, writing [skip] on the way, and the row is applied to
    position [j] (the row's index itself is used only in the comparison). *)
Definition skip_to (skip : option R) (j upto : nat) (U : nat -> option R) : nat -> option R :=
  fold_left (fun U i => upd U i skip) (seq j (upto - j)) U.
(** model.py 111-136, 195-207: one row. *)
Definition sparse_step (skip : option R) (f : nat -> (nat -> R) -> ustate -> ustate)
    (acc : nat * ustate) (row : nat * (nat -> R)) : nat * ustate :=
  let '(j, (U, D)) := acc in
  let j' := Nat.max j (fst row) in
  (S j', f j' (snd row) (skip_to skip j (fst row) U, D)).
(** model.py 110-140, 194-211: all rows, then the trailing alternatives. *)
Definition sparse (na : nat) (skip : option R) (f : nat -> (nat -> R) -> ustate -> ustate)
    (rows : list (nat * (nat -> R))) (s : ustate) : ustate :=
  let '(j, (U, D)) := fold_left (sparse_step skip f) rows (0%nat, s) in
  (skip_to skip j na U, D).

(** The data of one case: dense array [ca], or sparse rows [ce] (used when the sparse array
    is not empty, model.py 109, 193). *)
Inductive idca := Dense (ca : nat -> nat -> R) | Sparse (rows : list (nat * (nat -> R))).

(** model.py 85-173. *)
Definition quantity_from_data_ca (na : nat) (terms : list term) (qs : option nat)
    (av : nat -> bool) (data : idca) (s : ustate) : ustate :=
  match data with
  | Dense ca => dense na av (fun j => q_alt terms qs j (ca j)) s
  | Sparse rows => sparse na (Some 0) (fun j x => q_alt terms qs j x) rows s
  end.
(** model.py 177-230. *)
Definition utility_from_data_ca (na : nat) (terms : list term)
    (av : nat -> bool) (data : idca) (s : ustate) : ustate :=
  match data with
  | Dense ca => dense na av (fun j => ca_alt terms j (ca j)) s
  | Sparse rows => sparse na None (fun j x => ca_alt terms j x) rows s
  end.

(** model.py 577-630: zero, quantity, idca, idco. *)
Definition utilities (na : nat) (q : list term) (qs : option nat) (ca : list term) (co : list coterm)
    (av : nat -> bool) (data : idca) (co_data : nat -> R) : ustate :=
  utility_from_data_co co av co_data
    (utility_from_data_ca na ca av data
      (quantity_from_data_ca na q qs av data (fun _ => Some 0, fun _ _ => 0))).
End Kernel.

(** model.py 515-655 [_numba_master]: one case, from data to likelihood.  The slots' number
    of alternatives is the number of rows of the idca array. *)
Definition master (st : slots) (par : nat -> R) (hold : nat -> bool)
    (q : list term) (qs : option nat) (ca : list term) (co : list coterm)
    (av : nat -> bool) (data : idca) (co_data : nat -> R)
    (ch : nat -> R) (wt : R) (lp0 : nat -> option R) (P0 : nat -> R) : result :=
  let s := utilities par hold (n_alts st) q qs ca co av data co_data in
  run_case st par (fst s) (snd s) av ch wt lp0 P0.
