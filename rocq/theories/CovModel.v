(** Model of [calculate_parameter_covariance] (larch/model/abstract_model.pyx 1064-1200): the
    covariance matrix of the free parameters, the robust covariance, and the correction for
    binding constraints; and of [_get_bounds_constraints], [get_all_contraints],
    [get_all_binding_contraints] (larch/model/model.py 842-911).

    Matrices are functions of two indices below [n]; arithmetic is exact.  The matrix inverse
    (numpy, larch/linalg) is a parameter.  Warnings and the over-specification report are not modelled; the t
    statistics and the notes are in StatModel. *)
From Verif Require Import ParamModel ConsModel.
Open Scope R_scope.

(** numpy two dimensional array (abstract_model.pyx 1065-1111). *)
Definition matrix := nat -> nat -> R.
(** Sum over an index range, for numpy [@] and [dot] (abstract_model.pyx 1109, 1196-1198). *)
Fixpoint sumn (n : nat) (g : nat -> R) : R := match n with O => 0 | S n => sumn n g + g n end.
(** numpy [@] on n x n matrices, and on a matrix and a vector. *)
Definition mmul (n : nat) (a b : matrix) : matrix := fun i j => sumn n (fun k => a i k * b k j).
(** numpy [@] of a matrix and a vector (abstract_model.pyx 1196-1198). *)
Definition mvec (n : nat) (a : matrix) (v : nat -> R) : nat -> R := fun i => sumn n (fun k => a i k * v k).
(** numpy [@] of two vectors (abstract_model.pyx 1196). *)
Definition dot (n : nat) (u v : nat -> R) : R := sumn n (fun k => u k * v k).

(** abstract_model.pyx 1081-1090: the [take] mask, as the list of its true cells in row-major order.  A
    missing holdfast (NaN) is truthy. *)
Definition held (f : frame) (i : nat) : bool :=
  match nth_error (rows f) i with Some r => negb (is_free r) | None => true end.
(** All cells of a matrix in row-major order (abstract_model.pyx 1081, 1092). *)
Definition cells (n : nat) : list (nat * nat) := list_prod (seq 0 n) (seq 0 n).
(** abstract_model.pyx 1081-1090: the true cells of [take]. *)
Definition taken (hold : nat -> bool) (n : nat) : list (nat * nat) :=
  filter (fun c => negb (hold (fst c)) && negb (hold (snd c))) (cells n).
(** abstract_model.pyx 1082-1090: [dense_s]. *)
Definition dense_s (hold : nat -> bool) (n : nat) : nat :=
  length (filter (fun i => negb (hold i)) (seq 0 n)).
(** abstract_model.pyx 1092, 1102: [m[take].reshape(dense_s, dense_s)]. *)
Definition gather (hold : nat -> bool) (n : nat) (m : matrix) : matrix :=
  let flat := map (fun c => m (fst c) (snd c)) (taken hold n) in
  fun a b => nth (a * dense_s hold n + b) flat 0.
(** abstract_model.pyx 1098-1099, 1110-1111: a zero matrix with [out[take] = m.reshape(-1)]. *)
Definition flatten (d : nat) (m : matrix) : list R :=
  map (fun c => m (fst c) (snd c)) (cells d).
(** Assignment to one cell (abstract_model.pyx 1099, 1111). *)
Definition write (m : matrix) (cv : (nat * nat) * R) : matrix :=
  fun i j => if Nat.eqb i (fst (fst cv)) && Nat.eqb j (snd (fst cv)) then snd cv else m i j.
(** abstract_model.pyx 1098-1099, 1110-1111. *)
Definition scatter (hold : nat -> bool) (n : nat) (m : matrix) : matrix :=
  fold_left write (combine (taken hold n) (flatten (dense_s hold n) m)) (fun _ _ => 0).

Section Covariance.
Variable inverse : nat -> matrix -> matrix.  (* general_inverse of a d x d matrix *)

(** abstract_model.pyx 1091-1099, 1113. *)
Definition covariance (hold : nat -> bool) (n : nat) (hess : matrix) : matrix :=
  scatter hold n (inverse (dense_s hold n) (gather hold n hess)).
(** abstract_model.pyx 1100-1111, 1114. *)
Definition robust_covariance (hold : nat -> bool) (n : nat) (hess bhhh : matrix) : matrix :=
  let d := dense_s hold n in
  let inv := inverse d (gather hold n hess) in
  scatter hold n (mmul d (mmul d inv (gather hold n bhhh)) inv).
End Covariance.

(** abstract_model.pyx 1195-1198: one binding constraint with gradient [b]:
    [den = b@s@b]; if it is not zero, [s - (1/den) * s @ b[:,None] @ b[None,:] @ s]. *)
Definition constrain (n : nat) (s : matrix) (b : nat -> R) : matrix :=
  let den := dot n (fun j => sumn n (fun k => b k * s k j)) b in
  if Req_EM_T den 0 then s
  else
    let sb := mvec n (fun i k => (1 / den) * s i k) b in
    fun i j => s i j - sumn n (fun k => (sb i * b k) * s k j).

(** model.py 842-878: FixedBounds for the free parameters with a bound; the constructor links them
    with scale 10. *)
Definition bound_cons (tol : R) (r : row) : list cons :=
  if negb (is_free r) then []
  else if neqb (r_min r) NInf && neqb (r_max r) PInf then []
  else [new_cons tol (Fixed (r_name r) (Some (r_min r)) (Some (r_max r)))].
(** Constructors of FixedBound with a model (model.py 876, constraints.py 322-323). *)
Fixpoint link_each (f : frame) (sc : option R) (l : list cons) : option (list cons) :=
  match l with
  | [] => Some []
  | c :: l =>
    match link_model f sc c, link_each f sc l with Some c, Some l => Some (c :: l) | _, _ => None end
  end.
(** model.py 842-878 [_get_bounds_constraints]. *)
Definition bounds_constraints (f : frame) : option (list cons) :=
  link_each f (Some 10) (flat_map (bound_cons (1/10000)) (rows f)).
(** model.py 880-893, abstract_model.pyx 1174-1181: if making the bounds raises, they are left
    out. *)
Definition all_constraints (cl : list cons) (f : frame) : list cons :=
  cl ++ match bounds_constraints f with Some b => b | None => [] end.
(** model.py 896-911, abstract_model.pyx 1192-1194. *)
Definition binding (cs : list cons) (x : list R) : list cons := filter (fun c => is_binding c x) cs.
(** abstract_model.pyx 1191-1199. *)
Definition constrained_covariance (n : nat) (cs : list cons) (x : list R) (s : matrix) : matrix :=
  fold_left (fun s c => constrain n s (get (cjac c x))) (binding cs x) s.
(** abstract_model.pyx 1064-1199 put together: the [covariance_matrix] the model reports after
    [calculate_parameter_covariance], from minus the hessian [hess], at the values [x]. *)
Definition reported_covariance (inverse : nat -> matrix -> matrix)
    (f : frame) (cl : list cons) (x : list R) (hess : matrix) : matrix :=
  let n := length (rows f) in
  constrained_covariance n (all_constraints cl f) x (covariance inverse (held f) n hess).
