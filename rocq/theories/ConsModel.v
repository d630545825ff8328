(** Model of larch/model/constraints.py (parametric constraints and the constraint list), the
    soft penalties of larch/numba/model.py 669-733 and larch/model/model.py 802-910.

    Parameter values are exact reals; infinite or missing bounds are modelled.  A numba or
    numpy detail such as float32 rounding is not.  Constraint strings
    (interpret_contraint, lines 531-585, and OrderingBound's one-string form) are in CstrModel.v. *)
From Verif Require Import ParamModel.
Open Scope R_scope.

(** What a constraint says: constructor arguments of RatioBound (constraints.py 41-56),
    OrderingBound (207-230), FixedBound (316-323). *)
Inductive cspec :=
| Ratio (p_num p_den : string) (min_ratio max_ratio : option R)
| Order (p_less p_more : string)
| Fixed (p : string) (minimum maximum : option num).

(** A constraint object: what it says, its binding tolerance and scale, and what [link_model]
    last stored: the positions of its two parameters in the frame (FixedBound has one), the
    number of parameters and the four coefficients of a RatioBound. *)
(** Attributes of the constraint objects (constraints.py 41-56, 207-230, 316-323). *)
Record cons := mkCons {
  c_spec : cspec; c_tol : R; c_scale : R; c_i : nat; c_j : nat; c_len : nat;
  c_minn : R; c_mind : R; c_maxn : R; c_maxd : R }.

(** Constructors without a model: a RatioBound keeps the default scale 10 (lines 55-56 call
    link_model(None, scale)); the others ignore it and have scale 1 (lines 225-230, 321-323). *)
Definition new_cons (tol : R) (s : cspec) : cons :=
  mkCons s tol (match s with Ratio _ _ _ _ => 10 | _ => 1 end) 0 0 0 0 0 0 0.

(** pandas [Index.get_loc] on a unique index; [None]: KeyError. *)
Fixpoint get_loc (n : string) (l : list string) : option nat :=
  match l with
  | [] => None
  | x :: t => if String.eqb n x then Some O else option_map S (get_loc n t)
  end.
(** [model._frame.loc[p_den, 'minimum']] and ['maximum'] (constraints.py 70, 74, 85, 89). *)
Definition bound_of (sel : row -> num) (n : string) (f : frame) : num :=
  match find (fun r => String.eqb (r_name r) n) (rows f) with Some r => sel r | None => NaN end.

(** constraints.py 68-97: coefficients for one ratio; [None]: the exceptions (ZeroDivisionError
    of 1/0 or the unbounded denominator).  [sgn] is 1 for the minimum and -1 for the maximum. *)
Definition ratio_coef (sgn : R) (r : option R) (scale : R) (den : string) (f : frame) : option (R * R) :=
  match r with
  | None => Some (0, 0)
  | Some r =>
    if Req_EM_T r 0 then None
    else
      let scaling := Rmax r (1 / r) * scale in
      if nle (Fin 0) (bound_of r_min den f) then Some (sgn * scaling, - sgn * (r * scaling))
      else if nle (bound_of r_max den f) (Fin 0) then Some (- sgn * scaling, sgn * (r * scaling))
      else None
  end.

(** [link_model] of the three classes (constraints.py 61-97, 235-240, 328-332). [None]: an
    exception (what it may already have stored is not modelled). *)
Definition link_model (f : frame) (scale : option R) (c : cons) : option cons :=
  let k := match scale with Some k => k | None => c_scale c end in
  let n := length (rows f) in
  match c_spec c with
  | Ratio a b mn mx =>
    match get_loc a (names (rows f)), get_loc b (names (rows f)) with
    | Some i, Some j =>
      match ratio_coef 1 mn k b f, ratio_coef (-1) mx k b f with
      | Some (u, v), Some (w, z) => Some (mkCons (c_spec c) (c_tol c) k i j n u v w z)
      | _, _ => None
      end
    | _, _ => None
    end
  | Order a b =>
    match get_loc a (names (rows f)), get_loc b (names (rows f)) with
    | Some i, Some j => Some (mkCons (c_spec c) (c_tol c) k i j n 0 0 0 0)
    | _, _ => None
    end
  | Fixed a _ _ =>
    match get_loc a (names (rows f)) with
    | Some i => Some (mkCons (c_spec c) (c_tol c) k i 0 n 0 0 0 0)
    | None => None
    end
  end.

(** [x[i]] (constraints.py 100, 243, 336). *)
Definition get (x : list R) (i : nat) : R := nth i x 0.

(** IEEE multiplication of a possibly infinite bound difference by the scale
    ([inf * 0] is NaN). *)
Definition nscale (a : num) (k : R) : num :=
  match a with
  | NaN => NaN
  | Fin x => Fin (x * k)
  | PInf => if Req_EM_T k 0 then NaN else if Rlt_dec 0 k then PInf else NInf
  | NInf => if Req_EM_T k 0 then NaN else if Rlt_dec 0 k then NInf else PInf
  end.
(** Python's [min(a, b)]: [a] unless [b < a]. *)
(** Python's min of two numbers (constraints.py 106, 347). *)
Definition pymin (a b : num) : num := if nlt b a then b else a.

(** [_min_fun], [_max_fun] of RatioBound (constraints.py 99-103) and FixedBound (334-344). *)
Definition min_fun (c : cons) (x : list R) : num :=
  match c_spec c with
  | Ratio _ _ _ _ => Fin (get x (c_i c) * c_minn c + get x (c_j c) * c_mind c)
  | Fixed _ (Some m) _ => nscale (nsub (Fin (get x (c_i c))) m) (c_scale c)
  | _ => PInf
  end.
(** [_max_fun] of RatioBound (constraints.py 102-103) and FixedBound (340-344). *)
Definition max_fun (c : cons) (x : list R) : num :=
  match c_spec c with
  | Ratio _ _ _ _ => Fin (get x (c_i c) * c_maxn c + get x (c_j c) * c_maxd c)
  | Fixed _ _ (Some m) => nscale (nsub m (Fin (get x (c_i c)))) (c_scale c)
  | _ => PInf
  end.
(** [fun] (constraints.py 105-109, 242-243, 346-350). *)
Definition cfun (c : cons) (x : list R) : num :=
  match c_spec c with
  | Order _ _ => Fin ((get x (c_j c) - get x (c_i c)) * c_scale c)
  | _ => pymin (min_fun c x) (max_fun c x)
  end.
(** [is_binding] (constraints.py 12-13; abstract_model.pyx 1193): |fun| < tol. *)
Definition nabs (a : num) : num :=
  match a with Fin x => Fin (Rabs x) | NInf | PInf => PInf | NaN => NaN end.
(** [is_binding] (constraints.py 12-13). *)
Definition is_binding (c : cons) (x : list R) : bool := nlt (nabs (cfun c x)) (Fin (c_tol c)).

(** Assignment [j[i] = v] into a vector. *)
(** Vector assignment [j[i] = v] (constraints.py 114-118, 247-248, 355-357). *)
Fixpoint put (j : list R) (i : nat) (v : R) : list R :=
  match j, i with
  | [], _ => []
  | _ :: t, O => v :: t
  | a :: t, S i => a :: put t i v
  end.
(** [np.zeros_like(x)], [np.zeros([1, len])] (constraints.py 112, 131, 246, 258, 353, 370). *)
Definition zeros (n : nat) : list R := repeat 0 n.
(** [jac] (constraints.py 111-119, 245-249, 352-358). *)
Definition cjac (c : cons) (x : list R) : list R :=
  let z := zeros (length x) in
  match c_spec c with
  | Order _ _ => put (put z (c_j c) (c_scale c)) (c_i c) (- c_scale c)
  | Ratio _ _ _ _ =>
    if nlt (min_fun c x) (max_fun c x) then put (put z (c_i c) (c_minn c)) (c_j c) (c_mind c)
    else put (put z (c_i c) (c_maxn c)) (c_j c) (c_maxd c)
  | Fixed _ _ _ =>
    if nlt (min_fun c x) (max_fun c x) then put z (c_i c) (c_scale c)
    else put z (c_i c) (- c_scale c)
  end.
(** Which side [get_binding_note] names (constraints.py 124-128, 363-367): true = the minimum. *)
Definition note_minimum (c : cons) (x : list R) : bool := nlt (min_fun c x) (max_fun c x).

(** [as_linear_constraints] (constraints.py 130-136, 257-261, 369-376): rows of coefficients
    with a lower and an upper limit. *)
Definition linear_form (c : cons) : list (list R * num * num) :=
  let z := zeros (c_len c) in
  match c_spec c with
  | Ratio _ _ _ _ =>
    [ (put (put z (c_i c) (c_minn c)) (c_j c) (c_mind c), Fin 0, PInf);
      (put (put z (c_i c) (c_maxn c)) (c_j c) (c_maxd c), Fin 0, PInf) ]
  | Order _ _ => [ (put (put z (c_j c) (c_scale c)) (c_i c) (- c_scale c), Fin 0, PInf) ]
  | Fixed _ mn mx =>
    [ (put z (c_i c) 1, match mn with Some m => m | None => NInf end,
                        match mx with Some m => m | None => PInf end) ]
  end.

(** ** The constraint list (constraints.py 395-522). *)

(** [__eq__] (constraints.py 192-202, 303-311, 378-387): class and arguments. *)
Definition oeqb {A} (eqb : A -> A -> bool) (a b : option A) : bool :=
  match a, b with Some x, Some y => eqb x y | None, None => true | _, _ => false end.
(** Equality of numbers, for [__eq__] (constraints.py 198-199). *)
Definition Reqb (a b : R) : bool := if Req_EM_T a b then true else false.
(** [__eq__] (constraints.py 192-202, 303-311, 378-387). *)
Definition spec_eqb (a b : cspec) : bool :=
  match a, b with
  | Ratio n d l h, Ratio n' d' l' h' =>
      String.eqb n n' && String.eqb d d' && oeqb Reqb l l' && oeqb Reqb h h'
  | Order l m, Order l' m' => String.eqb l l' && String.eqb m m'
  | Fixed p l h, Fixed p' l' h' => String.eqb p p' && oeqb neqb l l' && oeqb neqb h h'
  | _, _ => false
  end.
(** [__eq__] looks at the arguments only (constraints.py 192-202, 303-311, 378-387). *)
Definition cons_eqb (a b : cons) : bool := spec_eqb (c_spec a) (c_spec b).

(** The list and its duplicates flag. *)
(** ParametricConstraintList: [_cx], [allow_dupes] (constraints.py 397-405). *)
Record clist := mkCL { cx : list cons; dupes : bool }.
(** [_is_duplicate] (lines 505-509). *)
Definition is_duplicate (v : cons) (l : list cons) : bool := existsb (fun i => cons_eqb i v) l.

(** Python list index: negative counts from the end; [None]: IndexError. *)
(** Python list index [l[i]] (constraints.py 464, 472, 480, 500). *)
Definition pyidx (i : Z) (n : nat) : option nat :=
  let i := if (i <? 0)%Z then (i + Z.of_nat n)%Z else i in
  if ((0 <=? i) && (i <? Z.of_nat n))%Z then Some (Z.to_nat i) else None.
(** [list.insert] clamps its index. *)
(** The index [list.insert] uses (constraints.py 495). *)
Definition pyinsert_pos (i : Z) (n : nat) : nat :=
  let i := if (i <? 0)%Z then (i + Z.of_nat n)%Z else i in
  if (i <? 0)%Z then O else Nat.min (Z.to_nat i) n.
(** [list.insert] (constraints.py 495). *)
Definition insert_at {A} (k : nat) (v : A) (l : list A) : list A := firstn k l ++ v :: skipn k l.
(** [list[k] = v] (constraints.py 472). *)
Fixpoint replace_at {A} (k : nat) (v : A) (l : list A) : list A :=
  match l, k with
  | [], _ => []
  | _ :: t, O => v :: t
  | a :: t, S k => a :: replace_at k v t
  end.
(** [del list[k]] (constraints.py 480). *)
Fixpoint delete_at {A} (k : nat) (l : list A) : list A :=
  match l, k with
  | [], _ => []
  | _ :: t, O => t
  | a :: t, S k => a :: delete_at k t
  end.

(** How a list operation ends: normally or by an exception, with the list it leaves (constraints.py 466-500). *)
Inductive cres := COk (l : clist) | CExn (l : clist).
(** Observer: the list left behind by constraints.py 466-500. *)
Definition cl_of (r : cres) : clist := match r with COk l => l | CExn l => l end.

(** Link the element at a position, in place (constraints.py 477, 500). *)
Definition link_at (f : frame) (i : Z) (l : clist) : cres :=
  match pyidx i (length (cx l)) with
  | None => CExn l
  | Some k =>
    match nth_error (cx l) k with
    | None => CExn l
    | Some c =>
      match link_model f None c with
      | Some c' => COk (mkCL (replace_at k c' (cx l)) (dupes l))
      | None => CExn l
      end
    end
  end.
(** [insert] (constraints.py 489-500); [append v] is [insert (len, v)] and [extend] appends one by one
    (collections.abc.MutableSequence). *)
Definition cl_insert (f : frame) (i : Z) (v : cons) (l : clist) : cres :=
  if dupes l || negb (is_duplicate v (cx l)) then
    link_at f i (mkCL (insert_at (pyinsert_pos i (length (cx l))) v (cx l)) (dupes l))
  else COk l.
(** [append] inherited from collections.abc.MutableSequence: [insert(len(self), v)] (constraints.py 395, 489-500). *)
Definition cl_append (f : frame) (v : cons) (l : clist) : cres :=
  cl_insert f (Z.of_nat (length (cx l))) v l.
(** [__setitem__] (constraints.py 466-477). *)
Definition cl_set (f : frame) (i : Z) (v : cons) (l : clist) : cres :=
  if dupes l || negb (is_duplicate v (cx l)) then
    match pyidx i (length (cx l)) with
    | None => CExn l
    | Some k => link_at f i (mkCL (replace_at k v (cx l)) (dupes l))
    end
  else COk l.
(** [__delitem__] (constraints.py 479-484). *)
Definition cl_del (i : Z) (l : clist) : cres :=
  match pyidx i (length (cx l)) with
  | None => CExn l
  | Some k => COk (mkCL (delete_at k (cx l)) (dupes l))
  end.
(** [__set__] (constraints.py 430-444): assignment of a whole list re-initializes it (397-405), without
    looking for duplicates, and links every element. *)
Fixpoint link_all (f : frame) (l : list cons) : option (list cons) :=
  match l with
  | [] => Some []
  | c :: l =>
    match link_model f None c, link_all f l with
    | Some c, Some l => Some (c :: l)
    | _, _ => None
    end
  end.
(** [__set__] (constraints.py 430-444). *)
Definition cl_assign (f : frame) (v : list cons) (l : clist) : cres :=
  match link_all f v with
  | Some v' => COk (mkCL v' false)
  | None => CExn (mkCL v false)
  end.
(** [MutableSequence.reverse]: swaps [self[i], self[n-i-1] = self[n-i-1], self[i]], each side
    through [__setitem__]. *)
Definition cl_swap (f : frame) (i j : nat) (l : clist) : cres :=
  match nth_error (cx l) i, nth_error (cx l) j with
  | Some a, Some b =>
    match cl_set f (Z.of_nat i) b l with
    | COk l => cl_set f (Z.of_nat j) a l
    | r => r
    end
  | _, _ => CExn l
  end.
(** The loop of MutableSequence.reverse (inherited at constraints.py 395). *)
Fixpoint cl_reverse_from (f : frame) (k i n : nat) (l : clist) : cres :=
  match k with
  | O => COk l
  | S k => match cl_swap f i (n - i - 1) l with
           | COk l => cl_reverse_from f k (S i) n l
           | r => r
           end
  end.
(** MutableSequence.reverse (inherited at constraints.py 395). *)
Definition cl_reverse (f : frame) (l : clist) : cres :=
  cl_reverse_from f (length (cx l) / 2) 0 (length (cx l)) l.

(** The list operations of a history (constraints.py 466-500). *)
Inductive cop :=
| OInsert (i : Z) (v : cons) | OAppend (v : cons) | OSet (i : Z) (v : cons) | ODel (i : Z)
| OReverse.
(** One list operation (constraints.py 466-500). *)
Definition cl_step (f : frame) (o : cop) (l : clist) : cres :=
  match o with
  | OInsert i v => cl_insert f i v l
  | OAppend v => cl_append f v l
  | OSet i v => cl_set f i v l
  | ODel i => cl_del i l
  | OReverse => cl_reverse f l
  end.
(** A history: operations, each with the frame the model has at that moment; an exception does not
    end the session, it just leaves its state. *)
(** A history of list operations (constraints.py 466-500). *)
Fixpoint cl_run (os : list (frame * cop)) (l : clist) : clist :=
  match os with [] => l | (f, o) :: os => cl_run os (cl_of (cl_step f o l)) end.

(** ** Soft penalties (numba/model.py 669-733). *)

(** [softplus], [d_softplus] (numba/model.py 669-688) for positive sharpness. *)
Definition softplus (k i : R) : R :=
  if Rlt_dec (10 / k) i then i else ln (1 + exp (i * k)) / k.
(** [d_softplus] (numba/model.py 680-688). *)
Definition d_softplus (k i : R) : R :=
  if Rlt_dec (1000 / k) i then 1 else 1 / (1 + exp (- i * k)).
(** The same at an argument that may be -inf (an absent bound): log1p(exp(-inf)) is 0. *)
Definition nsoftplus (k : R) (i : num) : R :=
  match i with Fin x => softplus k x | _ => 0 end.
(** [d_softplus] at -inf: 1/(1+inf) = 0 (numba/model.py 680-688). *)
Definition nd_softplus (k : R) (i : num) : R :=
  match i with Fin x => d_softplus k x | _ => 0 end.

(** [bounds_penalty] (lines 702-733) for one parameter: its contribution to the penalty and
    its entry of d_penalty. A bound is finite or absent (-inf / +inf). The [if low_penalty]
    guards skip a zero contribution. *)
Definition penalty1 (k I : R) (p : R) (lo hi : num) : R :=
  (- nsoftplus k (nsub lo (Fin p)) - nsoftplus k (nsub (Fin p) hi)) * I.
(** Entry of [d_penalty] (numba/model.py 725-728). *)
Definition d_penalty1 (k I : R) (p : R) (lo hi : num) : R :=
  (if Req_EM_T (nsoftplus k (nsub lo (Fin p))) 0 then 0 else nd_softplus k (nsub lo (Fin p)) * I)
  - (if Req_EM_T (nsoftplus k (nsub (Fin p) hi)) 0 then 0 else nd_softplus k (nsub (Fin p) hi) * I).
(** The whole penalty: the sum over the parameters. *)
(** [bounds_penalty] (numba/model.py 702-724): the sum over the parameters. *)
Fixpoint bounds_penalty (k I : R) (ps : list R) (los his : list num) : R :=
  match ps, los, his with
  | p :: ps, lo :: los, hi :: his => penalty1 k I p lo hi + bounds_penalty k I ps los his
  | _, _, _ => 0
  end.
(** [d_penalty] of [bounds_penalty] (numba/model.py 725-728). *)
Fixpoint d_bounds_penalty (k I : R) (ps : list R) (los his : list num) : list R :=
  match ps, los, his with
  | p :: ps, lo :: los, hi :: his => d_penalty1 k I p lo hi :: d_bounds_penalty k I ps los his
  | _, _, _ => []
  end.
(** [as_soft_penalty] of OrderingBound (constraints.py 263-284) and RatioBound (138-171): the
    penalty and its gradient, for a linked constraint with scale [s] under intensity [I] and
    sharpness [k].  (The third function, the gradient at a binding point, is not modelled.
    FixedBound has no as_soft_penalty.) *)
Definition rmin_fun (c : cons) (x : list R) : R := get x (c_i c) * c_minn c + get x (c_j c) * c_mind c.
(** RatioBound [_max] in [penalty] (constraints.py 154, 163). *)
Definition rmax_fun (c : cons) (x : list R) : R := get x (c_i c) * c_maxn c + get x (c_j c) * c_maxd c.
(** [penalty] (constraints.py 152-155, 273-274). *)
Definition soft_penalty (c : cons) (I k : R) (x : list R) : option R :=
  match c_spec c with
  | Order _ _ => Some (- softplus k (- (get x (c_j c) - get x (c_i c)) * c_scale c * I))
  | Ratio _ _ _ _ => Some (- softplus k (- Rmin (rmin_fun c x) (rmax_fun c x) * c_scale c * I))
  | Fixed _ _ _ => None
  end.
(** [dpenalty] (constraints.py 160-171, 279-284). *)
Definition d_soft_penalty (c : cons) (I k : R) (x : list R) : option (list R) :=
  let z := zeros (length x) in
  match c_spec c with
  | Order _ _ =>
    let partial := d_softplus (k * c_scale c * I) (- (get x (c_j c) - get x (c_i c))) * c_scale c * I in
    Some (put (put z (c_j c) partial) (c_i c) (- partial))
  | Ratio _ _ _ _ =>
    let partial := d_softplus (k * c_scale c * I) (- Rmin (rmin_fun c x) (rmax_fun c x)) * c_scale c * I in
    Some (if Rlt_dec (rmin_fun c x) (rmax_fun c x)
          then put (put z (c_i c) (c_minn c * partial)) (c_j c) (c_mind c * partial)
          else put (put z (c_i c) (c_maxn c * partial)) (c_j c) (c_maxd c * partial))
  | Fixed _ _ _ => None
  end.
