(** Model groups: several models estimated together, with one frame of parameters.
    Source: larch/model/model_group.py at the pinned commit.  Frames, scanning and [set_values] are those of
    [ParamModel] (larch/model/parameter_frame.pyx).  The members are distinct objects, none of them a group
    (model_group.py 31-34 flattens groups). *)
From Verif Require Export ParamModel.
Open Scope string_scope.

(** IEEE addition (Python's [+] on floats; model_group.py 229, 236, 301). *)
Definition nadd (a b : num) : num :=
  match a, b with
  | NaN, _ | _, NaN => NaN
  | Fin x, Fin y => Fin (x + y)
  | PInf, NInf | NInf, PInf => NaN
  | PInf, _ | _, PInf => PInf
  | NInf, _ | _, NInf => NInf
  end.
(** Python's [sum], which starts at 0 (model_group.py 59, 71, 229, 236, 301). *)
Definition py_sum (l : list num) : num := fold_left nadd l (Fin 0).

(** A member: the model, its log likelihood and gradient at given parameter values (functions of its
    own data), the number of its cases and their weight (model_group.py 59, 71). *)
Record member := mkMember {
  k_model : model; k_ll : list (string * num) -> num; k_dll : list (string * num) -> string -> num;
  k_cases : nat; k_weight : num }.
(** The group: its own parameter frame with the rest of the base class, and the members
    (model_group.py 24-35). *)
Record group := mkGroup { g_model : model; g_members : list member }.
(** helper: a member after its model has changed (model_group.py 160-161). *)
Definition with_model (k : member) (m : model) : member :=
  mkMember m (k_ll k) (k_dll k) (k_cases k) (k_weight k).
(** helper: the state after a call that returned; exceptions are [None] and what they leave behind is
    not modelled (no larch code). *)
Definition returned {A} (x : outcome A) : option model := match x with Ret _ m => Some m | Exn _ => None end.

(** model_group.py 56-59: [n_cases]. *)
Definition n_cases (g : group) : nat := fold_left Nat.add (map k_cases (g_members g)) 0.
(** model_group.py 61-71: [total_weight]. *)
Definition total_weight (g : group) : num := py_sum (map k_weight (g_members g)).

(** model_group.py 160, 175: [k.set_values( **vals )] with all values of the group's frame as keyword arguments.  The
    signature (parameter_frame.pyx 524) has arguments of its own, so a parameter of that name is taken for the argument. *)
Definition reserved (n : string) : bool := mem n ["self"; "values"; "respect_holdfast"].
(** As above (parameter_frame.pyx 524): keyword arguments split between the arguments proper and [kwargs]. *)
Definition call_set_values (kw : list (string * num)) (m : model) : outcome unit :=
  match find (fun kv => String.eqb (fst kv) "self") kw with
  | Some _ => Exn m
  | None =>
    set_values
      (match find (fun kv => String.eqb (fst kv) "values") kw with Some (_, v) => VScalar v | None => VNone end)
      (match find (fun kv => String.eqb (fst kv) "respect_holdfast") kw with
       | Some (_, v) => negb (neqb v (Fin 0)) | None => true end)
      (filter (fun kv => negb (reserved (fst kv))) kw) m
  end.
(** model_group.py 157-161, 174-175: the values of the group are given to each member.  (Copying the member's frame,
    161, and reading the values into its data arrays, 163, change none of them.) *)
Fixpoint push (kw : list (string * num)) (ms : list member) : option (list member) :=
  match ms with
  | [] => Some []
  | k :: ms =>
    match returned (call_set_values kw (k_model k)), push kw ms with
    | Some m, Some ms => Some (with_model k m :: ms)
    | _, _ => None
    end
  end.

(** What a frame contributes to [pd.concat]: NaN in the 'best' column if it has none (model_group.py 78-80). *)
Definition cells (f : frame) : list row :=
  if has_best f then rows f
  else map (fun r => mkRow (r_name r) (r_value r) (r_init r) (r_null r) (r_min r) (r_max r) (r_hold r) NaN) (rows f).
(** model_group.py 76: the rows of a member's frame that the group's does not have. *)
Definition rows_to_import (F f : frame) : list row :=
  filter (fun r => negb (mem (r_name r) (names (rows F)))) (cells f).
(** model_group.py 78-80: the new frame; [None]: a missing holdfast cannot be cast to the int8 of the group's frame. *)
Definition import_rows (F f : frame) : option frame :=
  if existsb (fun r => match r_hold r with None => true | Some _ => false end) (rows_to_import F f) then None
  else Some (mkFrame (cells F ++ rows_to_import F f) (has_best F || has_best f)).

(** helper: a list with one entry replaced. *)
Fixpoint set_member (l : list member) (i : nat) (k : member) : list member :=
  match l, i with
  | [], _ => []
  | _ :: l, O => k :: l
  | x :: l, S i => x :: set_member l i k
  end.
(** [k.pf] and [k.unmangle()] of one member (parameter_frame.pyx 191-196; model_group.py 76, 93). *)
Definition unmangle_member (i : nat) (g : group) : option group :=
  match nth_error (g_members g) i with
  | None => Some g
  | Some k =>
    match returned (unmangle false (k_model k)) with
    | None => None
    | Some m => Some (mkGroup (g_model g) (set_member (g_members g) i (with_model k m)))
    end
  end.
(** model_group.py 75-93: the body of the loop for one member.  [changed] is [_frame_values_have_changed]; the test of
    lines 82-88 always succeeds when there are rows to import, since the lengths differ. *)
Definition visit (changed : group -> option group) (og : option group) (i : nat) : option group :=
  obind og (fun g =>
  obind (unmangle_member i g) (fun g =>
  match nth_error (g_members g) i with
  | None => Some g
  | Some k =>
    obind
      (match rows_to_import (m_frame (g_model g)) (m_frame (k_model k)) with
       | [] => Some g
       | _ => obind (import_rows (m_frame (g_model g)) (m_frame (k_model k))) (fun F =>
              changed (mkGroup (with_frame F (g_model g)) (g_members g)))
       end) (unmangle_member i)
  end)).
(** model_group.py 73-93: [unmangle()], which calls itself through [_frame_values_have_changed] and [pf] (155).  [depth]:
    the calls the interpreter allows to be nested; [None] when they are used up (RecursionError). *)
Fixpoint unmangle_group (depth : nat) (g : group) : option group :=
  match depth with
  | O => None
  | S depth =>
    obind (returned (unmangle false (g_model g))) (fun m =>
    fold_left
      (visit (fun g => obind (unmangle_group depth g) (fun g =>
              obind (push (values_of (m_frame (g_model g))) (g_members g)) (fun ms =>
              Some (mkGroup (g_model g) ms)))))
      (seq 0 (length (g_members g))) (Some (mkGroup m (g_members g))))
  end.
(** model_group.py 154-163: [_frame_values_have_changed]. *)
Definition values_have_changed (depth : nat) (g : group) : option group :=
  obind (unmangle_group depth g) (fun g =>
  obind (push (values_of (m_frame (g_model g))) (g_members g)) (fun ms =>
  Some (mkGroup (g_model g) ms))).

(** model_group.py 95-152: [set_values].  (The base class also calls [_frame_values_have_changed], parameter_frame.pyx 609,
    when a value is new; doing it twice is the same as once.) *)
Definition set_values_group (depth : nat) (x : values_arg) (respect : bool) (kw : list (string * num)) (g : group)
  : option group :=
  obind (returned (set_values x respect kw (g_model g))) (fun m =>
  values_have_changed depth (mkGroup m (g_members g))).

(** model_group.py 165-175: [__prep_for_compute].  [x]: nothing, or what [set_values] is to be given (a dict is its list of
    keyword arguments). *)
Definition prep_for_compute (depth : nat) (x : option (values_arg * list (string * num))) (g : group) : option group :=
  obind (unmangle_group depth g) (fun g =>
  obind (match x with None => Some g | Some (a, kw) => set_values_group depth a true kw g end) (fun g =>
  values_have_changed depth g)).

(** model_group.py 227, 293: each member evaluates itself on all its data (ParamModel's [loglike_at]: controller.pyx 860-930,
    which records its own best). *)
Definition evaluate (k : member) : option (num * member) :=
  match loglike (fun _ => k_ll k) cython_checks_best cython_full (k_model k) with
  | Ret ll m => Some (ll, with_model k m)
  | Exn _ => None
  end.
(** The list comprehension of model_group.py 227, 293. *)
Fixpoint evaluate_all (ms : list member) : option (list num * list member) :=
  match ms with
  | [] => Some ([], [])
  | k :: ms =>
    match evaluate k, evaluate_all ms with
    | Some (ll, k), Some (lls, ms) => Some (ll :: lls, k :: ms)
    | _, _ => None
    end
  end.
(** model_group.py 177-244: [loglike] with default arguments other than [x] (any other raises NotImplementedError, 207-220). *)
Definition loglike_group (depth : nat) (x : option (values_arg * list (string * num))) (g : group)
  : option (num * group) :=
  obind (prep_for_compute depth x g) (fun g =>
  obind (evaluate_all (g_members g)) (fun r =>
  let ll := py_sum (fst r) in
  Some (ll, mkGroup (check_if_best ll (g_model g)) (snd r)))).

(** A pandas Series of numbers by name (model_group.py 294-297). *)
Definition lookup (n : string) (s : list (string * num)) : option num :=
  option_map snd (find (fun kv => String.eqb (fst kv) n) s).
(** [Series.add(other, fill_value=0)] at one label (model_group.py 296): NaN counts as missing, a missing entry is 0
    unless both are missing. *)
Definition fill_add (a b : option num) : num :=
  let present o := match o with Some v => if is_nan v then None else Some v | None => None end in
  match present a, present b with
  | Some x, Some y => nadd x y
  | Some x, None => nadd x (Fin 0)
  | None, Some y => nadd (Fin 0) y
  | None, None => NaN
  end.
(** [Series.add], model_group.py 296: all labels of either (their order is not used). *)
Definition series_add (a b : list (string * num)) : list (string * num) :=
  map (fun n => (n, fill_add (lookup n a) (lookup n b)))
    (map fst a ++ filter (fun n => negb (mem n (map fst a))) (map fst b)).
(** [dll[self.pf.index]], model_group.py 297; [None]: KeyError. *)
Fixpoint select (ns : list string) (s : list (string * num)) : option (list (string * num)) :=
  match ns with
  | [] => Some []
  | n :: ns =>
    match lookup n s, select ns s with
    | Some v, Some r => Some ((n, v) :: r)
    | _, _ => None
    end
  end.
(** The gradient a member returns: by the names of its frame (model_group.py 293, controller.pyx 724-731). *)
Definition member_dll (k : member) : list (string * num) :=
  map (fun nv => (fst nv, k_dll k (values_of (m_frame (k_model k))) (fst nv))) (values_of (m_frame (k_model k))).
(** model_group.py 246-307: [loglike2], log likelihood and gradient; [None] also when there are no members (294, IndexError). *)
Definition loglike2_group (depth : nat) (x : option (values_arg * list (string * num))) (g : group)
  : option (num * list (string * num) * group) :=
  obind (prep_for_compute depth x g) (fun g =>
  obind (evaluate_all (g_members g)) (fun r =>
  match map member_dll (snd r) with
  | [] => None
  | d :: ds =>
    obind (select (names (rows (m_frame (g_model g)))) (fold_left series_add ds d)) (fun dll =>
    let ll := py_sum (fst r) in
    Some (ll, dll, mkGroup (check_if_best ll (g_model g)) (snd r)))
  end)).

(** model_group.py 40-54: the group is a list of its members; changing the list does not touch the frame. *)
Definition delete_member (i : nat) (g : group) : group :=
  mkGroup (g_model g) (firstn i (g_members g) ++ skipn (S i) (g_members g)).
(** model_group.py 52-54: [insert]. *)
Definition insert_member (i : nat) (k : member) (g : group) : group :=
  mkGroup (g_model g) (firstn i (g_members g) ++ k :: skipn i (g_members g)).
