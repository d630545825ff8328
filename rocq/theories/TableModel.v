(** Model of the ordered parameter table: the setters of [ordering] (larch/model/parameter_frame.pyx 641-657), [pfo]
    (659-688), the significance marks of [parameter_summary] (932-979), and the rows and parameter columns of
    [joint_parameter_summary] (larch/util/summary.py 5-85).
    Simplifications: [re.match(pattern, name) is not None] is a test [re] of patterns and names, any test at all; the rows of a frame are of any
    type; of a cell's formatted text only the cases BIG, -BIG and NA are kept apart from numbers. *)
From Coq Require Export String Permutation Sorted.
From Verif Require Export ParamModel ConsModel.
Open Scope string_scope.
Open Scope list_scope.

(** A category of an ordering: its name and its patterns (parameter_frame.pyx 667-669). *)
Definition category := (string * list string)%type.
(** helper: one step of sorted (parameter_frame.pyx 670). *)
Fixpoint place_name (x : string) (l : list string) : list string :=
  match l with [] => [x] | y :: r => if String.leb x y then x :: l else y :: place_name x r end.
(** sorted (parameter_frame.pyx 670, 674). *)
Definition in_order (l : list string) : list string := fold_right place_name [] l.
(** helper: is the name in the set (parameter_frame.pyx 671)? *)
Definition has (l : list string) (x : string) : bool := existsb (String.eqb x) l.
(** The patterns of one category (parameter_frame.pyx 668-671): [params] are its parameters so far, [pset] the set of those
    not yet placed. *)
Fixpoint fill (re : string -> string -> bool) (pats : list string) (params pset : list string) : list string * list string :=
  match pats with
  | [] => (params, pset)
  | pat :: r =>
    let params := params ++ in_order (filter (re pat) pset) in
    fill re r params (filter (fun p => negb (has params p)) pset)
  end.
(** The loop over the categories, and the others (parameter_frame.pyx 666-674, summary.py 17-25). *)
Fixpoint groups (re : string -> string -> bool) (order : list category) (pset : list string) : list (string * list string) :=
  match order with
  | [] => match pset with [] => [] | _ => [("Other", in_order pset)] end
  | c :: r => let (params, pset) := fill re (snd c) [] pset in (fst c, params) :: groups re r pset
  end.
(** The index of the table (parameter_frame.pyx 676-681, summary.py 27-33). *)
Definition index_of_groups (out : list (string * list string)) : list (string * string) :=
  flat_map (fun g => map (fun p => (fst g, p)) (snd g)) out.
(** helper: the row of a name, as reindex finds it (parameter_frame.pyx 684). *)
Definition row_at {A} (fr : list (string * A)) (p : string) : option A :=
  match find (fun r => String.eqb (fst r) p) fr with Some r => Some (snd r) | None => None end.
(** pfo (parameter_frame.pyx 659-688): rows with category, name, and contents; [None] for a category: the frame as it is
    (660-661); [None] for contents: a row of NaN. *)
Definition pfo {A} (re : string -> string -> bool) (order : list category) (fr : list (string * A)) : list (option string * (string * option A)) :=
  match order with
  | [] => map (fun r => (None, (fst r, Some (snd r)))) fr
  | _ => map (fun cp => (Some (fst cp), (snd cp, row_at fr (snd cp))))
             (index_of_groups (groups re order (nodup string_dec (map fst fr))))
  end.
(** helper: equality of categories (parameter_frame.pyx 649). *)
Definition cat_eq : forall a b : category, {a = b} + {a <> b}.
Proof. decide equality; [apply list_eq_dec|]; apply string_dec. Defined.
(** ordering = x (parameter_frame.pyx 646-649): what is in the tail is left out.  [None]: not set. *)
Definition set_ordering (x : list category) (tail : option (list category)) : list category :=
  filter (fun y => if in_dec cat_eq y (match tail with Some t => t | None => [] end) then false else true) x.
(** ordering (parameter_frame.pyx 641-644, 651-653). *)
Definition ordering (head tail : option (list category)) : list category :=
  (match head with Some h => h | None => [] end) ++ (match tail with Some t => t | None => [] end).

(** ** Significance marks *)
(** numpy.isfinite (parameter_frame.pyx 943, 970). *)
Definition isfinite (x : num) : bool := match x with Fin _ => true | _ => false end.
(** The text of a t statistic or likelihood ratio (parameter_frame.pyx 942-951). *)
Inductive shown_num := Number (x : num) | Big | MinusBig | NA.
(** fixie (parameter_frame.pyx 942-951). *)
Definition fixie (x : num) : shown_num :=
  if isfinite x then (if nlt (Fin 1000) x then Big else if nlt x (Fin (-1000)) then MinusBig else Number x) else NA.
(** helper: result.loc[condition, 'Signif'] = text (parameter_frame.pyx 956-958). *)
Definition mark (b : bool) (s old : string) : string := if b then s else old.
(** helper: the number as written (parameter_frame.pyx 956, 972). *)
Definition dec4 (n : Z) : num := Fin (IZR n / 10000).
(** From the t statistic (parameter_frame.pyx 954-960). *)
Definition signif_t (t : num) : string :=
  let s := mark (nlt (dec4 19600) (nabs t)) "*" "" in
  let s := mark (nlt (dec4 25758) (nabs t)) "**" s in
  let s := mark (nlt (dec4 32905) (nabs t)) "***" s in
  mark (match fixie t with NA => true | _ => false end) "" s.
(** From the likelihood ratio (parameter_frame.pyx 963-974), on what the t statistic gave. *)
Definition signif_lr (lr : num) (no_t : bool) (s : string) : string :=
  let s := mark (isfinite lr && no_t) "[]" s in
  let s := mark (nlt (dec4 19207) lr && no_t) "[*]" s in
  let s := mark (nlt (dec4 33174) lr && no_t) "[**]" s in
  mark (nlt (dec4 54138) lr && no_t) "[***]" s.
(** The column Signif (parameter_frame.pyx 953-979); [None]: there is no such column. *)
Definition signif (t lr : option num) : option string :=
  let s := match t with Some t => Some (signif_t t) | None => None end in
  match lr with
  | None => s
  | Some l =>
    let no_t := match t with Some t => negb (isfinite t) | None => true end in
    Some (signif_lr l no_t (match s with Some s => s | None => "" end))
  end.

(** ** Several models *)
(** A model: title, parameters with the texts of their values (summary.py 77-82). *)
Definition titled := (string * list (string * string))%type.
(** joint_parameter_names, joint_parameter_indexing (summary.py 5-33). *)
Definition joint_index (re : string -> string -> bool) (order : list category) (models : list titled) : list (string * string) :=
  index_of_groups (groups re order (nodup string_dec (flat_map (fun m => map fst (snd m)) models))).
(** The cell of parameter [p] in the column 'Param' of a title (summary.py 71-84): model after model, row after row. *)
Definition joint_cell (models : list titled) (title p : string) : string :=
  fold_left (fun s m => if String.eqb (fst m) title then
                          fold_left (fun s r => if String.eqb (fst r) p then snd r else s) (snd m) s
                        else s) models "".
