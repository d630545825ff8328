(** Model of how a numba model notices that its settings have changed: the compiled arrays it keeps (larch/numba/model.py
    902-927, 1009-1158), [mangle] and [unmangle] (controller.pyx 263-274, parameter_frame.pyx 161-170), the loading of
    data with reuse of prepared flows (larch/numba/data_arrays.py 72-362, 364-374, 521-570; larch/dataset/flow.py
    536-584), and every operation that changes a setting: the functions utility_ca, utility_co, quantity_ca
    (linear.pyx 771-965, 1333-1451), the choice, weight and availability settings (controller.pyx 372-403, 1075-1262),
    the graph (tree.py 16-69), datatree, dataset and float_dtype (numba/model.py 1993-2085), constraints
    (constraints.py 393-500) and the parameter frame (parameter_frame.pyx 110-119, 172-210, 336-392; model.py 757-786).
    Several models share a world of function objects and data trees, as they do in a Python session.
    Simplifications: datasets hold idca data in dense form; a model always has a graph; expressions always evaluate;
    md5 (data_arrays.py 366) is taken to be injective, so a flow is named by the text that is hashed; of a parameter
    only name and value are kept; rename_parameters (controller.pyx 66) is empty; models with DataFrames, which reload
    their arrays every time (numba/model.py 1028-1066), are left out. *)
From Coq Require Export String.
From Coq Require Import DecimalString.
From Coq Require Export Reals ZArith List Bool Arith Lia.
Export ListNotations.
Open Scope string_scope.
Open Scope list_scope.

(** helper: assignment to one entry of a table of objects. *)
Definition put {A} (f : nat -> A) (k : nat) (v : A) : nat -> A := fun i => if (i =? k)%nat then v else f i.
(** Index.get_loc / the [param_loc] and [data_loc] tables (numba/model.py 786-799, 820, 826). *)
Fixpoint index_of (n : string) (l : list string) : option nat :=
  match l with
  | [] => None
  | x :: r => if string_dec x n then Some 0 else match index_of n r with Some i => Some (S i) | None => None end
  end.
(** The same for alternative codes (numba/model.py 800, 805). *)
Fixpoint index_of_Z (n : Z) (l : list Z) : option nat :=
  match l with
  | [] => None
  | x :: r => if (x =? n)%Z then Some 0 else match index_of_Z n r with Some i => Some (S i) | None => None end
  end.
(** sort_index (parameter_frame.pyx 119), sorted (model.py 686, 688): by name. *)
Fixpoint insert_by {A} (key : A -> string) (x : A) (l : list A) : list A :=
  match l with
  | [] => [x]
  | y :: r => if String.leb (key x) (key y) then x :: l else y :: insert_by key x r
  end.
(** sort_index (parameter_frame.pyx 119). *)
Definition sort_by {A} (key : A -> string) (l : list A) : list A := fold_right (insert_by key) [] l.
(** list(sorted(set)) (model.py 685-688). *)
Definition sorted_set (l : list string) : list string := sort_by (fun x => x) (nodup string_dec l).

(** ** Objects *)
(** LinearComponent_C (linear.pxd 18-22). *)
Record comp := mkComp { c_par : string; c_data : string; c_scale : R }.
(** LinearFunction_C (linear.pxd 25-30): its terms, and the model told about changes. *)
Record fn := mkFn { f_terms : list comp; f_owner : option nat }.
(** The data of one expression, for all cases and alternatives (data_arrays.py 542-570). *)
Definition col := nat -> R.
(** A DataTree: what its [_hash_features] contribute to a flow's name (data_arrays.py 371), its alternative ids if it has
    them (data_arrays.py 113), the variables found as they are (390-393), the data of each expression. *)
Record tree := mkTree { t_feat : string; t_alts : option (list Z); t_var : string -> bool; t_col : string -> col }.
(** A NestingTree (tree.py 10-14): the elemental alternatives in order, the other nodes below the root with their parameter, the edges. *)
Record graph := mkGraph { g_alts : list Z; g_nests : list (Z * option string); g_edges : list (Z * Z) }.
(** A constraint (constraints.py 36-380): the parameters named, the positions it is linked to, the function of their
    values. *)
Record con := mkCon { k_names : list string; k_pos : list nat; k_fun : list R -> R }.

(** ** Compiled data *)
(** Choices: one table; the chosen code; one column per alternative (data_arrays.py 161-236). *)
Inductive chd := ChTable (c : col) | ChCode (c : col) | ChCols (l : list col).
(** Availability: one table, or one column per alternative (data_arrays.py 275-357). *)
Inductive avd := AvTable (c : col) | AvCols (l : list (Z * col)).
(** The loaded dataset (data_arrays.py 92-362). *)
Record dset := mkD {
  d_alts : list Z; d_co : option (list (string * col)); d_ca : option (list (string * col));
  d_ch : option chd; d_wt : option col; d_av : option avd; d_type : bool }.
(** DataArrays (flow.py 536-584); the roll-up to nests uses the graph of the moment. *)
Record arrays := mkA {
  a_co : list col; a_ca : list col; a_ch : option chd; a_wt : option col; a_av : option avd; a_graph : graph; a_type : bool }.
(** FixedArrays (numba/model.py 874-884): parameters and data by position. *)
Record fixed := mkX {
  x_ca : list (R * nat * nat); x_q : list (R * nat * nat); x_qs : option nat;
  x_co : list (nat * R * nat * option nat); x_mu : list (option nat); x_edges : list (Z * Z) }.
(** A prepared flow (data_arrays.py 538-541): its name and the expressions it evaluates. *)
Record flow := mkFlow { fl_name : string; fl_defs : list (string * string) }.

(** ** A model *)
(** Settings (controller.pyx 60-95), parameter frame, constraints, and what has been compiled (numba/model.py 908-916). *)
Record mst := mkM {
  m_uca : nat; m_qca : nat; m_uco : list (Z * nat);
  m_qs : option string; m_ls : option string;
  m_cca : option string; m_cco : option (list (Z * string)); m_ccode : option string; m_cany : bool;
  m_wt : option string;
  m_av : option string; m_avco : option (list (Z * string)); m_avany : bool;
  m_graph : graph; m_type : bool; m_tree : option nat;
  m_frame : list (string * R); m_cons : list con;
  m_mangled : bool; m_dset : option dset; m_arr : option arrays; m_fix : option fixed; m_cf : option (list con);
  m_flows : option (string -> option flow) }.
(** Function objects, models and trees of a session (parameter_frame.pyx 57-76: a Python process). *)
Record world := mkWorld { w_f : nat -> fn; w_next : nat; w_m : nat -> mst; w_t : nat -> tree }.

(** helper: settings of a model, replaced one group at a time (attribute assignment). *)
Definition set_uco u m := mkM (m_uca m) (m_qca m) u (m_qs m) (m_ls m) (m_cca m) (m_cco m) (m_ccode m) (m_cany m) (m_wt m)
  (m_av m) (m_avco m) (m_avany m) (m_graph m) (m_type m) (m_tree m) (m_frame m) (m_cons m)
  (m_mangled m) (m_dset m) (m_arr m) (m_fix m) (m_cf m) (m_flows m).
(** helper: _quantity_scale, _logsum_parameter (controller.pyx 373-401). *)
Definition set_scale q l m := mkM (m_uca m) (m_qca m) (m_uco m) q l (m_cca m) (m_cco m) (m_ccode m) (m_cany m) (m_wt m)
  (m_av m) (m_avco m) (m_avany m) (m_graph m) (m_type m) (m_tree m) (m_frame m) (m_cons m)
  (m_mangled m) (m_dset m) (m_arr m) (m_fix m) (m_cf m) (m_flows m).
(** helper: _choice_ca_var, _choice_co_vars, _choice_co_code, _choice_any (controller.pyx 1075-1171). *)
Definition set_choice a b c d m := mkM (m_uca m) (m_qca m) (m_uco m) (m_qs m) (m_ls m) a b c d (m_wt m)
  (m_av m) (m_avco m) (m_avany m) (m_graph m) (m_type m) (m_tree m) (m_frame m) (m_cons m)
  (m_mangled m) (m_dset m) (m_arr m) (m_fix m) (m_cf m) (m_flows m).
(** helper: _weight_co_var (controller.pyx 1179). *)
Definition set_wt x m := mkM (m_uca m) (m_qca m) (m_uco m) (m_qs m) (m_ls m) (m_cca m) (m_cco m) (m_ccode m) (m_cany m) x
  (m_av m) (m_avco m) (m_avany m) (m_graph m) (m_type m) (m_tree m) (m_frame m) (m_cons m)
  (m_mangled m) (m_dset m) (m_arr m) (m_fix m) (m_cf m) (m_flows m).
(** helper: _availability_var, _availability_co_vars, _availability_any (controller.pyx 1187-1262). *)
Definition set_avail a b c m := mkM (m_uca m) (m_qca m) (m_uco m) (m_qs m) (m_ls m) (m_cca m) (m_cco m) (m_ccode m) (m_cany m) (m_wt m)
  a b c (m_graph m) (m_type m) (m_tree m) (m_frame m) (m_cons m)
  (m_mangled m) (m_dset m) (m_arr m) (m_fix m) (m_cf m) (m_flows m).
(** helper: the graph (tree.py 42), _float_dtype (numba/model.py 2084), _datatree (2009). *)
Definition set_place g t d m := mkM (m_uca m) (m_qca m) (m_uco m) (m_qs m) (m_ls m) (m_cca m) (m_cco m) (m_ccode m) (m_cany m) (m_wt m)
  (m_av m) (m_avco m) (m_avany m) g t d (m_frame m) (m_cons m)
  (m_mangled m) (m_dset m) (m_arr m) (m_fix m) (m_cf m) (m_flows m).
(** helper: _frame (parameter_frame.pyx 187), the constraint list (constraints.py 410). *)
Definition set_pars f c m := mkM (m_uca m) (m_qca m) (m_uco m) (m_qs m) (m_ls m) (m_cca m) (m_cco m) (m_ccode m) (m_cany m) (m_wt m)
  (m_av m) (m_avco m) (m_avany m) (m_graph m) (m_type m) (m_tree m) f c
  (m_mangled m) (m_dset m) (m_arr m) (m_fix m) (m_cf m) (m_flows m).
(** helper: the compiled part (numba/model.py 917-926, 1150-1158). *)
Definition set_built b d a x k f m := mkM (m_uca m) (m_qca m) (m_uco m) (m_qs m) (m_ls m) (m_cca m) (m_cco m) (m_ccode m) (m_cany m) (m_wt m)
  (m_av m) (m_avco m) (m_avany m) (m_graph m) (m_type m) (m_tree m) (m_frame m) (m_cons m) b d a x k f.
(** mangle, numba/model.py 917-926 and parameter_frame.pyx 161-162.  The prepared flows ([dataflows]) stay. *)
Definition mangle (m : mst) : mst := set_built true None None None None (m_flows m) m.
(** helper: change model [i] of a world. *)
Definition on (i : nat) (g : mst -> mst) (w : world) : world := mkWorld (w_f w) (w_next w) (put (w_m w) i (g (w_m w i))) (w_t w).
(** [_try_mangle] (linear.pyx 758-762): nobody is told if the object has no model. *)
Definition notify (o : option nat) (w : world) : world := match o with Some i => on i mangle w | None => w end.
(** helper: change function object [r]. *)
Definition on_fn (r : nat) (f : fn) (w : world) : world := mkWorld (put (w_f w) r f) (w_next w) (w_m w) (w_t w).
(** helper: a new function object. *)
Definition new_fn (f : fn) (w : world) : world * nat := (mkWorld (put (w_f w) (w_next w) f) (S (w_next w)) (w_m w) (w_t w), w_next w).

(** ** Names and parameters *)
(** The terms of the utility functions (model.py 664-683, numba/model.py 804-815). *)
Definition ca_terms (w : world) (m : mst) : list comp := f_terms (w_f w (m_uca m)).
(** quantity_ca (model.py 671-675). *)
Definition q_terms (w : world) (m : mst) : list comp := f_terms (w_f w (m_qca m)).
(** utility_co (model.py 677-683). *)
Definition co_terms (w : world) (m : mst) : list (Z * comp) :=
  flat_map (fun kr => map (fun c => (fst kr, c)) (f_terms (w_f w (snd kr)))) (m_uco m).
(** _scan_utility_ensure_names, _scan_quantity_ensure_names (controller.pyx 292-331). *)
Definition utility_names (w : world) (m : mst) : list string :=
  map (fun kc => c_par (snd kc)) (co_terms w m) ++ map c_par (ca_terms w m) ++ map c_par (q_terms w m).
(** _scan_logsums_ensure_names (numba/model.py 1160-1178); str(None) is 'None' (1170). *)
Definition logsum_names (w : world) (m : mst) : list string :=
  map (fun n => match snd n with Some p => p | None => "None" end) (g_nests (m_graph m)) ++
  (match q_terms w m, m_qs m with _ :: _, Some s => [s] | _, _ => [] end) ++
  (match m_ls m with Some s => [s] | None => [] end).
(** _ensure_names (numba/model.py 1180-1192) with the given initial value. *)
Definition ensure (names : list string) (v : R) (fr : list (string * R)) : list (string * R) :=
  fr ++ map (fun n => (n, v)) (filter (fun n => negb (existsb (String.eqb n) (map fst fr))) (nodup string_dec names)).
(** _scan_all_ensure_names (controller.pyx 286-290, parameter_frame.pyx 118-119). *)
Definition scan (w : world) (m : mst) : list (string * R) :=
  sort_by fst (ensure (logsum_names w m) 1 (ensure (utility_names w m) 0 (m_frame m))).

(** ** Loading data *)
(** Truth of a string setting (model.py 690-706): empty is false. *)
Definition truthy (s : option string) : option string := match s with Some "" => None | x => x end.
(** required_data, model.py 664-688: the names of the data columns. *)
Definition need_ca (w : world) (m : mst) : option (list string) :=
  match map c_data (ca_terms w m) ++ map c_data (q_terms w m) with [] => None | l => Some (sorted_set l) end.
(** model.py 677-688. *)
Definition need_co (w : world) (m : mst) : option (list string) :=
  match m_uco m with
  | [] => None
  | _ => Some (sorted_set (filter (fun d => negb (String.eqb d "1")) (map (fun kc => c_data (snd kc)) (co_terms w m))))
  end.
(** model.py 690-707. *)
Inductive need := NNone | NVar (v : string) | NMap (l : list (Z * string)) | NCode (v : string) | NAny.
(** The choice asked for, model.py 690-697. *)
Definition need_ch (m : mst) : need :=
  match truthy (m_cca m) with
  | Some v => NVar v
  | None => match m_cco m with
            | Some (x :: l) => NMap (x :: l)
            | _ => match truthy (m_ccode m) with Some v => NCode v | None => if m_cany m then NAny else NNone end
            end
  end.
(** The availability asked for, model.py 702-707. *)
Definition need_av (m : mst) : need :=
  match truthy (m_av m) with
  | Some v => NVar v
  | None => match m_avco m with Some (x :: l) => NMap (x :: l) | _ => if m_avany m then NAny else NNone end
  end.
(** str(k) of an alternative code (data_arrays.py 369). *)
Definition code_text (z : Z) : string := NilEmpty.string_of_int (Z.to_int z).
(** flownamer, data_arrays.py 364-374. *)
Definition flow_name (tag : string) (defs : list (string * string)) (feat : string) : string :=
  tag ++ fold_right (fun kv s => fst kv ++ snd kv ++ s)%string "" defs ++ feat.
(** A flow for these definitions, data_arrays.py 398-400, 538-541: the one prepared before if it has the same name. *)
Definition get_flow (fl : string -> option flow) (key tag : string) (defs : list (string * string)) (feat : string) : flow :=
  let name := flow_name tag defs feat in
  match fl key with
  | Some f => if string_dec name (fl_name f) then f else mkFlow name defs
  | None => mkFlow name defs
  end.
(** helper: flows[key] = flow (data_arrays.py 139). *)
Definition put_flow (fl : string -> option flow) (key : string) (f : flow) : string -> option flow :=
  fun k => if string_dec k key then Some f else fl k.
(** flow.load and the reshaping to labelled columns, data_arrays.py 542-570 (404-436); other numbers of columns do not
    fit the labels. *)
Definition load (t : tree) (f : flow) (n : nat) : option (list col) :=
  if (length (fl_defs f) =? n)%nat then Some (map (fun d => t_col t (snd d)) (fl_defs f)) else None.
(** _prep_co / _prep_ca for a list of variables (data_arrays.py 132-164). *)
Definition load_vars (t : tree) (fl : string -> option flow) (key : string) (vars : list string) :
  option (list (string * col)) * (string -> option flow) :=
  let f := get_flow fl key key (map (fun v => (v, v)) vars) (t_feat t) in
  (match load t f (length vars) with Some cs => Some (combine vars cs) | None => None end, put_flow fl key f).
(** _prep_ca for one variable (data_arrays.py 389-400), without a flow if the variable is there as it is; _prep_co for
    one variable (238-249). *)
Definition load_var (t : tree) (fl : string -> option flow) (key tag : string) (direct : bool) (v : string) :
  option col * (string -> option flow) :=
  if direct && t_var t v then (Some (t_col t v), fl)
  else let f := get_flow fl key tag [(v, v)] (t_feat t) in
       (match load t f 1 with Some [c] => Some c | _ => None end, put_flow fl key f).
(** helper: dict.get. *)
Definition dict_get (l : list (Z * string)) (k : Z) : option string :=
  match find (fun kv => (fst kv =? k)%Z) l with Some kv => Some (snd kv) | None => None end.
(** helper: all or nothing. *)
Fixpoint all_some {A} (l : list (option A)) : option (list A) :=
  match l with
  | [] => Some []
  | Some x :: r => match all_some r with Some r' => Some (x :: r') | None => None end
  | None :: _ => None
  end.
(** prepare_data, data_arrays.py 92-362, for model [m] and tree [t]; the flows are changed in place, also when an
    exception is raised half way. *)
Definition prepare (w : world) (m : mst) (t : tree) (fl0 : string -> option flow) : option dset * (string -> option flow) :=
  let alts := match t_alts t with Some l => l | None => g_alts (m_graph m) end in
  let (co, fl1) := match need_co w m with
                   | None => (Some None, fl0)
                   | Some l => let (r, f) := load_vars t fl0 "co" l in
                               (match r with Some x => Some (Some x) | None => None end, f)
                   end in
  match co with None => (None, fl1) | Some co =>
  let (ca, fl2) := match need_ca w m with
                   | None => (Some None, fl1)
                   | Some l => let (r, f) := load_vars t fl1 "ca" l in
                               (match r with Some x => Some (Some x) | None => None end, f)
                   end in
  match ca with None => (None, fl2) | Some ca =>
  let (ch, fl3) := match need_ch m with
                   | NNone => (Some None, fl2)
                   | NVar v => let (r, f) := load_var t fl2 "choice_ca" "ch" true v in
                               (match r with Some c => Some (Some (ChTable c)) | None => None end, f)
                   | NCode v => (Some (Some (ChCode (t_col t v))), fl2)
                   | NMap l => (match all_some (map (dict_get l) alts) with
                                | Some es => Some (Some (ChCols (map (t_col t) es)))
                                | None => None
                                end, fl2)
                   | NAny => (None, fl2)
                   end in
  match ch with None => (None, fl3) | Some ch =>
  let (wt, fl4) := match truthy (m_wt m) with
                   | None => (Some None, fl3)
                   | Some v => let (r, f) := load_var t fl3 "weight_co" "wt" false v in
                               (match r with Some c => Some (Some c) | None => None end, f)
                   end in
  match wt with None => (None, fl4) | Some wt =>
  let (av, fl5) := match need_av m with
                   | NNone | NCode _ => (Some None, fl4)
                   | NVar v => let (r, f) := load_var t fl4 "avail_ca" "av" true v in
                               (match r with Some c => Some (Some (AvTable c)) | None => None end, f)
                   | NMap l => let defs := map (fun a => (code_text a, match dict_get l a with Some e => e | None => "0" end)) alts in
                               let f := get_flow fl4 "avail_co" "av" defs (t_feat t) in
                               (match load t f (length alts) with
                                | Some cs => Some (Some (AvCols (combine alts cs)))
                                | None => None
                                end, put_flow fl4 "avail_co" f)
                   | NAny => (None, fl4)
                   end in
  match av with None => (None, fl5) | Some av =>
  (Some (mkD alts co ca ch wt av (m_type m)), fl5)
  end end end end end.
(** to_arrays, flow.py 536-584. *)
Definition to_arrays (d : dset) (g : graph) : arrays :=
  let cols l := match l with Some x => map snd x | None => [] end in
  mkA (cols (d_co d)) (cols (d_ca d)) (d_ch d) (d_wt d) (d_av d) g (d_type d).
(** model_u_ca_slots and model_q_ca_slots, numba/model.py 818-868. *)
Definition slots_ca (fr vars : list string) (l : list comp) : option (list (R * nat * nat)) :=
  all_some (map (fun c => match index_of (c_par c) fr, index_of (c_data c) vars with
                          | Some p, Some d => Some (c_scale c, p, d)
                          | _, _ => None
                          end) l).
(** model_co_slots, numba/model.py 775-815. *)
Definition slots_co (alts : list Z) (fr vars : list string) (l : list (Z * comp)) : option (list (nat * R * nat * option nat)) :=
  all_some (map (fun kc => let c := snd kc in
                           match index_of_Z (fst kc) alts, index_of (c_par c) fr with
                           | Some a, Some p =>
                             if String.eqb (c_data c) "1" then Some (a, c_scale c, p, None)
                             else match index_of (c_data c) vars with Some d => Some (a, c_scale c, p, Some d) | None => None end
                           | _, _ => None
                           end) l).
(** _rebuild_fixed_arrays, numba/model.py 1105-1147 (tree.py 878-884 for the nests); [None] is a KeyError.  A key of
    utility_co that is no alternative is an error even if its function is empty (805). *)
Definition compile (w : world) (m : mst) (d : dset) : option fixed :=
  let fr := map fst (m_frame m) in
  let vars l := match l with Some x => map fst x | None => [] end in
  if forallb (fun kr => match index_of_Z (fst kr) (d_alts d) with Some _ => true | None => false end) (m_uco m) then
    match slots_ca fr (vars (d_ca d)) (ca_terms w m), slots_ca fr (vars (d_ca d)) (q_terms w m),
          slots_co (d_alts d) fr (vars (d_co d)) (co_terms w m),
          (match truthy (m_qs m) with None => Some None | Some s => match index_of s fr with Some i => Some (Some i) | None => None end end) with
    | Some ca, Some q, Some co, Some qs =>
      Some (mkX ca q qs co (map (fun n => match snd n with Some p => index_of p fr | None => None end) (g_nests (m_graph m)))
                (g_edges (m_graph m)))
    | _, _, _, _ => None
    end
  else None.

(** reflow_data_arrays, numba/model.py 1009-1031, for a model with a datatree; true if it was done. *)
Definition reflow (w : world) (i : nat) : world * bool :=
  let m := w_m w i in
  match m_tree m with
  | None => (w, true)
  | Some t =>
    let (d, fl) := prepare w m (w_t w t) (match m_flows m with Some f => f | None => fun _ => None end) in
    match d with
    | None => (on i (set_built (m_mangled m) (m_dset m) (m_arr m) (m_fix m) (m_cf m)
                                (match m_flows m with Some _ => Some fl | None => None end)) w, false)
    | Some d => (on i (set_built (m_mangled m) (Some d) (Some (to_arrays d (m_graph m))) (m_fix m) (m_cf m) (Some fl)) w, true)
    end
  end.
(** unmangle, numba/model.py 1150-1158 and controller.pyx 266-274; false if an exception is raised. *)
Definition unmangle (i : nat) (force : bool) (w : world) : world * bool :=
  let w := if force then on i mangle w else w in
  let w := if m_mangled (w_m w i) || force then
             on i (fun m => set_built false (m_dset m) (m_arr m) (m_fix m) (m_cf m) (m_flows m) (set_pars (scan w m) (m_cons m) m)) w
           else w in
  let (w, ok) := match m_dset (w_m w i) with None => reflow w i | Some _ => if force then reflow w i else (w, true) end in
  if negb ok then (w, false)
  else
    let m := w_m w i in
    let (w, ok) := match m_fix m with
                   | Some _ => (w, true)
                   | None =>
                     match m_dset m with
                     | None => (w, true)
                     | Some d => match compile w m d with
                                 | None => (w, false)
                                 | Some x => (on i (fun m => set_built (m_mangled m) (m_dset m) (m_arr m) (Some x) (m_cf m) (m_flows m) m) w, true)
                                 end
                     end
                   end in
    if negb ok then (w, false)
    else (on i (fun m => set_built (m_mangled m) (m_dset m) (m_arr m) (m_fix m)
                                   (match m_cf m with Some c => Some c | None => Some (m_cons m) end) (m_flows m) m) w, true).

(** ** Evaluation *)
(** What the likelihood kernel is given: numba/model.py 1207-1238. *)
Record given := mkGiven {
  v_ca : list (R * option R * option col); v_q : list (R * option R * option col); v_qs : option (option R);
  v_co : list (nat * R * option R * option (option col)); v_mu : list (option (option R)); v_edges : list (Z * Z);
  v_ch : option chd; v_wt : option col; v_av : option avd; v_graph : graph; v_type : bool;
  v_cons : list R }.
(** The kernel looks up parameters and data by position (numba/model.py 52-58, 128-134); constraint functions likewise
    (constraints.py 97-101, 240, 338). *)
Definition give (x : fixed) (a : arrays) (vals : list R) (cf : list con) : given :=
  let t l := map (fun s => match s with (sc, p, d) => (sc, nth_error vals p, nth_error (a_ca a) d) end) l in
  mkGiven (t (x_ca x)) (t (x_q x)) (match x_qs x with Some p => Some (nth_error vals p) | None => None end)
    (map (fun s => match s with (k, sc, p, d) =>
                     (k, sc, nth_error vals p, match d with Some j => Some (nth_error (a_co a) j) | None => None end) end) (x_co x))
    (map (fun o => match o with Some p => Some (nth_error vals p) | None => None end) (x_mu x))
    (x_edges x) (a_ch a) (a_wt a) (a_av a) (a_graph a) (a_type a)
    (map (fun k => k_fun k (map (fun p => nth p vals 0%R) (k_pos k))) cf).
(** __prepare_for_compute, numba/model.py 1193-1238, for a method that needs choices. *)
Definition eval (i : nat) (w : world) : world * option given :=
  match m_tree (w_m w i) with
  | None => (w, None)
  | Some _ =>
    let (w, ok) := unmangle i false w in
    let m := w_m w i in
    if negb ok then (w, None)
    else
      (w, match m_dset m, m_arr m, m_fix m, m_cf m with
          | Some d, Some a, Some x, Some cf =>
            match d_ch d with Some _ => Some (give x a (map snd (m_frame m)) cf) | None => None end
          | _, _, _, _ => None
          end)
  end.

(** ** Operations *)
(** Changing a function object in place: append, insert, extend, f[i] = c, del f[i], +=, remove_data, remove_param
    (linear.pyx 853-921, 951-965). *)
Inductive edit :=
| EAppend (c : comp) | EInsert (i : nat) (c : comp) | EExtend (l : list comp) | ESetItem (i : nat) (c : comp)
| EDelItem (i : nat) | EIadd (l : list comp) | ERemoveData (d : string) | ERemoveParam (p : string).
(** The new terms (linear.pyx 853-921, 951-965); [None] is an IndexError. *)
Definition apply_edit (e : edit) (l : list comp) : option (list comp) :=
  match e with
  | EAppend c => Some (l ++ [c])
  | EInsert i c => Some (firstn i l ++ c :: skipn i l)
  | EExtend x | EIadd x => Some (l ++ x)
  | ESetItem i c => if (i <? length l)%nat then Some (firstn i l ++ c :: skipn (S i) l) else None
  | EDelItem i => if (i <? length l)%nat then Some (firstn i l ++ skipn (S i) l) else None
  | ERemoveData d => Some (filter (fun c => negb (String.eqb (c_data c) d)) l)
  | ERemoveParam p => Some (filter (fun c => negb (String.eqb (c_par c) p)) l)
  end.
(** Does it tell the model?  remove_data and remove_param do not (linear.pyx 861-900). *)
Definition announces (e : edit) : bool := match e with ERemoveData _ | ERemoveParam _ => false | _ => true end.
(** m.utility_ca, m.quantity_ca, m.utility_co[k] (linear.pyx 795-807, 1402-1413). *)
Inductive path := PCa | PQ | PCo (k : Z).
(** helper: look up a key of utility_co (linear.pyx 1404). *)
Definition find_fn (l : list (Z * nat)) (k : Z) : option nat :=
  match find (fun kr => (fst kr =? k)%Z) l with Some kr => Some (snd kr) | None => None end.
(** helper: dict[k] = v (linear.pyx 1429). *)
Fixpoint put_fn (l : list (Z * nat)) (k : Z) (r : nat) : list (Z * nat) :=
  match l with
  | [] => [(k, r)]
  | kr :: x => if (fst kr =? k)%Z then (k, r) :: x else kr :: put_fn x k r
  end.
(** Reading the attribute (linear.pyx 795-807, 1402-1413): an entry of utility_co is told its model, and made if there is
    none. *)
Definition access (i : nat) (p : path) (w : world) : world * nat :=
  match p with
  | PCa => (w, m_uca (w_m w i))
  | PQ => (w, m_qca (w_m w i))
  | PCo k => match find_fn (m_uco (w_m w i)) k with
             | Some r => (on_fn r (mkFn (f_terms (w_f w r)) (Some i)) w, r)
             | None => let (w, r) := new_fn (mkFn [] (Some i)) w in
                       (on i (fun m => set_uco (put_fn (m_uco m) k r) m) w, r)
             end
  end.
(** An edit of object [r] (linear.pyx 853-921, 951-965); += assigns the object to its place again (809-826), which tells the
    same model. *)
Definition edit_fn (r : nat) (e : edit) (w : world) : world :=
  let f := w_f w r in
  match apply_edit e (f_terms f) with
  | None => w
  | Some l => let w := on_fn r (mkFn l (f_owner f)) w in if announces e then notify (f_owner f) w else w
  end.
(** helper: the members of a list up to the first that is not a LinearComponent_C (linear.pyx 778-782). *)
Fixpoint good (l : list (option comp)) : list comp := match l with Some c :: r => c :: good r | _ => [] end.
(** helper: are all members LinearComponent_C (linear.pyx 779)? *)
Definition all_good (l : list (option comp)) : bool := forallb (fun x => match x with Some _ => true | None => false end) l.
(** DictOfLinearFunction_C.__init__ (linear.pyx 1335-1341): new objects, which know no model; stops at a bad value. *)
Fixpoint make_fns (l : list (Z * list (option comp))) (w : world) : world * list (Z * nat) * bool :=
  match l with
  | [] => (w, [], true)
  | (k, x) :: r =>
    if all_good x then
      let (w, n) := new_fn (mkFn (good x) None) w in
      let '(w, d, ok) := make_fns r w in (w, (k, n) :: d, ok)
    else (w, [], false)
  end.
(** helper: equality of settings (controller.pyx 1084, 1108, 1136, 1194, 1243). *)
Definition str_eq : forall a b : option string, {a = b} + {a <> b}.
Proof. decide equality. apply string_dec. Defined.
(** helper: equality of dicts, in order (controller.pyx 1108, 1243); Python ignores the order, which makes no difference to a
    dict that is only looked up by key. *)
Definition map_eq : forall a b : option (list (Z * string)), {a = b} + {a <> b}.
Proof. decide equality. apply list_eq_dec. decide equality; [apply string_dec|apply Z.eq_dec]. Defined.
(** helper: DataFrame.equals (parameter_frame.pyx 186). *)
Definition frame_eq : forall a b : list (string * R), {a = b} + {a <> b}.
Proof. apply list_eq_dec. decide equality; [apply Req_EM_T|apply string_dec]. Defined.
(** helper: the value of a row (parameter_frame.pyx 379). *)
Definition set_row (n : string) (v : R) (fr : list (string * R)) : list (string * R) :=
  map (fun r => if string_dec (fst r) n then (n, v) else r) fr.
(** helper: is the name in the frame's index (parameter_frame.pyx 363)? *)
Definition has_row (n : string) (fr : list (string * R)) : bool := existsb (String.eqb n) (map fst fr).
(** link_model (constraints.py 61-67, 235-238, 328-330): positions in the frame of the moment; [None] is a KeyError. *)
Definition link (c : con) (fr : list (string * R)) : option con :=
  match all_some (map (fun n => index_of n (map fst fr)) (k_names c)) with
  | Some l => Some (mkCon (k_names c) l (k_fun c))
  | None => None
  end.
(** pandas.merge of the old frame and the new names (model.py 774-777). *)
Definition overlay (old new : list (string * R)) : list (string * R) :=
  map (fun r => match find (fun o => String.eqb (fst o) (fst r)) old with Some o => (fst r, snd o) | None => r end) new.

(** What a user can do to a model [i]; lines with each (linear.pyx 809-826 and so on). *)
Inductive op :=
| OSetFn (i : nat) (q : bool) (l : list (option comp))        (* m.utility_ca = l, or m.quantity_ca = l: linear.pyx 809-826 *)
| OSetCo (i : nat) (l : list (Z * list (option comp)))        (* m.utility_co = {...}: linear.pyx 1374-1389 *)
| OSetItem (i : nat) (k : Z) (l : list (option comp))         (* m.utility_co[k] = [...]: linear.pyx 1415-1430 *)
| ODelItem (i : nat) (k : Z)                                  (* del m.utility_co[k]: linear.pyx 1432-1434 *)
| OStore (i : nat) (k : Z) (j : nat) (p : path)               (* m.utility_co[k] = another function: linear.pyx 1415-1430 *)
| OEdit (i : nat) (p : path) (e : edit)                       (* m.utility_co[k].append(...), ... *)
| OEditHeld (i : nat) (k : Z) (e : edit)                      (* on a member of m.utility_co.values(): linear.pyx 1445-1449 *)
| OQscale (i : nat) (s : option string)                       (* controller.pyx 372-388 *)
| OLogsum (i : nat) (s : option string)                       (* controller.pyx 396-403 *)
| OChCa (i : nat) (s : option string)                         (* controller.pyx 1080-1090 *)
| OChCo (i : nat) (l : option (list (Z * string)))            (* controller.pyx 1105-1119 *)
| OChCoDel (i : nat)                                          (* controller.pyx 1121-1123 *)
| OChCode (i : nat) (s : option string)                       (* controller.pyx 1133-1147 *)
| OChCodeDel (i : nat)                                        (* controller.pyx 1149-1153 *)
| OChAny (i : nat) (b : bool)                                 (* controller.pyx 1162-1170 *)
| OWeight (i : nat) (s : option string)                       (* controller.pyx 1181-1183 *)
| OAvCa (i : nat) (s : option string)                         (* controller.pyx 1190-1198 *)
| OAvCo (i : nat) (l : list (Z * string))                     (* controller.pyx 1238-1247 *)
| OAvAny (i : nat)                                            (* controller.pyx 1258-1262 *)
| ODictCh (i : nat) (l : list (Z * string))                   (* m.choice_co_vars[k] = ...: a plain dict, controller.pyx 1095 *)
| ODictAv (i : nat) (l : list (Z * string))                   (* m.availability_co_vars[k] = ...: controller.pyx 1225 *)
| OGraph (i : nat) (g : graph)                                (* m.graph = g, or an edit by its methods: tree.py 36-44, 129-147 *)
| ONodeAttr (i : nat) (g : graph)                             (* m.graph.nodes[c]['parameter'] = ...: networkx, tree.py 10 *)
| OType (i : nat) (b : bool)                                  (* numba/model.py 2080-2084 *)
| OTree (i : nat) (t : option nat)                            (* numba/model.py 2003-2021 *)
| OTreeEdit (t : nat) (x : tree)                              (* the data of a tree changed in place: numba/model.py 1995 *)
| OConAdd (i : nat) (c : con)                                 (* m.constraints.append(c): constraints.py 488-500 *)
| OConDel (i : nat) (n : nat)                                 (* del m.constraints[n]: constraints.py 479-484 *)
| OSetValue (i : nat) (n : string) (v : R)                    (* set_value: parameter_frame.pyx 336-392 *)
| OSetFrame (i : nat) (fr : list (string * R))                (* set_frame: parameter_frame.pyx 172-188 *)
| OPfSort (i : nat)                                           (* pf_sort: parameter_frame.pyx 198-209 *)
| ORemoveUnused (i : nat)                                     (* remove_unused_parameters: model.py 757-777 *)
| OUnmangle (i : nat) (force : bool)                          (* m.unmangle(force), m.pf, m.pvals *)
| OSetDataset (i : nat) (d : dset)                            (* m.dataset = d: numba/model.py 2033-2045 *)
| ODelDataset (i : nat)                                       (* del m.dataset: numba/model.py 2047-2050 *)
| OEval (i : nat).                                            (* loglike and the rest: numba/model.py 1193-1238 *)

(** helper: a setter that tells the model only if [b] (controller.pyx 1084). *)
Definition mangle_if (b : bool) (m : mst) : mst := if b then mangle m else m.
(** helper: are they different? *)
Definition differ {A} {a b : A} (d : {a = b} + {a <> b}) : bool := if d then false else true.
(** One operation other than evaluation; the lines are those given with [op] (linear.pyx 809-826 and so on).  An exception leaves what was done before
    it. *)
Definition act (o : op) (w : world) : world :=
  match o with
  | OSetFn i q l =>
    let r := if q then m_qca (w_m w i) else m_uca (w_m w i) in
    let f := w_f w r in
    let w := on_fn r (mkFn (good l) (f_owner f)) w in
    if all_good l then notify (f_owner f) w else w
  | OSetCo i l =>
    let '(w, d, ok) := make_fns l w in
    on i (fun m => mangle_if ok (set_uco (fold_left (fun a kr => put_fn a (fst kr) (snd kr)) d []) m)) w
  | OSetItem i k l =>
    if all_good l then
      let (w, r) := new_fn (mkFn (good l) (Some i)) w in
      on i (fun m => mangle (set_uco (put_fn (m_uco m) k r) m)) w
    else w
  | ODelItem i k =>
    match find_fn (m_uco (w_m w i)) k with
    | None => w
    | Some _ => on i (fun m => mangle (set_uco (filter (fun kr => negb (fst kr =? k)%Z) (m_uco m)) m)) w
    end
  | OStore i k j p =>
    let (w, r) := access j p w in
    let w := on_fn r (mkFn (f_terms (w_f w r)) (Some i)) w in
    on i (fun m => mangle (set_uco (put_fn (m_uco m) k r) m)) w
  | OEdit i p e => let (w, r) := access i p w in edit_fn r e w
  | OEditHeld i k e => match find_fn (m_uco (w_m w i)) k with Some r => edit_fn r e w | None => w end
  | OQscale i s => on i (fun m => mangle (set_scale s (m_ls m) m)) w
  | OLogsum i s => on i (fun m => mangle (set_scale (m_qs m) s m)) w
  | OChCa i s =>
    on i (fun m => mangle_if (differ (str_eq (m_cca m) s))
           (match s with
            | None => set_choice s (m_cco m) (m_ccode m) (m_cany m) m
            | Some _ => set_choice s None None false m
            end)) w
  | OChCo i l =>
    on i (fun m => mangle_if (differ (map_eq (m_cco m) l))
           (match l with
            | None => set_choice (m_cca m) l (m_ccode m) (m_cany m) m
            | Some _ => set_choice None l None false m
            end)) w
  | OChCoDel i => on i (fun m => set_choice (m_cca m) None (m_ccode m) (m_cany m) m) w
  | OChCode i s =>
    on i (fun m => mangle_if (differ (str_eq (m_ccode m) s))
           (match s with
            | None => set_choice (m_cca m) (m_cco m) s (m_cany m) m
            | Some _ => set_choice None None s false m
            end)) w
  | OChCodeDel i =>
    on i (fun m => mangle_if (differ (str_eq (m_ccode m) None)) (set_choice (m_cca m) (m_cco m) None (m_cany m) m)) w
  | OChAny i b =>
    on i (fun m => if b then set_choice None None None true m else set_choice (m_cca m) (m_cco m) (m_ccode m) false m) w
  | OWeight i s => on i (set_wt s) w
  | OAvCa i s => on i (fun m => mangle_if (differ (str_eq (m_av m) s)) (set_avail s None false m)) w
  | OAvCo i l => on i (fun m => mangle_if (differ (map_eq (m_avco m) (Some l))) (set_avail None (Some l) false m)) w
  | OAvAny i => on i (set_avail None None true) w
  | ODictCh i l =>
    on i (fun m => match m_cco m with Some _ => set_choice (m_cca m) (Some l) (m_ccode m) (m_cany m) m | None => m end) w
  | ODictAv i l =>
    on i (fun m => match m_avco m with Some _ => set_avail (m_av m) (Some l) (m_avany m) m | None => m end) w
  | OGraph i g => on i (fun m => mangle (set_place g (m_type m) (m_tree m) m)) w
  | ONodeAttr i g => on i (fun m => set_place g (m_type m) (m_tree m) m) w
  | OType i b => on i (fun m => mangle_if (negb (Bool.eqb (m_type m) b)) (set_place (m_graph m) b (m_tree m) m)) w
  | OTree i t =>
    on i (fun m => if match m_tree m, t with Some a, Some b => (a =? b)%nat | None, None => true | _, _ => false end then m
                   else mangle (set_place (m_graph m) (m_type m) t m)) w
  | OTreeEdit t x => mkWorld (w_f w) (w_next w) (w_m w) (put (w_t w) t x)
  | OConAdd i c =>
    on i (fun m => let m := mangle m in
                   match link c (m_frame m) with
                   | Some c' => set_pars (m_frame m) (m_cons m ++ [c']) m
                   | None => set_pars (m_frame m) (m_cons m ++ [c]) m
                   end) w
  | OConDel i n =>
    if (n <? length (m_cons (w_m w i)))%nat then
      on i (fun m => mangle (set_pars (m_frame m) (firstn n (m_cons m) ++ skipn (S n) (m_cons m)) m)) w
    else w
  | OSetValue i n v =>
    let (w, ok) := if has_row n (m_frame (w_m w i)) then (w, true) else unmangle i false w in
    if ok then
      on i (fun m => set_pars (if has_row n (m_frame m) then set_row n v (m_frame m) else m_frame m ++ [(n, v)]) (m_cons m) m) w
    else w
  | OSetFrame i fr => on i (fun m => if frame_eq (m_frame m) fr then m else mangle (set_pars fr (m_cons m) m)) w
  | OPfSort i =>
    let (w, ok) := unmangle i false w in
    if ok then fst (unmangle i true (on i (fun m => set_pars (sort_by fst (m_frame m)) (m_cons m) m) w)) else w
  | ORemoveUnused i =>
    let (w, ok) := unmangle i true w in
    if ok then
      let old := m_frame (w_m w i) in
      let (w, ok) := unmangle i true (on i (fun m => set_pars [] (m_cons m) m) w) in
      if ok then on i (fun m => set_pars (overlay old (m_frame m)) (m_cons m) m) w else w
    else w
  | OUnmangle i force => fst (unmangle i force w)
  | OSetDataset i d => on i (fun m => set_built (m_mangled m) (Some d) None (m_fix m) (m_cf m) (m_flows m) m) w
  | ODelDataset i => on i (fun m => set_built (m_mangled m) None None (m_fix m) (m_cf m) (m_flows m) m) w
  | OEval i => fst (eval i w)
  end.
(** A session: operations one after the other (numba/model.py 1193-1238). *)
Definition run (ops : list op) (w : world) : world := fold_left (fun w o => act o w) ops w.
(** helper: a new model: nothing compiled, its two functions owned by it (numba/model.py 902-916, linear.pyx 789-793). *)
Definition new_model (i uca qca : nat) (g : graph) : mst :=
  mkM uca qca [] None None None None None false None None None false g false None [] [] true None None None None None.
