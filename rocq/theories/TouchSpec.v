(** What an evaluation of a model should work on, said in terms of the model's present settings only: every parameter by
    its name, every variable by its expression on the present data.  Nothing here mentions compiled arrays, positions or
    prepared flows, except [clear], which says that the names of prepared flows tell them apart.
    The settings are those of larch/numba/model.py 1193-1238. *)
From Verif Require Import TouchModel.
Open Scope string_scope.
Open Scope list_scope.

(** Is the parameter named by a term of a utility or quantity function (controller.pyx 292-331)? *)
Definition in_utility (w : world) (m : mst) (n : string) : bool :=
  existsb (fun c => String.eqb (c_par c) n)
    (f_terms (w_f w (m_uca m)) ++ f_terms (w_f w (m_qca m)) ++ flat_map (fun kr => f_terms (w_f w (snd kr))) (m_uco m)).
(** Is it the parameter of a nest, the quantity scale of a model with quantities, or the logsum parameter
    (numba/model.py 1160-1178)?  A nest with no parameter counts as using one named "None". *)
Definition in_scale (w : world) (m : mst) (n : string) : bool :=
  existsb (fun x => String.eqb (match snd x with Some p => p | None => "None" end) n) (g_nests (m_graph m))
  || match f_terms (w_f w (m_qca m)), m_qs m with _ :: _, Some s => String.eqb s n | _, _ => false end
  || match m_ls m with Some s => String.eqb s n | None => false end.
(** The row of a name in the parameter frame (parameter_frame.pyx 379). *)
Definition row (fr : list (string * R)) (n : string) : option R :=
  match find (fun r => String.eqb (fst r) n) fr with Some r => Some (snd r) | None => None end.
(** The value of a parameter: what the user has set, and otherwise the initial value, 0 in a utility function and 1 for a
    logsum parameter or scale (controller.pyx 286-331, numba/model.py 1160-1192). *)
Definition named (w : world) (m : mst) (n : string) : option R :=
  match row (m_frame m) n with
  | Some v => Some v
  | None => if in_utility w m n then Some 0%R else if in_scale w m n then Some 1%R else None
  end.
(** A setting that is a non-empty text (model.py 690-706). *)
Definition text (s : option string) : option string :=
  match s with Some x => if String.eqb x "" then None else Some x | None => None end.
(** A setting that is a non-empty dict (model.py 692-705). *)
Definition dict (l : option (list (Z * string))) : option (list (Z * string)) :=
  match l with Some (_ :: _) => l | _ => None end.
(** The alternatives: those of the data, and otherwise those of the graph (data_arrays.py 113-121). *)
Definition alternatives (m : mst) (t : tree) : list Z := match t_alts t with Some l => l | None => g_alts (m_graph m) end.
(** The choices on the data (model.py 690-697, data_arrays.py 161-236); [None]: none, or not to be had. *)
Definition chosen (m : mst) (t : tree) : option chd :=
  match text (m_cca m) with
  | Some v => Some (ChTable (t_col t v))
  | None =>
    match dict (m_cco m) with
    | Some l => if forallb (fun a => existsb (fun kv => (fst kv =? a)%Z) l) (alternatives m t)
                then Some (ChCols (map (fun a => match find (fun kv => (fst kv =? a)%Z) l with
                                                 | Some kv => t_col t (snd kv) | None => t_col t "" end) (alternatives m t)))
                else None
    | None => match text (m_ccode m) with Some v => Some (ChCode (t_col t v)) | None => None end
    end
  end.
(** The weights on the data (model.py 699-700, data_arrays.py 238-272). *)
Definition weighted (m : mst) (t : tree) : option col := match text (m_wt m) with Some v => Some (t_col t v) | None => None end.
(** The availability on the data (model.py 702-707, data_arrays.py 275-357): an alternative not in the dict is never
    available. *)
Definition available (m : mst) (t : tree) : option avd :=
  match text (m_av m) with
  | Some v => Some (AvTable (t_col t v))
  | None =>
    match dict (m_avco m) with
    | Some l => Some (AvCols (map (fun a => (a, match find (fun kv => (fst kv =? a)%Z) l with
                                                | Some kv => t_col t (snd kv) | None => t_col t "0" end)) (alternatives m t)))
    | None => None
    end
  end.
(** "Any" availability, and nothing else, asks for what numba models do not have (data_arrays.py 352-357). *)
Definition any_available (m : mst) : bool :=
  match text (m_av m), dict (m_avco m) with None, None => m_avany m | _, _ => false end.
(** The place of an alternative in a list (numba/model.py 805). *)
Fixpoint place (k : Z) (l : list Z) : nat := match l with [] => 0 | x :: r => if (x =? k)%Z then 0 else S (place k r) end.

(** What the likelihood should be computed from, for model [i] as it is now (numba/model.py 1193-1238), constraints aside;
    [None] if it cannot be: no data, no choice, a utility function for something that is no alternative, or a quantity scale
    that is no parameter. *)
Definition wanted (w : world) (i : nat) : option given :=
  let m := w_m w i in
  match m_tree m with
  | None => None
  | Some t =>
    let t := w_t w t in
    let by_name c := (c_scale c, named w m (c_par c), Some (t_col t (c_data c))) in
    match chosen m t with
    | None => None
    | Some ch =>
      if any_available m then None
      else if negb (forallb (fun kr => existsb (fun a => (a =? fst kr)%Z) (alternatives m t)) (m_uco m)) then None
      else if match text (m_qs m) with Some s => match named w m s with None => true | Some _ => false end | None => false end then None
      else Some (mkGiven
        (map by_name (f_terms (w_f w (m_uca m)))) (map by_name (f_terms (w_f w (m_qca m))))
        (match text (m_qs m) with Some s => Some (named w m s) | None => None end)
        (flat_map (fun kr => map (fun c => (place (fst kr) (alternatives m t), c_scale c, named w m (c_par c),
                                            if String.eqb (c_data c) "1" then None else Some (Some (t_col t (c_data c)))))
                                 (f_terms (w_f w (snd kr)))) (m_uco m))
        (map (fun n => match snd n with Some p => Some (named w m p) | None => None end) (g_nests (m_graph m)))
        (g_edges (m_graph m)) (Some ch) (weighted m t) (available m t) (m_graph m) (m_type m) [])
    end
  end.
(** An answer without its constraint terms (numba/model.py 736-760), which are treated apart. *)
Definition strip (g : given) : given :=
  mkGiven (v_ca g) (v_q g) (v_qs g) (v_co g) (v_mu g) (v_edges g) (v_ch g) (v_wt g) (v_av g) (v_graph g) (v_type g) [].
(** The answer of model [i] (numba/model.py 1193-1238). *)
Definition answer (w : world) (i : nat) : option given := option_map strip (snd (eval i w)).

(** The expressions asked of a prepared flow: its tag and its definitions (data_arrays.py 132-357). *)
Definition asked (w : world) (m : mst) (t : tree) (key : string) : option (string * list (string * string)) :=
  let self v := (v, v) in
  if String.eqb key "co" then option_map (fun l => ("co", map self l)) (need_co w m)
  else if String.eqb key "ca" then option_map (fun l => ("ca", map self l)) (need_ca w m)
  else if String.eqb key "choice_ca" then match text (m_cca m) with Some v => if t_var t v then None else Some ("ch", [self v]) | None => None end
  else if String.eqb key "weight_co" then option_map (fun v => ("wt", [self v])) (text (m_wt m))
  else if String.eqb key "avail_ca" then match text (m_av m) with Some v => if t_var t v then None else Some ("av", [self v]) | None => None end
  else if String.eqb key "avail_co" then
    match text (m_av m), dict (m_avco m) with
    | None, Some l =>
      Some ("av", map (fun a => (code_text a, match find (fun kv => (fst kv =? a)%Z) l with Some kv => snd kv | None => "0" end))
                      (alternatives m t))
    | _, _ => None
    end
  else None.
(** No flow prepared before has the name of what is asked now but other expressions (data_arrays.py 364-374, 398-400,
    538-541). *)
Definition clear (w : world) (i : nat) : Prop :=
  let m := w_m w i in
  forall t fl key tag defs f,
    m_tree m = Some t -> m_flows m = Some fl -> asked w m (w_t w t) key = Some (tag, defs) -> fl key = Some f ->
    fl_name f = flow_name tag defs (t_feat (w_t w t)) -> fl_defs f = defs.
(** Nothing is compiled (numba/model.py 917-926). *)
Definition idle (m : mst) : Prop := m_mangled m = true /\ m_dset m = None /\ m_arr m = None /\ m_fix m = None /\ m_cf m = None.

(** ** Sessions in which every change is heard of *)
(** A session starts with [n] new models, each with two functions of its own (numba/model.py 902-916, linear.pyx 789-793). *)
Definition start (n : nat) (w : world) : Prop :=
  (forall i, (i < n)%nat -> exists g u q, w_m w i = new_model i u q g /\ (u < w_next w)%nat /\ (q < w_next w)%nat /\
     f_owner (w_f w u) = Some i /\ f_owner (w_f w q) = Some i) /\
  (forall i j, (i < n)%nat -> (j < n)%nat -> i <> j ->
     m_uca (w_m w i) <> m_uca (w_m w j) /\ m_uca (w_m w i) <> m_qca (w_m w j) /\ m_qca (w_m w i) <> m_qca (w_m w j)).
(** Does the list of terms given consist of terms (linear.pyx 778-782)? *)
Definition terms_only (l : list (option comp)) : Prop := ~ In None l.
(** Operations that the model hears of; the others are allowed while nothing is compiled.  The lines are those given with
    [op] in the model. *)
Definition heard (n : nat) (w : world) (o : op) : Prop :=
  match o with
  | OSetFn i _ l => (i < n)%nat /\ (terms_only l \/ idle (w_m w i))
  | OSetCo i l => (i < n)%nat /\ ((forall k x, In (k, x) l -> terms_only x) \/ idle (w_m w i))
  | OStore i _ j _ => (i < n)%nat /\ j = i
  | OEdit i p e =>
    (i < n)%nat /\
    (idle (w_m w i) \/
     match e with
     | ERemoveData _ | ERemoveParam _ => False
     | ESetItem _ _ | EDelItem _ => match p with PCo k => In k (map fst (m_uco (w_m w i))) | _ => True end
     | _ => True
     end)
  | OEditHeld i _ _ | OChCoDel i | OChAny i _ | OWeight i _ | OAvAny i | OAvCa i None | ODictCh i _ | ODictAv i _ | ONodeAttr i _ =>
    (i < n)%nat /\ idle (w_m w i)
  | OTreeEdit t _ => forall i, (i < n)%nat -> m_tree (w_m w i) = Some t -> idle (w_m w i)
  | OSetDataset _ _ => False
  | OSetItem i _ _ | ODelItem i _ | OQscale i _ | OLogsum i _ | OChCa i _ | OChCo i _ | OChCode i _ | OChCodeDel i
  | OAvCa i (Some _) | OAvCo i _ | OGraph i _ | OType i _ | OTree i _ | OConAdd i _ | OConDel i _ | OSetValue i _ _
  | OSetFrame i _ | OPfSort i | ORemoveUnused i | OUnmangle i _ | ODelDataset i | OEval i => (i < n)%nat
  end.
(** The same for every operation of a session, each judged when it is done, with no clash of flow names (data_arrays.py
    364-374). *)
Fixpoint heard_run (n : nat) (w : world) (ops : list op) : Prop :=
  (forall i, (i < n)%nat -> clear w i) /\
  match ops with [] => True | o :: r => heard n w o /\ heard_run n (act o w) r end.

(** ** What assignments should leave behind *)
(** The object a path leads to (linear.pyx 795-807, 1402-1413). *)
Definition object (m : mst) (p : path) : option nat :=
  match p with
  | PCa => Some (m_uca m)
  | PQ => Some (m_qca m)
  | PCo k => match find (fun kr => (fst kr =? k)%Z) (m_uco m) with Some kr => Some (snd kr) | None => None end
  end.
(** The terms a user sees there (linear.pyx 840-851). *)
Definition seen (w : world) (i : nat) (p : path) : option (list comp) :=
  match object (w_m w i) p with Some r => Some (f_terms (w_f w r)) | None => None end.
(** All other settings, in groups (controller.pyx 60-95). *)
Definition groups (m : mst) :=
  ((m_qs m, m_ls m), (m_cca m, m_cco m, m_ccode m, m_cany m), m_wt m, (m_av m, m_avco m, m_avany m), (m_graph m, m_type m, m_tree m)).
(** The list after an edit that does not fail (linear.pyx 853-921, 951-965). *)
Definition edited (e : edit) (l l' : list comp) : Prop :=
  match e with
  | EAppend c => l' = l ++ [c]
  | EInsert j c => exists a b, l = a ++ b /\ l' = a ++ c :: b /\ length a = Nat.min j (length l)
  | EExtend x | EIadd x => l' = l ++ x
  | ESetItem j c => exists a b d, l = a ++ d :: b /\ l' = a ++ c :: b /\ length a = j
  | EDelItem j => exists a b d, l = a ++ d :: b /\ l' = a ++ b /\ length a = j
  | ERemoveData d => l' = filter (fun c => if string_dec (c_data c) d then false else true) l
  | ERemoveParam p => l' = filter (fun c => if string_dec (c_par c) p then false else true) l
  end.
(** A constraint's positions are those of its parameters in the frame (constraints.py 61-67). *)
Definition linked (c : con) (fr : list (string * R)) : Prop :=
  Forall2 (fun n p => nth_error (map fst fr) p = Some n) (k_names c) (k_pos c).
(** Is the parameter used by the model (model.py 757-777)? *)
Definition used (w : world) (m : mst) (n : string) : bool := in_utility w m n || in_scale w m n.
(** A change that goes unheard: after a session in which every change was heard, the model's answer is not the one its
    settings ask for (numba/model.py 1193-1238). *)
Definition unheard (o : op) : Prop :=
  exists n w ops, start n w /\ heard_run n w ops /\ let w' := act o (run ops w) in answer w' 0 <> wanted w' 0.
(** Everything but model [i] is as before (parameter_frame.pyx 57-76: other objects of the session). *)
Definition rest_same (i : nat) (w w' : world) : Prop :=
  w_f w' = w_f w /\ w_next w' = w_next w /\ w_t w' = w_t w /\ forall j, j <> i -> w_m w' j = w_m w j.
(** All settings and constraints are as before (controller.pyx 60-95). *)
Definition kept (m m' : mst) : Prop :=
  m_uca m' = m_uca m /\ m_qca m' = m_qca m /\ m_uco m' = m_uco m /\ m_qs m' = m_qs m /\ m_ls m' = m_ls m /\
  m_cca m' = m_cca m /\ m_cco m' = m_cco m /\ m_ccode m' = m_ccode m /\ m_cany m' = m_cany m /\ m_wt m' = m_wt m /\
  m_av m' = m_av m /\ m_avco m' = m_avco m /\ m_avany m' = m_avany m /\ m_graph m' = m_graph m /\ m_type m' = m_type m /\
  m_tree m' = m_tree m /\ m_cons m' = m_cons m.
(** A state that a session leads to (numba/model.py 902-916). *)
Definition session (n : nat) (w : world) : Prop := exists w0 ops, start n w0 /\ heard_run n w0 ops /\ w = run ops w0.
