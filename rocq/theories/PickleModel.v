(** Model of saving and restoring a numba model: [dumps], [pickle.loads], [copy] and [load] (larch/model/model.py 132-188,
    743-759; controller.pyx 98-180, 482-491; larch/numba/model.py 1957-1973; tree.py 492-515), on the models of TouchModel.v.
    Simplifications: pickle, cloudpickle, gzip and base64 are taken to give back what was put in, so what is saved is a
    record of settings; constraint intensity and sharpness, the title, the display order, the last estimation result and
    the cached log likelihoods, also saved, are not part of a model of TouchModel.v; rename_parameters is empty. *)
From Verif Require Import TouchModel.
Open Scope string_scope.
Open Scope list_scope.

(** The state that is saved: controller.pyx 107-132 and numba/model.py 1958-1963.  Functions are saved by their terms.  The
    constraint list, the data tree and the prepared flows are not saved. *)
Record saved := mkSaved {
  s_uca : list comp; s_uco : list (Z * list comp); s_qca : list comp;
  s_qs : option string; s_ls : option string;
  s_cca : option string; s_cco : option (list (Z * string)); s_ccode : option string; s_cany : bool;
  s_wt : option string; s_av : option string; s_avco : option (list (Z * string)); s_avany : bool;
  s_frame : list (string * R); s_type : bool; s_graph : graph }.
(** __getstate__ (numba/model.py 1957-1964, controller.pyx 98-138): [made] says if the model has a graph yet; without one
    [_private__graph] is an AttributeError (1963). *)
Definition dumps (made : bool) (i : nat) (w : world) : option saved :=
  let m := w_m w i in
  if made then
    Some (mkSaved (f_terms (w_f w (m_uca m))) (map (fun kr => (fst kr, f_terms (w_f w (snd kr)))) (m_uco m)) (f_terms (w_f w (m_qca m)))
            (m_qs m) (m_ls m) (m_cca m) (m_cco m) (m_ccode m) (m_cany m) (m_wt m) (m_av m) (m_avco m) (m_avany m)
            (m_frame m) (m_type m) (m_graph m))
  else None.
(** A model as the pickle machinery creates it: no settings, no functions, nothing compiled (__init__ is not called;
    numba/model.py 1966, parameter_frame.pyx 57-76).  The function numbers stand for attributes that are not set yet. *)
Definition blank : mst :=
  mkM 0 0 [] None None None None None false None None None false (mkGraph [] [] []) false None [] [] true None None None None None.
(** utility_ca = ..., utility_co = ..., quantity_ca = ... on such a model (controller.pyx 150-152): fresh functions, the
    first and last told their model (linear.pyx 775-793, 809-826), the entries of utility_co not (1335-1341, 1374-1389). *)
Definition give_functions (s : saved) (j : nat) (w : world) : world :=
  let (w, u) := new_fn (mkFn (s_uca s) (Some j)) w in
  let '(w, d, _) := make_fns (map (fun kx => (fst kx, map Some (snd kx))) (s_uco s)) w in
  let (w, q) := new_fn (mkFn (s_qca s) (Some j)) w in
  on j (fun m => mkM u q d (m_qs m) (m_ls m) (m_cca m) (m_cco m) (m_ccode m) (m_cany m) (m_wt m) (m_av m) (m_avco m) (m_avany m)
                     (m_graph m) (m_type m) (m_tree m) (m_frame m) (m_cons m) (m_mangled m) (m_dset m) (m_arr m) (m_fix m) (m_cf m) (m_flows m)) w.
(** The other attributes (controller.pyx 153-175, numba/model.py 1967-1971): assigned one by one, past the setters. *)
Definition give_settings (s : saved) (m : mst) : mst :=
  set_pars (s_frame s) (m_cons m)
    (set_place (s_graph s) (s_type s) (m_tree m)
       (set_avail (s_av s) (s_avco s) (s_avany s)
          (set_wt (s_wt s)
             (set_choice (s_cca s) (s_cco s) (s_ccode s) (s_cany s)
                (set_scale (s_qs s) (s_ls s) m))))).
(** __setstate__ on a new model [j] (numba/model.py 1966-1972, controller.pyx 140-179): at the end unmangle(True) (177). *)
Definition loads (s : saved) (j : nat) (w : world) : world :=
  let w := on j (fun _ => blank) w in
  let w := give_functions s j w in
  fst (unmangle j true (on j (give_settings s) w)).
(** Model.copy (model.py 743-759): assigning the data service of the original (757) is a TypeError if it has none
    (controller.pyx 486-490); [service] says if it has one.  The boolean is false if there is an exception. *)
Definition copy (made service : bool) (i j : nat) (w : world) : world * bool :=
  match dumps made i w with
  | None => (w, false)
  | Some s => let w := loads s j w in (w, service)
  end.
(** What Model.load can end in (model.py 132-142). *)
Inductive loading := NotFound | FromExcel | TypeMismatch.
(** Model.load (model.py 132-142): a file that is not a workbook is handed to pickle.load by its name (142), which
    needs a file object. *)
Definition load_file (exists_ : bool) (ext : string) : loading :=
  if negb exists_ then NotFound else if String.eqb ext ".xlsx" then FromExcel else TypeMismatch.
