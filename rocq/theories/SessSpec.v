(** SPEC: what the evaluation methods of a numba model should answer, with no work arrays in sight.  The answer to a
    question depends on the parameter values, the penalty intensity and the cases asked about; not on what was asked
    before. *)
From Verif Require Export SessModel UtilitySpec LogitSpec.

(** The likelihood computation for one case, on its own (the subject of C01-C13). *)
Definition one (m : nmodel) (par : nat -> R) (i : nat) : result :=
  let x := m_x m in let c := m_case m i in
  master (x_st x) par (x_hold x) (x_q x) (x_qs x) (x_ca x) (x_co x) (dc_av c) (dc_data c) (dc_co c) (dc_ch c) (dc_wt c)
    (fun _ => None) (fun _ => 0).
(** Penalty and its derivative, nothing at zero intensity. *)
Definition pen_of (m : nmodel) (k : R) (par : nat -> R) : R := if Req_EM_T k 0 then 0 else fst (fst (m_pen m k par)).
Definition dpen_of (m : nmodel) (k : R) (par : nat -> R) (p : nat) : R :=
  if Req_EM_T k 0 then 0 else snd (fst (m_pen m k par)) p.
Definition dbind_of (m : nmodel) (k : R) (par : nat -> R) (p : nat) : R :=
  if Req_EM_T k 0 then 0 else snd (m_pen m k par) p.

(** Sum of numbers of which some may be minus infinity. *)
Definition is_fin (x : option R) : bool := match x with Some _ => true | None => false end.
Definition sum_all (l : list (option R)) : option R := if forallb is_fin l then Some (Rsum val l) else None.
Definition total (f : nat -> option R) (l : list nat) : option R := sum_all (map f l).

(** Contribution of one case to the log likelihood, to its gradient and to the bhhh matrix. *)
Definition case_ll (m : nmodel) (k : R) (par : nat -> R) (i : nat) : option R :=
  match r_loglike (one m par i) with Some v => Some (v + pen_of m k par) | None => None end.
Definition case_dll (m : nmodel) (d : nat -> R) (par : nat -> R) (i p : nat) : R := r_dloglike (one m par i) p + d p.
Definition case_bhhh (m : nmodel) (k : R) (d : nat -> R) (par : nat -> R) (i p q : nat) : R :=
  if Req_EM_T k 0 then r_bhhh (one m par i) p q else case_dll m d par i p * case_dll m d par i q.

(** The answer to a question about the cases [idx]. *)
Definition answer (m : nmodel) (k : R) (par : nat -> R) (q : query) (idx : list nat) : seen :=
  let c := m_norm m in
  let st := x_st (m_x m) in
  let d := dpen_of m k par in
  let ll := scale_o c (total (case_ll m k par) idx) in
  let dll := fun p => c * Rsum (fun i => case_dll m d par i p) idx in
  let bh := fun p r => c * Rsum (fun i => case_bhhh m k d par i p r) idx in
  let utils := fun cols => STable (map (fun i => map (fun a => r_utility (one m par i) a) cols) idx) in
  match q with
  | Qll => SNum ll
  | Qdll => SVec dll
  | Qll_casewise => SNums (map (fun i => scale_o c (case_ll m k par i)) idx)
  | Qdll_casewise => SVecs (map (fun i p => c * case_dll m d par i p) idx)
  | Qbhhh => SMat bh
  | Qprob nests => STable (map (fun i => map (fun a => Some (r_prob (one m par i) a))
                                             (seq 0 (if nests then n_nodes st else n_alts st))) idx)
  | Qutil => utils (seq 0 (n_nodes st))
  | Qlogsums => utils [(n_nodes st - 1)%nat]
  | Qquant => STable (map (fun i => map (quantity_values (m_x m) par (m_case m i)) (seq 0 (n_nodes st))) idx)
  | Qll2 _ _ _ => SLl2 ll dll
  | Qll2_bhhh _ _ _ => SLl2b ll dll bh (pen_of m k par)
  end.
Definition tol_answer (m : nmodel) (k : R) (par : nat -> R) : seen :=
  let idx := seq 0 (m_n m) in
  let d := dbind_of m k par in
  SLl2b (total (case_ll m k par) idx) (fun p => Rsum (fun i => case_dll m d par i p) idx)
        (fun p q => Rsum (fun i => case_bhhh m k d par i p q) idx) 0.

(** The values after an operation, and the intensity. *)
Definition par_after (par : nat -> R) (o : op) : nat -> R :=
  match o with
  | OSet v | OTolerance (Some v) | OCall _ (Some v) _ => v
  | _ => par
  end.
Definition int_after (k : R) (o : op) : R := match o with OIntensity k' => k' | _ => k end.
(** What one operation shows. *)
Definition expected_one (m : nmodel) (par : nat -> R) (k : R) (o : op) : seen :=
  match o with
  | OTolerance _ => tol_answer m k (par_after par o)
  | OCall q _ sl => match positions (m_n m) sl with
                    | Some idx => answer m k (par_after par o) q idx
                    | None => SNothing
                    end
  | _ => SNothing
  end.
Fixpoint expected (m : nmodel) (par : nat -> R) (k : R) (ops : list op) : list seen :=
  match ops with
  | [] => []
  | o :: r => expected_one m par k o :: expected m (par_after par o) (int_after k o) r
  end.

(** ** Slices *)
(** One end of a slice, forwards: negative values count from the end, and everything is limited to the array. *)
Definition limit (n : nat) (v : Z) : Z := Z.max 0 (Z.min (Z.of_nat n) (if (v <? 0)%Z then v + Z.of_nat n else v)).
(** Position [i] is selected by a slice with positive step. *)
Definition selected (n : nat) (s : pyslice) (i : nat) : Prop :=
  let a := match s_start s with Some v => limit n v | None => 0%Z end in
  let b := match s_stop s with Some v => limit n v | None => Z.of_nat n end in
  let step := match s_step s with Some z => z | None => 1%Z end in
  (a <= Z.of_nat i < b /\ (Z.of_nat i - a) mod step = 0)%Z.
