(** SPEC for utilities: the textbook formulas. *)
From Verif Require Export UtilityModel LogitSpec.

(** Sum over the idca terms of scale * data * parameter. *)
Definition linear_ca (terms : list term) (x : nat -> R) (par : nat -> R) : R :=
  Rsum (fun t => t_scale t * x (t_data t) * par (t_par t)) terms.
(** Sum over the idco terms of alternative [a] (a term without data has data 1). *)
Definition co_value (co : nat -> R) (t : coterm) : R :=
  c_scale t * match c_data t with Some d => co d | None => 1 end.
Definition linear_co (terms : list coterm) (a : nat) (co : nat -> R) (par : nat -> R) : R :=
  Rsum (fun t => if (c_alt t =? a)%nat then co_value co t * par (c_par t) else 0) terms.
(** Coefficient of parameter [p] in these sums. *)
Definition coef_ca (terms : list term) (x : nat -> R) (p : nat) : R :=
  Rsum (fun t => if (t_par t =? p)%nat then t_scale t * x (t_data t) else 0) terms.
Definition coef_co (terms : list coterm) (a : nat) (co : nat -> R) (p : nat) : R :=
  Rsum (fun t => if (c_alt t =? a)%nat then if (c_par t =? p)%nat then co_value co t else 0 else 0) terms.
(** Size: sum of scale * data * exp(parameter); its contribution theta*log(size), 0 without
    quantity terms. *)
Definition size (q : list term) (x : nat -> R) (par : nat -> R) : R :=
  Rsum (fun t => t_scale t * x (t_data t) * exp (par (t_par t))) q.
Definition log_size (q : list term) (qs : option nat) (x : nat -> R) (par : nat -> R) : R :=
  match q with
  | [] => 0
  | _ => match qs with Some s => par s | None => 1 end * ln (size q x par)
  end.
(** Total utility of an available alternative with idca data row [x]. *)
Definition total_utility q qs ca co (a : nat) (x : nat -> R) (co_data : nat -> R) (par : nat -> R) : R :=
  log_size q qs x par + linear_ca ca x par + linear_co co a co_data par.
(** Rows of one case in sparse form: strictly increasing alternative positions. *)
Fixpoint sorted_rows (lo na : nat) (rows : list (nat * (nat -> R))) : Prop :=
  match rows with
  | [] => True
  | r :: rest => (lo <= fst r < na)%nat /\ sorted_rows (S (fst r)) na rest
  end.
