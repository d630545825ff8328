(** SPEC vocabulary for the choice and availability summary (C71). *)
From Coq Require Import ZArith.
From Verif Require Export SumModel LogitSpec.

(** The cell of a column at a label: [Some v] when the table has that column and row. *)
Definition column_of (t : summary) (c : sum_col) : option sum_column :=
  find (fun x => match sc_name x, c with
    | Chosen, Chosen | Available, Available | ChosenW, ChosenW | ChosenU, ChosenU
    | AvailableW, AvailableW | AvailableU, AvailableU | But, But | ButW, ButW | ButU, ButU => true
    | _, _ => false end) (sm_columns t).
(** The rows of a column, and what a row says. *)
Definition shows (t : summary) (c : sum_col) (label : Z) (v : R) : Prop :=
  exists col, column_of t c = Some col /\ In (label, Some v) (sc_cells col).
Definition labels_of (t : summary) (c : sum_col) : list Z :=
  match column_of t c with Some col => map fst (sc_cells col) | None => nil end.
(** What the total row says of a column. *)
Definition total_shows (t : summary) (c : sum_col) (v : R) : Prop := In (c, Some v) (sm_total t).

(** How often the set [S] of alternatives was chosen, in all cases. *)
Definition times_chosen (ch : list (nat -> R)) (alts : list nat) : R :=
  Rsum (fun row : nat -> R => Rsum row alts) ch.
(** In how many cases some alternative of [S] was available. *)
Definition cases_available (av : list (nat -> bool)) (alts : list nat) : R :=
  INR (length (filter (fun row : nat -> bool => existsb row alts) av)).
(** How often alternative [a] was chosen when it was not available. *)
Definition chosen_unavailable (ch : list (nat -> R)) (av : list (nat -> bool)) (a : nat) : R :=
  Rsum (fun p : (nat -> R) * (nat -> bool) => if snd p a then 0 else fst p a) (combine ch av).
