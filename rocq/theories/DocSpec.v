(** Specification of the doctor: what a problem is, cell by cell. *)
From Verif Require Export DocModel.
Open Scope R_scope.

Definition shape {A} (n w : nat) (arr : list (list A)) : Prop := length arr = n /\ forall r, In r arr -> length r = w.
Definition at_ {A} (dft : A) (arr : list (list A)) (i j : nat) : A := nth j (nth i arr []) dft.
Definition ch_at (d : dd) (i j : nat) : R := at_ 0 (d_ch (base d)) i j.
Definition av_at (d : dd) (i j : nat) : Z := at_ 0%Z (av d) i j.
Definition wt_at (d : dd) (i : nat) : option R := match d_wt (base d) with Some wt => nth i wt None | None => Some 1 end.
(** [n] cases and [w] alternatives in the choices, the availability and the weights. *)
Record well_shaped (n w : nat) (d : dd) : Prop := {
  ws_ch : shape n w (d_ch (base d));
  ws_av : shape n w (av d);
  ws_n : d_n (base d) = n;
  ws_wt : forall wt, d_wt (base d) = Some wt -> length wt = n }.
Definition nonneg_choices (d : dd) : Prop := forall r x, In r (d_ch (base d)) -> In x r -> 0 <= x.
(** Alternative [j] of case [i] is chosen but unavailable. *)
Definition bad_av (w : nat) (d : dd) (i j : nat) : Prop :=
  (i < length (d_ch (base d)))%nat /\ (j < w)%nat /\ av_at d i j = 0%Z /\ 0 < ch_at d i j.
(** Alternative [j] of case [i] is available and chosen, although every quantity is zero. *)
Definition bad_zq (w : nat) (d : dd) (i j : nat) : Prop :=
  (i < length (d_ch (base d)))%nat /\ (j < w)%nat /\ (0 < av_at d i j)%Z /\ 0 < ch_at d i j /\ has_row d i j = true /\
  exists q, qty d = Some q /\ forall x, In x (q i j) -> x = Some 0.
(** Case [i] has no choice but a positive weight. *)
Definition nothing_chosen (d : dd) (i : nat) : Prop := forall j, ch_at d i j = 0.
Definition bad_wt (d : dd) (i : nat) : Prop :=
  (i < length (d_ch (base d)))%nat /\ nothing_chosen d i /\ exists wt w, d_wt (base d) = Some wt /\ nth i wt None = Some w /\ 0 < w.
Definition bad_nanwt (d : dd) (i : nat) : Prop := exists wt, d_wt (base d) = Some wt /\ (i < length wt)%nat /\ nth i wt None = None.
(** A diagnosis lists exactly the alternatives with a problem, with the number of cases and the first
    [verbose] of them. *)
Definition lists_problems (verbose w n : nat) (bad : nat -> nat -> Prop) (diag : option diagnosis) : Prop :=
  match diag with
  | None => forall i j, ~ bad i j
  | Some L =>
    (exists i j, bad i j) /\
    forall j k ex, In (j, k, ex) L <->
      (j < w)%nat /\ k <> 0%nat /\ exists rows, (forall i, In i rows <-> (i < n)%nat /\ bad i j) /\ NoDup rows /\
        (forall a b, (a < b < length rows)%nat -> (nth a rows 0 < nth b rows 0)%nat) /\ k = length rows /\ ex = firstn verbose rows
  end.
Definition lists_rows (verbose n : nat) (bad : nat -> Prop) (diag : option (nat * list nat)) : Prop :=
  match diag with
  | None => forall i, ~ bad i
  | Some (k, ex) => k <> 0%nat /\ exists rows, (forall i, In i rows <-> (i < n)%nat /\ bad i) /\ NoDup rows /\
      (forall a b, (a < b < length rows)%nat -> (nth a rows 0 < nth b rows 0)%nat) /\ k = length rows /\ ex = firstn verbose rows
  end.
(** A case data cell is NaN. *)
Definition bad_nanco (d : dd) (i j : nat) : Prop := exists rows, co d = Some rows /\ (i < length rows)%nat /\ at_ (Some 0) rows i j = None.
Definition co_shaped (d : dd) : Prop := forall rows, co d = Some rows -> exists k, shape (length rows) k rows.
(** Case [i] has a positive weight but no choice that the requested repairs leave. *)
Definition no_choice_left (r : repairs) (w : nat) (d : dd) (i : nat) : Prop :=
  (i < length (d_ch (base d)))%nat /\
  (forall j, 0 < ch_at d i j -> (ch_zq r = Minus /\ bad_zq w d i j) \/ (ch_av r = Minus /\ bad_av w d i j)) /\
  exists wt v, d_wt (base d) = Some wt /\ nth i wt None = Some v /\ 0 < v.
(** The data have none of the problems. *)
Definition healthy (w : nat) (d : dd) : Prop :=
  (forall i j, ~ bad_zq w d i j) /\ (forall i j, ~ bad_av w d i j) /\ (forall i, ~ bad_wt d i) /\
  (forall i, ~ bad_nanwt d i) /\ (forall i j, ~ bad_nanco d i j).
Definition no_problems : problems := mkProblems None None None None None.
(** Node [a] lies below node [j] (or is it), where [preds] lists the parents of each node. *)
Inductive lies_below (preds : nat -> list nat) (a : nat) : nat -> Prop :=
| lb_refl : lies_below preds a a
| lb_step b j : lies_below preds a b -> In j (preds b) -> lies_below preds a j.
(** The (node, parent) pairs in the order of the loops of data_av_cascade: nodes in slot order. *)
Definition all_edges (preds : nat -> list nat) (N : nat) : list (nat * nat) :=
  flat_map (fun dn => map (pair dn) (preds dn)) (seq 0 N).
