(** What it means for a group of models to add up. *)
From Verif Require Export GroupModel ParamSpec.
From Coquelicot Require Import Coquelicot.
Open Scope list_scope.
Open Scope nat_scope.

(** The value a frame has for a parameter. *)
Definition value_of (f : frame) (n : string) : option num :=
  option_map r_value (find (fun r => String.eqb (r_name r) n) (rows f)).
(** The parameters a model knows: rows of its frame, names its functions use. *)
Definition uses (m : model) (n : string) : Prop :=
  In n (n_util (m_names m)) \/ In n (n_quant (m_names m)) \/ In n (n_logsum (m_names m)).
Definition knows (m : model) (n : string) : Prop := In n (map r_name (rows (m_frame m))) \/ uses m n.
(** The model holds the parameter fast. *)
Definition holds (m : model) (n : string) : Prop :=
  exists r, In r (rows (m_frame m)) /\ r_name r = n /\ ~ free r.
(** A model as the public calls leave it: names are not repeated, holdfast is never missing, and
    unless something changed since the last scan every name used has a row. *)
Definition model_ok (m : model) : Prop :=
  wf (m_frame m) /\
  NoDup (n_util (m_names m)) /\ NoDup (n_quant (m_names m)) /\ NoDup (n_logsum (m_names m)) /\
  (forall r, In r (rows (m_frame m)) -> r_hold r <> None) /\
  (m_mangled m = false -> forall n, uses m n -> In n (map r_name (rows (m_frame m)))).
(** A group whose members are such models; no parameter is named like an argument of [set_values]. *)
Definition group_ok (g : group) : Prop :=
  wf (m_frame (g_model g)) /\ m_names (g_model g) = mkNames [] [] [] /\
  (forall k, In k (g_members g) -> model_ok (k_model k)) /\
  (forall n, In n (map r_name (rows (m_frame (g_model g)))) -> reserved n = false) /\
  (forall k n, In k (g_members g) -> knows (k_model k) n -> reserved n = false).
(** The parameters of the group. *)
Definition group_knows (g : group) (n : string) : Prop :=
  In n (map r_name (rows (m_frame (g_model g)))) \/ exists k, In k (g_members g) /\ knows (k_model k) n.

(** Sums of real functions over a list. *)
Definition total {A} (f : A -> R) (l : list A) : R := fold_right Rplus 0%R (map f l).

(** Two states of one member: its functions and data are the same. *)
Definition static (k0 k : member) : Prop :=
  k_ll k = k_ll k0 /\ k_dll k = k_dll k0 /\ k_cases k = k_cases k0 /\ k_weight k = k_weight k0 /\
  m_names (k_model k) = m_names (k_model k0).
(** [x] can be set in the group. *)
Definition settable (d : nat) (x : option (values_arg * list (string * num))) (g : group) : Prop :=
  match x with
  | None => True
  | Some (a, kw) => forall g1, unmangle_group d g = Some g1 -> exists m, set_values a true kw (g_model g1) = Ret tt m
  end.
(** The values the group has after [x] is set. *)
Definition values_after (d : nat) (x : option (values_arg * list (string * num))) (g : group) (f : frame) : Prop :=
  exists g1, unmangle_group d g = Some g1 /\
  match x with
  | None => forall n, value_of f n = value_of (m_frame (g_model g1)) n
  | Some (a, kw) => exists m, set_values a true kw (g_model g1) = Ret tt m /\ forall n, value_of f n = value_of (m_frame m) n
  end.

(** What an evaluation leaves behind. *)
Record evaluation (d : nat) (x : option (values_arg * list (string * num))) (g g' : group) : Prop := {
  e_length : length (g_members g') = length (g_members g);
  e_values : values_after d x g (m_frame (g_model g'));
  e_names : forall n, In n (map r_name (rows (m_frame (g_model g')))) <-> group_knows g n;
  e_static : forall i k k', nth_error (g_members g) i = Some k -> nth_error (g_members g') i = Some k' -> static k k';
  e_members : forall i k k', nth_error (g_members g) i = Some k -> nth_error (g_members g') i = Some k' ->
    (forall n, In n (map r_name (rows (m_frame (k_model k')))) <-> knows (k_model k) n) /\
    wf (m_frame (k_model k')) /\
    (forall n, knows (k_model k) n -> ~ holds (k_model k) n ->
       value_of (m_frame (k_model k')) n = value_of (m_frame (g_model g')) n) /\
    (forall n, holds (k_model k) n -> value_of (m_frame (k_model k')) n = value_of (m_frame (k_model k)) n) }.

(** A number as a real; a member's gradient entry that is not infinite. *)
Definition re (v : num) : R := match v with Fin x => x | _ => 0%R end.
(** The values a member's gradient entry may have here: no infinities. *)
Definition finite_or_nan (v : num) : Prop := v = NaN \/ exists x, v = Fin x.
(** A member whose log likelihood is the function [l] of its parameters, and whose gradient is the
    derivative of [l]. *)
Definition differentiates (k : member) (l : (string -> R) -> R) : Prop :=
  (forall th th', (forall n, knows (k_model k) n -> th n = th' n) -> l th = l th') /\
  (forall vs th, (forall n, knows (k_model k) n -> In (n, Fin (th n)) vs) ->
     (forall n, In n (map fst vs) -> knows (k_model k) n) -> NoDup (map fst vs) ->
     k_ll k vs = Fin (l th) /\
     forall n, knows (k_model k) n -> exists y, k_dll k vs n = Fin y /\
       is_derive (fun t => l (fun m => if String.eqb m n then t else th m)) (th n) y).
Inductive differentiate : list member -> list ((string -> R) -> R) -> Prop :=
| df_nil : differentiate [] []
| df_cons k l ks ls : differentiates k l -> differentiate ks ls -> differentiate (k :: ks) (l :: ls).

