(** SPEC: the nested logit model written on alternative and nest codes, with no positions. *)
From Verif Require Import TreeSpec UtilitySpec.
From Verif Require Export AltsModel.
Open Scope R_scope.

(** The children of node [c]: the far ends of the links that leave it. *)
Definition children_of (g : graph) (c : Z) : list Z :=
  map TreeModel.ev (filter (fun e => (eu e =? c)%Z) (gedges g)).
(** [V] are the utilities and [P] the probabilities of the nested logit model on graph [g] with
    logsum parameters [mu] and alternatives' utilities [u] ([None] = unavailable). *)
Record nested (g : graph) (mu : Z -> R) (u V : Z -> option R) (P : Z -> R) : Prop := {
  nd_leaf : forall c, is_leaf g c -> V c = u c;
  nd_none : forall c, In c (gnodes g) -> ~ is_leaf g c ->
    (forall d, link g c d -> V d = None) -> V c = None;
  nd_some : forall c, In c (gnodes g) ->
    (exists d, link g c d /\ V d <> None) ->
    V c = Some (mu c * ln (Rsum (fun d => oexp (mu c) (V d)) (children_of g c)));
  nd_root : P (groot g) = 1;
  nd_child : forall c d, link g c d ->
    P d = P c * (oexp (mu c) (V d) / Rsum (fun e => oexp (mu c) (V e)) (children_of g c))
}.

(** The data of alternative [a], whatever the order they come in. *)
Definition idco_utility (m : settings) (a : Z) (co : nat -> R) (par : nat -> R) : R :=
  Rsum (fun f => if (fst f =? a)%Z
                 then Rsum (fun t => match t with (s, p, x) =>
                        s * match x with Some j => co j | None => 1 end * par p end) (snd f)
                 else 0) (s_co m).
Definition utility_of (m : settings) (d : case) (par : nat -> R) (a : Z) : R :=
  log_size (s_q m) (s_qs m) (d_ca d a) par + linear_ca (s_ca m) (d_ca d a) par
  + idco_utility m a (d_co d) par.
Definition available (d : case) (a : Z) : bool :=
  match d_av d with
  | AvAll => true
  | AvTable t => t a
  | AvDict l => match dict_get l a with Some b => b | None => false end
  end.
Definition chosen (d : case) (a : Z) : R :=
  match d_ch d with
  | ChTable t => t a
  | ChCode c => if (c =? a)%Z then 1 else 0
  | ChDict l => match dict_get l a with Some v => v | None => 0 end
  end.
Definition node_mu (m : settings) (par : nat -> R) (c : Z) : R :=
  match s_mu m c with Some p => par p | None => 1 end.
(** Utility, or minus infinity if not available. *)
Definition ext_utility (m : settings) (d : case) (par : nat -> R) (a : Z) : option R :=
  if available d a then Some (utility_of m d par a) else None.

(** The alternative whose data sits at the place of elemental [c]: the [i]-th of [D] when [c] is
    the [i]-th of [E]. *)
Fixpoint carried (E D : list Z) (c : Z) : Z :=
  match E, D with
  | e :: E', x :: D' => if (e =? c)%Z then x else carried E' D' c
  | _, _ => c
  end.

(** The nesting graphs considered: acyclic, hanging from the root, one parent per node, and not
    empty. *)
Record nesting (g : graph) : Prop := {
  ng_wf : gwf g;
  ng_acyclic : acyclic g;
  ng_sugg : NoDup (gsugg g);
  ng_sugg_in : incl (gsugg g) (gnodes g);
  ng_rooted : rooted g;
  ng_child : exists v, link g (groot g) v;
  ng_single : single_parent g
}.
(** Positive logsum parameters on the nests; sizes that have a logarithm. *)
Definition positive_mu (m : settings) (par : nat -> R) : Prop :=
  forall c, In c (gnodes (s_graph m)) -> ~ is_leaf (s_graph m) c -> 0 < node_mu m par c.
Definition sizes_ok (m : settings) (d : case) (par : nat -> R) (alts : list Z) : Prop :=
  s_q m <> [] -> forall a, In a alts -> available d a = true -> size (s_q m) (d_ca d a) par <> 0.
(** The evaluation does not stop: utility_co and the choices speak of alternatives the data
    has. *)
Definition keys_ok (m : settings) (d : case) (alts : list Z) : Prop :=
  (forall f, In f (s_co m) -> In (fst f) alts) /\
  match d_ch d with ChDict l => forall a, In a alts -> dict_get l a <> None | _ => True end.
