(** Specification: the arithmetic of an expression, for given values of data [x] and parameters [p];
    [other] and [inv] are Python's operators that are not field operations. *)
From Verif Require Import LinModel.
Open Scope R_scope.

Inductive expr_means (x p : string -> R) (other : op -> R -> R -> R) (inv : R -> R) : expr -> R -> Prop :=
| em_num v : expr_means x p other inv (ENum v) v
| em_par s : expr_means x p other inv (EPar s) (p s)
| em_dat d v : means x other inv d v -> expr_means x p other inv (EDat d) v
| em_bin o a b u v : expr_means x p other inv a u -> expr_means x p other inv b v ->
    expr_means x p other inv (EBin o a b) (arith other o u v)
| em_neg a u : expr_means x p other inv a u -> expr_means x p other inv (ENeg a) (- u).

(** Texts that begin with "boolean(" and end with ")" stand for 0 or 1, and two of them that compare
    the same thing with different texts are not both 1. *)
Definition booleans_ok (x : string -> R) : Prop :=
  (forall s, is_boolean [TX s] = true -> x s = 0 \/ x s = 1) /\
  (forall s s' v a b, boolmatch [TX s] = Some (v, a) -> boolmatch [TX s'] = Some (v, b) -> a <> b ->
    x s = 0 \/ x s' = 0).

(** The four shapes of operands for which the code goes wrong. *)
Definition negative_number (v : val) : Prop :=
  match v with VNum a => a < 0 | VDat [TO Minus; TN _] => True | _ => False end.
Definition trap (o : op) (a b : val) : Prop :=
  match o, a, b with
  | Minus, VNum z, VPar _ => z = 0
  | Plus, VDat [TZZ], _ => True
  | Times, VPar s, VComp c => s <> null_ /\ c_param c <> null_
  | Pow, _, _ => negative_number a
  | _, _, _ => False
  end.
(** No such operands anywhere in the expression. *)
Fixpoint clean (bare : R -> bool) (e : expr) : Prop :=
  match e with
  | EBin o a b =>
    clean bare a /\ clean bare b /\
    forall u v, build bare a = Some u -> build bare b = Some v -> ~ trap o u v
  | ENeg a => clean bare a
  | _ => True
  end.

(** Parameter arithmetic whose printed form has no subtraction of an unparenthesized sum or
    difference and no division by an unparenthesized product or quotient. *)
Fixpoint printable (e : pexpr) : Prop :=
  match e with
  | PNoop a => printable a
  | POp o a b =>
    printable a /\ printable b /\
    match o with
    | Plus | Times => True
    | Minus => match b with POp Plus _ _ | POp Minus _ _ => False | _ => True end
    | Div => match b with POp Times _ _ | POp Div _ _ => False | _ => True end
    | _ => False
    end
  | _ => True
  end.
(** Expressions without data. *)
Fixpoint no_data (e : expr) : Prop :=
  match e with EDat _ => False | EBin _ a b => no_data a /\ no_data b | ENeg a => no_data a | _ => True end.
