(** Specification: what something asked of a frame means, and what names it mentions. *)
From Verif Require Import PvalModel.

(** An expression has a value at a frame (linear_math.py 191-268): names stand for the values in the frame. *)
Inductive means (fr : list (string * R)) : pexp -> R -> Prop :=
| m_num x : means fr (ENum x) x
| m_ref s x : row_at fr s = Some x -> means fr (ERef s) x
| m_noop a x : means fr a x -> means fr (ENoop a) x
| m_neg a x : means fr a x -> means fr (ENeg a) (- x)
| m_add a b x y : means fr a x -> means fr b y -> means fr (EAdd a b) (x + y)
| m_sub a b x y : means fr a x -> means fr b y -> means fr (ESub a b) (x - y)
| m_mul a b x y : means fr a x -> means fr b y -> means fr (EMul a b) (x * y)
| m_div a b x y : means fr a x -> means fr b y -> means fr (EDiv a b) (x / y).
(** The names of an expression (linear_math.py 30-58). *)
Fixpoint names (e : pexp) : list string :=
  match e with
  | ENum _ => [] | ERef s => [s] | ENoop a | ENeg a => names a
  | EAdd a b | ESub a b | EMul a b | EDiv a b => names a ++ names b
  end.
(** The names in what is asked (parameter_frame.pyx 260-294). *)
Fixpoint asked (i : item) : list string :=
  match i with
  | Expr e => names e | Name s => [s] | Num _ => []
  | Dict l => flat_map (fun kv => asked (snd kv)) l
  | Seq _ l => flat_map asked l
  end.
(** The answer wanted (parameter_frame.pyx 236-254): the same shape, each part with its own value; [dft]: with a default for what has no value. *)
Inductive wanted (dft : bool) (fr : list (string * R)) : item -> answer -> Prop :=
| w_expr e x : means fr e x -> wanted dft fr (Expr e) (Value x)
| w_name s x : row_at fr s = Some x -> wanted dft fr (Name s) (Value x)
| w_num x : wanted dft fr (Num x) (Value x)
| w_expr_default e s : dft = true -> In s (names e) -> row_at fr s = None -> wanted dft fr (Expr e) Default
| w_name_default s : dft = true -> row_at fr s = None -> wanted dft fr (Name s) Default
| w_dict l al : Forall2 (fun kv ka => fst ka = Own (fst kv) /\ wanted dft fr (snd kv) (snd ka)) l al -> wanted dft fr (Dict l) (Map al)
| w_seq h l al : Forall2 (fun v ka => fst ka = Asked v /\ wanted dft fr v (snd ka)) l al -> wanted dft fr (Seq h l) (Map al).
(** All elements of lists, tuples and sets can be keys (parameter_frame.pyx 281-284). *)
Fixpoint keyable (i : item) : Prop :=
  match i with
  | Dict l => (fix go l := match l with [] => True | kv :: r => keyable (snd kv) /\ go r end) l
  | Seq _ l => (fix go l := match l with [] => True | v :: r => (hashable v = true /\ keyable v) /\ go r end) l
  | _ => True
  end.
(** No references, only names as plain text (parameter_frame.pyx 290-294). *)
Fixpoint plain (i : item) : Prop :=
  match i with
  | Expr e => names e = []
  | Dict l => (fix go l := match l with [] => True | kv :: r => plain (snd kv) /\ go r end) l
  | Seq _ l => (fix go l := match l with [] => True | v :: r => plain v /\ go r end) l
  | _ => True
  end.
