(** Model of asking a model for values: [pvalue] (larch/model/parameter_frame.pyx 233-302), [get_value] (462-477), [pf] and [unmangle]
    (167-170, 190-196), ParameterRef_C.value (larch/model/linear.pyx 173-193) and the value of parameter operations (larch/model/linear_math.py 191-268).
    Simplifications: numbers are reals, and division is Coq's (a zero divisor gives no error, infinity or NaN here); no formatting of texts;
    the dict made from a list or tuple is kept as the list of its assignments, in order; the old classes of roles.py (266-276) are left out;
    parameter frames have the names and values only. *)
From Coq Require Export String Reals List.
From Verif Require Export TableModel.
Export ListNotations.
Open Scope string_scope.
Open Scope list_scope.

(** A parameter expression: numbers, ParameterRef_C, and the operations (linear_math.py 191-268). *)
Inductive pexp := ENum (x : R) | ERef (s : string) | ENoop (a : pexp) | ENeg (a : pexp)
| EAdd (a b : pexp) | ESub (a b : pexp) | EMul (a b : pexp) | EDiv (a b : pexp).
(** What is asked for (parameter_frame.pyx 260-294): an expression or reference, or a linear function that can be one (260-270); a name as plain text (290-294); a number (285-289);
    a dict (276-280); a list, tuple or set (281-284), with whether Python can hash it. *)
Inductive item := Expr (e : pexp) | Name (s : string) | Num (x : R) | Dict (l : list (string * item)) | Seq (hashable : bool) (l : list item).
(** Can it be a key of a dict (parameter_frame.pyx 284)?  Not a dict, nor a list or set; a tuple if its parts can: this is the flag of [Seq]. *)
Definition hashable (i : item) : bool := match i with Dict _ => false | Seq h _ => h | _ => true end.
(** A key of the answer (parameter_frame.pyx 279, 284): the user's, or the thing asked itself. *)
Inductive key := Own (k : string) | Asked (i : item).
(** The answer (parameter_frame.pyx 260-299): a number, the default, or a dict. *)
Inductive answer := Value (x : R) | Default | Map (l : list (key * answer)).
(** Exceptions (parameter_frame.pyx 297-302): a missing name, an unhashable key, an attribute (linear.pyx 189). *)
Inductive exn := KeyError (s : string) | TypeError | AttributeError.
(** A value or an exception (parameter_frame.pyx 259-302). *)
Inductive res (A : Type) := Ok (a : A) | Raise (e : exn).
Arguments Ok {A} a. Arguments Raise {A} e.

(** A model: the rows of its frame, and the rows that scanning the model would add (parameter_frame.pyx 167-170). *)
Record pmodel := mkPm { rows : list (string * R); waiting : list (string * R) }.
(** unmangle (parameter_frame.pyx 167-170). *)
Definition unmangle (m : pmodel) : pmodel := mkPm (rows m ++ waiting m) [].
(** get_value of a name: the frame as it is now (parameter_frame.pyx 472). *)
Definition get_value (m : pmodel) (s : string) : res R :=
  match row_at (rows m) s with Some v => Ok v | None => Raise (KeyError s) end.
(** What ParameterRef_C.value takes (linear.pyx 185-189): a dict, or a model. *)
Inductive source := SDict (l : list (string * R)) | SModel (m : pmodel).
(** ParameterRef_C.value (linear.pyx 184-193): source after source; a dict without the name is asked for its get_value. *)
Fixpoint ref_value (args : list source) (s : string) : res R :=
  match args with
  | [] => Raise (KeyError s)
  | SDict l :: r => match row_at l s with Some v => Ok v | None => Raise AttributeError end
  | SModel m :: r => match get_value m s with Ok v => Ok v | Raise _ => ref_value r s end
  end.
(** helper: left operand first, then the right one (linear_math.py 195-203). *)
Definition both (a b : res R) (f : R -> R -> R) : res R :=
  match a with Raise e => Raise e | Ok x => match b with Raise e => Raise e | Ok y => Ok (f x y) end end.
(** value (linear_math.py 195-268, linear.pyx 184-193). *)
Fixpoint op_value (args : list source) (e : pexp) : res R :=
  match e with
  | ENum x => Ok x
  | ERef s => ref_value args s
  | ENoop a => op_value args a
  | ENeg a => match op_value args a with Ok x => Ok (- x)%R | Raise e => Raise e end
  | EAdd a b => both (op_value args a) (op_value args b) Rplus
  | ESub a b => both (op_value args a) (op_value args b) Rminus
  | EMul a b => both (op_value args a) (op_value args b) Rmult
  | EDiv a b => both (op_value args a) (op_value args b) Rdiv
  end.
(** except KeyError (parameter_frame.pyx 297-302): [dft]: is a default given? *)
Definition fail (dft : bool) (e : exn) : res answer :=
  match e with KeyError _ => if dft then Ok Default else Raise e | _ => Raise e end.
(** pvalue (parameter_frame.pyx 259-302), with the model afterwards. *)
Fixpoint pvalue (dft : bool) (m : pmodel) (i : item) : pmodel * res answer :=
  match i with
  | Expr e => (m, match op_value [SModel m] e with Ok v => Ok (Value v) | Raise x => fail dft x end)
  | Name s => let m := unmangle m in
              (m, match row_at (rows m) s with Some v => Ok (Value v) | None => fail dft (KeyError s) end)
  | Num x => (m, Ok (Value x))
  | Dict l =>
    let fix go m l done :=
      match l with
      | [] => (m, Ok (Map (rev done)))
      | (k, v) :: r => match pvalue dft m v with
                       | (m, Ok a) => go m r ((Own k, a) :: done)
                       | (m, Raise e) => (m, fail dft e)
                       end
      end in go m l []
  | Seq _ l =>
    let fix go m l done :=
      match l with
      | [] => (m, Ok (Map (rev done)))
      | v :: r => match pvalue dft m v with
                  | (m, Ok a) => if hashable v then go m r ((Asked v, a) :: done) else (m, fail dft TypeError)
                  | (m, Raise e) => (m, fail dft e)
                  end
      end in go m l []
  end.
