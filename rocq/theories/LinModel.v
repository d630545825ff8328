(** Model of larch/model/linear.pyx (parameters, data references, linear components and linear
    functions, lines 59-1060, 1217-1245 and 1318-1332) and larch/model/linear_math.py (parameter
    arithmetic), with larch/util/naming.py [parenthize].

    A data reference is a Python expression in a string.  Here the string is a list of tokens, and
    what it evaluates to is given by a recursive descent parser for the arithmetic part of Python's
    grammar (the expression reference of the language, not larch code).  Numbers are exact reals;
    the text of a number is the number itself, so "1" and "1.0" are the same text here. *)
From Coq Require Export Reals String List Bool Lia Lra.
Export ListNotations.
Open Scope R_scope.

(** The binary operators of linear.pyx 91-169 (parameters) and 280-388 (data). *)
Inductive op := Plus | Minus | Times | Div | FDiv | Pow | BAnd | BOr | BXor.
(** [TA]: a word (name or dotted name); [TX]: other text the user wrote, opaque; [TN]: an unsigned
    number; [TZZ]: the text "00". *)
Inductive tok := TA (s : string) | TX (s : string) | TN (x : R) | TZZ | TL | TR | TO (o : op) | TI.
(** The string of a DataRef_C (linear.pyx 257), as tokens. *)
Definition text := list tok.

(** ** Python's expression grammar *)
(** Python's expressions, helper of the parser (no larch code). *)
Inductive py := YA (s : string) | YN (x : R) | YBin (o : op) (a b : py) | YNeg (a : py) | YInv (a : py).
(** Nonterminals of Python's grammar, helper of the parser (no larch code). *)
Inductive mode := Whole | Bin (k : nat) | Rest (k : nat) (acc : py) | Unary | Power | Prim.
(** Python's precedence of binary operators, helper of the parser (no larch code). *)
Definition level (o : op) : nat :=
  match o with BOr => 0 | BXor => 1 | BAnd => 2 | Plus | Minus => 3 | Times | Div | FDiv => 4 | Pow => 9 end.
(** The expression grammar DataRef_C.eval hands its text to (linear.pyx 399-414). *)
Fixpoint parse (fuel : nat) (m : mode) (ts : text) : option (py * text) :=
  match fuel with
  | O => None
  | S f =>
    match m with
    | Whole =>
      match ts with
      | TX s :: r => Some (YA s, r)
      | _ => parse f (Bin 0) ts
      end
    | Bin k =>
      if Nat.eqb k 5 then parse f Unary ts
      else match parse f (Bin (S k)) ts with
           | Some (e, r) => parse f (Rest k e) r
           | None => None
           end
    | Rest k acc =>
      match ts with
      | TO o :: r =>
        if Nat.eqb (level o) k then
          match parse f (Bin (S k)) r with
          | Some (e, r') => parse f (Rest k (YBin o acc e)) r'
          | None => None
          end
        else Some (acc, ts)
      | _ => Some (acc, ts)
      end
    | Unary =>
      match ts with
      | TO Minus :: r => match parse f Unary r with Some (e, r') => Some (YNeg e, r') | None => None end
      | TI :: r => match parse f Unary r with Some (e, r') => Some (YInv e, r') | None => None end
      | _ => parse f Power ts
      end
    | Power =>
      match parse f Prim ts with
      | Some (e, TO Pow :: r) =>
        match parse f Unary r with Some (e', r') => Some (YBin Pow e e', r') | None => None end
      | x => x
      end
    | Prim =>
      match ts with
      | TA s :: r => Some (YA s, r)
      | TN x :: r => Some (YN x, r)
      | TZZ :: r => Some (YN 0, r)
      | TL :: r => match parse f Whole r with Some (e, TR :: r') => Some (e, r') | _ => None end
      | _ => None
      end
    end
  end.

(** ** Texts *)
(** Equality of strings (linear.pyx 265-269), helper: operators. *)
Definition op_eqb (a b : op) : bool :=
  match a, b with
  | Plus, Plus | Minus, Minus | Times, Times | Div, Div | FDiv, FDiv | Pow, Pow
  | BAnd, BAnd | BOr, BOr | BXor, BXor => true
  | _, _ => false
  end.
(** [==] of numbers, as in linear.pyx 476, 748. *)
Definition reqb (a b : R) : bool := if Req_EM_T a b then true else false.
(** Equality of strings (linear.pyx 265-269), helper: tokens. *)
Definition tok_eqb (a b : tok) : bool :=
  match a, b with
  | TA s, TA t | TX s, TX t => String.eqb s t
  | TN x, TN y => reqb x y
  | TZZ, TZZ | TL, TL | TR, TR | TI, TI => true
  | TO o, TO o' => op_eqb o o'
  | _, _ => false
  end.
(** DataRef_C.__eq__ (linear.pyx 265-269): equality of the strings. *)
Fixpoint text_eqb (a b : text) : bool :=
  match a, b with
  | [], [] => true
  | x :: a, y :: b => tok_eqb x y && text_eqb a b
  | _, _ => false
  end.
(** [str(x)] of a number inside parenthize, naming.py 56. *)
Definition num_text (x : R) : text := if Rlt_dec x 0 then [TO Minus; TN (- x)] else [TN x].

Section Larch.
(** Whether the digits of an unsigned number match [parenthize]'s pattern (they do not when they
    start with "0."). *)
Variable bare : R -> bool.

(** naming.py 45-66: words and matching numbers are left alone; a signed number only when signs
    do not qualify. *)
Definition parenthize (signs_qualify : bool) (t : text) : text :=
  match t with
  | [TA _] | [TZZ] => t
  | [TN x] => if bare x then t else TL :: t ++ [TR]
  | [TO Minus; TN x] => if bare x && negb signs_qualify then t else TL :: t ++ [TR]
  | _ => TL :: t ++ [TR]
  end.
(** ["{}op{}".format(parenthize(self), parenthize(other, True))], linear.pyx 291, 306, 332, 358, 365-387. *)
Definition fmt2 (o : op) (a b : text) : text := parenthize false a ++ TO o :: parenthize true b.

(** A component: parameter, data, scale (linear.pyx 416-434). *)
Record comp := mkComp { c_param : string; c_data : text; c_scale : R }.
(** Parameter arithmetic (linear_math.py): operands are parameters, numbers or operations; a linear
    component gets in as an operand of a product (linear.pyx 148-149). *)
Inductive pexpr :=
| PNum (x : R) | PRef (s : string) | PComp (c : comp) | PNoop (e : pexpr) | POp (o : op) (a b : pexpr).
(** The objects a user combines: a number, ParameterRef_C (linear.pyx 59), DataRef_C (257),
    LinearComponent_C (416), LinearFunction_C (771), _ParameterOp (linear_math.py 30). *)
Inductive val := VNum (x : R) | VPar (s : string) | VDat (d : text) | VComp (c : comp) | VFun (l : list comp) | VOp (e : pexpr).
(** The outcomes of an operator: a value, NotImplemented (linear.pyx 108 and alike) or an exception (507 and alike). *)
Inductive res := Ret (v : val) | NotImpl | Raise.

(** [_null_], linear.pyx 16. *)
Definition null_ : string := "_".
(** [param == _null_], linear.pyx 137-146, 543-563. *)
Definition is_null (s : string) : bool := String.eqb s null_.
(** The text '0', linear.pyx 331. *)
Definition t0 : text := [TN 0].
(** The text "1", linear.pyx 96, 135. *)
Definition t1 : text := [TN 1].
(** [data == '0' or data == '0.0'], linear.pyx 282-284, 476-478. *)
Definition is0 (t : text) : bool := text_eqb t t0.
(** [data == "1" or data == "1.0"], linear.pyx 314-316, 742. *)
Definition is1 (t : text) : bool := text_eqb t t1.
(** [LinearComponent_C(param=str(self), data="1")], linear.pyx 96, 104. *)
Definition unit_comp (s : string) : comp := mkComp s t1 1.
(** LinearComponent_C.__neg__, linear.pyx 438-439. *)
Definition neg_comp (c : comp) : comp := mkComp (c_param c) (c_data c) (- c_scale c).

(** [float(self.data)], linear.pyx 744, when it is a number. *)
Definition float_of (t : text) : option R :=
  match t with
  | [TN x] => Some x
  | [TZZ] => Some 0
  | [TO Minus; TN x] => Some (- x)
  | _ => None
  end.
(** LinearComponent_C.as_pmath, linear.pyx 740-756 (data "1" is the case float 1).  [None]:
    NotImplementedError. *)
Definition comp_pmath (c : comp) : option pexpr :=
  match float_of (c_data c) with
  | Some d =>
    let s := d * c_scale c in
    if reqb s 1 then Some (PNoop (PRef (c_param c))) else Some (POp Times (PRef (c_param c)) (PNum s))
  | None => None
  end.
(** LinearFunction_C.as_pmath, linear.pyx 1318-1332. *)
Definition fun_pmath (l : list comp) : option pexpr :=
  if forallb (fun c => is1 (c_data c)) l then
    match l with
    | [] => Some (PNum 0)
    | c :: l =>
      fold_left (fun acc c =>
        match acc, comp_pmath c with Some x, Some y => Some (POp Plus x y) | _, _ => None end)
        l (comp_pmath c)
    end
  else None.
(** [as_pmath] by class: linear.pyx 231-232, 740-756, 1318-1331; linear_math.py 58-64. *)
Definition pmath (v : val) : option pexpr :=
  match v with
  | VPar s => Some (PRef s)
  | VNum x => Some (PNum x)
  | VOp e => Some e
  | VComp c => comp_pmath c
  | VFun l => fun_pmath l
  | VDat _ => None
  end.
(** The four operators of _ParameterOp and their reflections (linear_math.py 57-135): the other
    operand is taken as it is or through as_pmath; everything else raises. *)
Definition p_op (o : op) (a b : val) : res :=
  match pmath a, pmath b with Some x, Some y => Ret (VOp (POp o x y)) | _, _ => Raise end.

(** *** Boolean data *)
(** [self[:8] == ...], linear.pyx 320. *)
Definition starts (p s : string) : bool := String.prefix p s.
(** [self[-1:] == ')'], linear.pyx 320. *)
Definition ends_paren (s : string) : bool :=
  String.eqb (String.substring (String.length s - 1) 1 s) ")".
(** [self[:8] == 'boolean(' and self[-1:] == ')'], linear.pyx 320, 323. *)
Definition is_boolean (t : text) : bool :=
  match t with [TX s] => starts "boolean(" s && ends_paren s | _ => false end.
(** Greedy [(.+)==(.+)] of _boolmatch (linear.pyx 18) on the part between the parentheses: the last "==" with something on both
    sides. *)
Fixpoint split_eq (pre s : string) : option (string * string) :=
  match s with
  | EmptyString => None
  | String c r =>
    match split_eq (pre ++ String c EmptyString) r with
    | Some x => Some x
    | None =>
      if starts "==" s && negb (String.eqb pre "") && negb (String.eqb (String.substring 2 (String.length s - 2) s) "")
      then Some (pre, String.substring 2 (String.length s - 2) s) else None
    end
  end.
(** _boolmatch.match, linear.pyx 18, 325-329. *)
Definition boolmatch (t : text) : option (string * string) :=
  match t with
  | [TX s] =>
    if starts "boolean(" s && ends_paren s
    then split_eq "" (String.substring 8 (String.length s - 9) s) else None
  | _ => None
  end.
(** Two mutually exclusive conditions, linear.pyx 323-331. *)
Definition exclusive (a b : text) : bool :=
  match boolmatch a, boolmatch b with
  | Some (v, x), Some (w, y) => String.eqb v w && negb (String.eqb x y)
  | _, _ => false
  end.

(** *** Data with data (and numbers) *)
(** DataRef_C + DataRef_C or a number, linear.pyx 280-291.  When the left text is "00" the format
    has one slot for two arguments, so the right text is dropped. *)
Definition dd_add (a b : val) : res :=
  let t v := match v with VDat d => d | VNum x => num_text x | _ => [] end in
  if is0 (t a) then Ret b
  else if is0 (t b) then Ret a
  else if text_eqb (t a) [TZZ] then Ret (VDat ([TN 0; TO Plus] ++ parenthize false (t a)))
  else if text_eqb (t b) [TZZ] then Ret (VDat (parenthize false (t a) ++ [TO Plus; TN 0]))
  else Ret (VDat (fmt2 Plus (t a) (t b))).
(** Product of two texts, linear.pyx 311-332. *)
Definition dat_mul (a b : text) : text :=
  if is1 a then b else if is1 b then a
  else if text_eqb a b && is_boolean a then a
  else if exclusive a b then t0
  else fmt2 Times a b.
(** linear.pyx 530-541: [component * number], [component * data]. *)
Definition comp_num (c : comp) (x : R) : comp := mkComp (c_param c) (c_data c) (c_scale c * x).
(** [component * data], linear.pyx 536-541. *)
Definition comp_dat (c : comp) (d : text) : comp := mkComp (c_param c) (dat_mul (c_data c) d) (c_scale c).
(** number * data, both orders (linear.pyx 314-319, 341-346): [P('_') * number * data]. *)
Definition num_dat (x : R) (d : text) : res :=
  if reqb x 1 then Ret (VDat d)
  else if is1 d then Ret (VNum x)
  else Ret (VComp (comp_dat (comp_num (unit_comp null_) x) d)).

(** *** Addition *)
(** [other.data == '0' or other.data == '0.0' or other.scale == 0], linear.pyx 476, 478, 933. *)
Definition dead (c : comp) : bool := is0 (c_data c) || reqb (c_scale c) 0.
(** [other == 0], linear.pyx 93, 473, 925. *)
Definition is_zero (v : val) : bool := match v with VNum x => reqb x 0 | _ => false end.
(** LinearComponent_C + LinearComponent_C, linear.pyx 476-481. *)
Definition cc_add (a b : comp) : val :=
  if dead b then VComp a else if dead a then VComp b else VFun [a; b].
(** [+] dispatched on the left operand's class, then the right one's: ParameterRef_C (91-108),
    DataRef_C (280-302), LinearComponent_C (471-507), LinearFunction_C (923-951), _ParameterOp. *)
Definition add (a b : val) : res :=
  match a, b with
  | VNum x, VNum y => Ret (VNum (x + y))
  (* parameter on the left *)
  | VPar s, _ =>
    if is_zero b then Ret a else
    match b with
    | VPar s' => Ret (cc_add (unit_comp s) (unit_comp s'))
    | VComp c => Ret (cc_add (unit_comp s) c)
    | VFun l => Ret (VFun (unit_comp s :: l))
    | VNum _ => p_op Plus a b
    | VOp _ => p_op Plus a b
    | VDat _ => Raise
    end
  (* data on the left *)
  | VDat _, (VDat _ | VNum _) => dd_add a b
  | VDat d, VPar s => Ret (cc_add (comp_dat (unit_comp null_) d) (unit_comp s))
  | VDat d, VComp c => Ret (cc_add (mkComp null_ d 1) c)
  | VDat _, _ => Raise
  (* component on the left *)
  | VComp c, _ =>
    if is_zero b then Ret a else
    match b with
    | VComp c' => Ret (cc_add c c')
    | VFun l => Ret (VFun (c :: l))
    | VPar s => Ret (cc_add c (unit_comp s))
    | VDat d => Ret (cc_add c (mkComp null_ d 1))
    | _ => p_op Plus a b
    end
  (* function on the left *)
  | VFun l, _ =>
    if is_zero b then Ret a else
    match b with
    | VFun l' => Ret (VFun (l ++ l'))
    | VPar s => Ret (VFun (l ++ [unit_comp s]))
    | VComp c => Ret (VFun (if dead c then l else l ++ [c]))
    | VOp _ | VNum _ => p_op Plus a b
    | VDat _ => Raise
    end
  | VOp _, _ => p_op Plus a b
  (* number on the left *)
  | VNum x, VPar _ => if reqb x 0 then Ret b else p_op Plus a b
  | VNum _, VDat _ => dd_add a b
  | VNum x, VComp _ => if reqb x 0 then Ret b else Raise
  | VNum x, VFun _ => if reqb x 0 then Ret b else p_op Plus a b
  | VNum _, VOp _ => p_op Plus a b
  end.

(** *** Subtraction: 110-127, 304-309, 509-526, 973-998.  [0 - parameter] returns the parameter
    (lines 120-121). *)
Definition sub (a b : val) : res :=
  match a, b with
  | VNum x, VNum y => Ret (VNum (x - y))
  | VPar s, _ =>
    if is_zero b then Ret a else
    match b with
    | VPar s' => Ret (VFun [unit_comp s; neg_comp (unit_comp s')])
    | VComp c => Ret (VFun [unit_comp s; neg_comp c])
    | VFun l => Ret (VFun (unit_comp s :: map neg_comp l))
    | VNum _ | VOp _ => p_op Minus a b
    | VDat _ => Raise
    end
  | VDat d, VDat d' => Ret (VDat (fmt2 Minus d d'))
  | VDat d, VNum x => Ret (VDat (fmt2 Minus d (num_text x)))
  | VDat d, VPar s => Ret (VFun [comp_dat (unit_comp null_) d; neg_comp (unit_comp s)])
  | VDat _, _ => Raise
  | VComp c, _ =>
    if is_zero b then Ret a else
    match b with
    | VComp c' => Ret (VFun [c; neg_comp c'])
    | VFun l => Ret (VFun (c :: map neg_comp l))
    | VPar s => Ret (VFun [c; neg_comp (unit_comp s)])
    | VDat _ => Raise
    | _ => p_op Minus a b
    end
  | VFun l, _ =>
    if is_zero b then Ret a else
    match b with
    | VFun l' => Ret (VFun (l ++ map neg_comp l'))
    | VPar s => Ret (VFun (l ++ [neg_comp (unit_comp s)]))
    | VComp c => Ret (VFun (l ++ [neg_comp c]))
    | VOp _ | VNum _ => p_op Minus a b
    | VDat _ => Raise
    end
  | VOp _, _ => p_op Minus a b
  | VNum x, VPar _ => if reqb x 0 then Ret b else p_op Minus a b
  | VNum x, VDat d => Ret (VDat (fmt2 Minus (num_text x) d))
  | VNum _, VComp _ => Raise
  | VNum _, VFun _ | VNum _, VOp _ => p_op Minus a b
  end.

(** *** Multiplication: 129-156, 311-354, 528-579, 1000-1052. *)
(** LinearComponent_C * LinearComponent_C, lines 542-559. *)
Definition cc_mul (a b : comp) : res :=
  if is_null (c_param a) then Ret (VComp (mkComp (c_param b) (dat_mul (c_data a) (c_data b)) (c_scale a * c_scale b)))
  else if is_null (c_param b) then Ret (VComp (mkComp (c_param a) (dat_mul (c_data a) (c_data b)) (c_scale a * c_scale b)))
  else p_op Times (VComp a) (VComp b).
(** Every component has the null parameter, linear.pyx 1012-1017, 1037-1042. *)
Definition all_null (l : list comp) : bool := forallb (fun c => is_null (c_param c)) l.
(** [self * component] for a component with the null parameter, linear.pyx 146-147, 563-568. *)
Definition reparam (s : string) (c : comp) : comp := mkComp s (c_data c) (c_scale c).
(** [sum(...)]: repeated [+] from the number 0. *)
Definition sum_step (acc r : res) : res :=
  match acc, r with Ret x, Ret y => match add x y with Ret v => Ret v | _ => Raise end | _, _ => Raise end.
(** linear.pyx 1046-1051: a component at a time; a product that is not a component raises. *)
Definition each (l : list (option comp)) : res :=
  match fold_right (fun c acc => match c, acc with Some c, Some l => Some (c :: l) | _, _ => None end) (Some []) l with
  | Some l => Ret (VFun l)
  | None => Raise
  end.
(** What [trial.append(component * other)] accepts (linear.pyx 912, 1049): a component. *)
Definition as_comp (r : res) : option comp := match r with Ret (VComp c) => Some c | _ => None end.
(** [*]: the classes in the order of linear.pyx 129-156, 311-354, 528-579, 1000-1052. *)
Definition mul (a b : val) : res :=
  match a, b with
  | VNum x, VNum y => Ret (VNum (x * y))
  | VPar s, VDat d => Ret (VComp (mkComp s d 1))
  | VPar s, VNum x => Ret (VComp (mkComp s t1 x))
  | VPar s, VPar s' =>
    if is_null s then Ret b else if is_null s' then Ret a else p_op Times a b
  | VPar s, VComp c =>
    if is_null s then Ret b
    else if is_null (c_param c) then Ret (VComp (reparam s c))
    else Ret (VOp (POp Times (PRef s) (PComp c)))
  | VPar s, VFun l =>
    if is_null s then Ret b
    else if all_null l then Ret (VFun (map (reparam s) l))
    else p_op Times a b
  | VPar _, VOp _ => p_op Times a b
  | VDat d, VDat d' => Ret (VDat (dat_mul d d'))
  | VDat d, VNum x => num_dat x d
  | VDat d, VPar s => Ret (VComp (mkComp s d 1))
  | VDat d, VComp c => Ret (VComp (mkComp (c_param c) (dat_mul d (c_data c)) (c_scale c)))
  | VDat d, VFun l => Ret (VFun (map (fun c => mkComp (c_param c) (dat_mul d (c_data c)) (c_scale c)) l))
  | VDat _, VOp _ => Raise
  | VComp c, VNum x => Ret (VComp (comp_num c x))
  | VComp c, VDat d => Ret (VComp (comp_dat c d))
  | VComp c, VComp c' => cc_mul c c'
  | VComp c, VPar s =>
    if is_null s then Ret a
    else if is_null (c_param c) then Ret (VComp (reparam s c))
    else p_op Times a b
  | VComp _, VFun _ | VComp _, VOp _ => p_op Times a b
  | VFun l, VNum x => Ret (VFun (map (fun c => comp_num c x) l))
  | VFun l, VPar s =>
    if is_null s then Ret a
    else if all_null l then Ret (VFun (map (reparam s) l))
    else p_op Times a b
  | VFun l, VOp _ => p_op Times a b
  | VFun l, VFun l' =>
    fold_left sum_step (flat_map (fun i => map (fun j => cc_mul i j) l') l) (Ret (VNum 0))
  | VFun l, VDat d => Ret (VFun (map (fun c => comp_dat c d) l))
  | VFun l, VComp c => each (map (fun i => as_comp (cc_mul i c)) l)
  | VOp _, _ => p_op Times a b
  | VNum x, VPar s => Ret (VComp (mkComp s t1 x))
  | VNum x, VDat d => num_dat x d
  | VNum x, VComp c => Ret (VComp (comp_num c x))
  | VNum x, VFun l => Ret (VFun (map (fun c => comp_num c x) l))
  | VNum _, VOp _ => p_op Times a b
  end.

(** *** Division: 158-169, 356-361, 581-606, 1054-1060.  Python's ZeroDivisionError for numbers. *)
Definition div (a b : val) : res :=
  match a, b with
  | VNum x, VNum y => if reqb y 0 then Raise else Ret (VNum (x / y))
  | VPar s, VPar _ | VPar s, VOp _ | VPar s, VFun _ => p_op Div a b
  | VPar s, VNum x => if reqb x 0 then Raise else Ret (VComp (mkComp s t1 (1 / x)))
  | VPar s, VDat d => Ret (VComp (mkComp s (fmt2 Div (num_text 1) d) 1))
  | VPar _, VComp _ => Raise
  | VDat d, VDat d' => Ret (VDat (fmt2 Div d d'))
  | VDat d, VNum x => Ret (VDat (fmt2 Div d (num_text x)))
  | VNum x, VDat d => Ret (VDat (fmt2 Div (num_text x) d))
  | VDat _, _ => Raise
  | VComp c, VNum x => if reqb x 0 then Raise else Ret (VComp (mkComp (c_param c) (c_data c) (c_scale c / x)))
  | VComp c, VDat d => Ret (VComp (mkComp (c_param c) (fmt2 Div (c_data c) d) (c_scale c)))
  | VComp _, _ => p_op Div a b
  | VFun _, VPar _ | VFun _, VOp _ | VFun _, VNum _ => p_op Div a b
  | VFun _, _ => Raise
  | VOp _, _ => p_op Div a b
  | VNum _, VFun _ | VNum _, VOp _ => p_op Div a b
  | VNum _, _ => Raise
  end.

(** *** The other operators of data (363-388), and unary minus (393-394, 438-439, 970-971). *)
Definition data_op (o : op) (a b : val) : res :=
  match a, b with
  | VDat d, VDat d' => Ret (VDat (fmt2 o d d'))
  | VDat d, VNum x => Ret (VDat (fmt2 o d (num_text x)))
  | VNum x, VDat d => Ret (VDat (fmt2 o (num_text x) d))
  | _, _ => Raise
  end.
(** Unary minus: linear.pyx 393-394, 438-439, 970-971. *)
Definition neg (a : val) : res :=
  match a with
  | VNum x => Ret (VNum (- x))
  | VDat d => Ret (VDat (TO Minus :: parenthize true d))
  | VComp c => Ret (VComp (neg_comp c))
  | VFun l => Ret (VFun (map neg_comp l))
  | _ => Raise
  end.

(** ** What the user writes, and what Python builds from it *)
(** A Python expression over parameters, data and numbers, as a user of P and X writes it (linear.pyx 41-57). *)
Inductive expr :=
| ENum (x : R) | EPar (s : string) | EDat (d : text)
| EBin (o : op) (a b : expr) | ENeg (a : expr).
(** The operator methods of linear.pyx 91-388, 471-606, 923-1060. *)
Definition apply (o : op) : val -> val -> res :=
  match o with Plus => add | Minus => sub | Times => mul | Div => div | _ => data_op o end.
(** Python's evaluation of such an expression by the methods of linear.pyx 91-1060. *)
Fixpoint build (e : expr) : option val :=
  match e with
  | ENum x => Some (VNum x)
  | EPar s => Some (VPar s)
  | EDat d => Some (VDat d)
  | EBin o a b =>
    match build a, build b with
    | Some x, Some y => match apply o x y with Ret v => Some v | _ => None end
    | _, _ => None
    end
  | ENeg a => match build a with Some x => match neg x with Ret v => Some v | _ => None end | None => None end
  end.

(** ** Printing parameter arithmetic: _parenthize_repr and __repr__, linear_math.py 22-27, 151-155,
    176-181.  Numbers have no precedence attribute, hence 0.  [None]: a linear component inside
    (its text is not modelled). *)
Definition prec (e : pexpr) : nat :=
  match e with
  | PNum _ | PComp _ => 0 | PRef _ => 99 | PNoop _ => 98
  | POp o _ _ => match o with Plus | Minus => 10 | _ => 11 end
  end.
(** __repr__ of the parameter operations, linear_math.py 22-27, 151-155, 176-181. *)
Fixpoint show (e : pexpr) : option text :=
  let wrap p x t := if Nat.ltb (prec x) p then TL :: t ++ [TR] else t in
  match e with
  | PNum x => Some (num_text x)
  | PRef s => Some [TA s]
  | PComp _ => None
  | PNoop a => match show a with Some t => Some (wrap 98%nat a t) | None => None end
  | POp o a b =>
    match show a, show b with
    | Some t, Some u => Some (wrap (prec e) a t ++ TO o :: wrap (prec e) b u)
    | _, _ => None
    end
  end.
End Larch.

(** ** Evaluation *)
Section Meaning.
(** Values of data names (and of user texts), of parameters, and of Python's operators that are
    not field operations. *)
Variable x : string -> R.
Variable p : string -> R.
Variable other : op -> R -> R -> R.
Variable inv : R -> R.

(** The operators [value] applies: linear_math.py 195-252. *)
Definition arith (o : op) : R -> R -> R :=
  match o with
  | Plus => Rplus | Minus => Rminus | Times => Rmult | Div => Rdiv | o => other o
  end.
(** Value of a parsed expression: DataRef_C.eval, linear.pyx 399-414. *)
Fixpoint eval (e : py) : R :=
  match e with
  | YA s => x s | YN v => v
  | YBin o a b => arith o (eval a) (eval b)
  | YNeg a => - eval a | YInv a => inv (eval a)
  end.
(** DataRef_C.eval (linear.pyx 399-414): the text [t], read as a Python expression, has value [v].
    Division is Coq's, total: a zero divisor is not an error here. *)
Definition means (t : text) (v : R) : Prop :=
  exists fuel e, parse fuel Whole t = Some (e, []) /\ eval e = v.

(** LinearComponent_C.evaluate (linear.pyx 721-731): scale * parameter * data;
    LinearFunction_C.evaluate (1217-1243): the sum over its components. *)
Definition comp_means (c : comp) (v : R) : Prop :=
  exists d, means (c_data c) d /\ v = c_scale c * p (c_param c) * d.
(** LinearFunction_C.evaluate, linear.pyx 1243: the sum over components. *)
Inductive fun_means : list comp -> R -> Prop :=
| fm_nil : fun_means [] 0
| fm_cons c l a b : comp_means c a -> fun_means l b -> fun_means (c :: l) (a + b).
(** [value] of the parameter operations, linear_math.py 195-269 and linear.pyx 171-193: a component inside an expression does not give a number. *)
Fixpoint pvalue (e : pexpr) : option R :=
  match e with
  | PNum v => Some v
  | PRef s => Some (p s)
  | PComp _ => None
  | PNoop a => pvalue a
  | POp o a b => match pvalue a, pvalue b with Some u, Some v => Some (arith o u v) | _, _ => None end
  end.
(** The value an object evaluates to, whatever its class. *)
(** [evaluate]/[value] by class: linear.pyx 171-193, 399-414, 721-731, 1217-1246; linear_math.py 195-260. *)
Definition val_means (v : val) (r : R) : Prop :=
  match v with
  | VNum a => r = a
  | VPar s => r = p s
  | VDat d => means d r
  | VComp c => comp_means c r
  | VFun l => fun_means l r
  | VOp e => pvalue e = Some r
  end.
End Meaning.
