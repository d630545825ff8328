(** Model of reading a table that has one row per case and alternative into a dense Dataset: [from_idca] in
    larch/dataset/construct.py 154-217, with the parts it calls: the xarray conversion of a two-level index
    ([construct], line 194), [dissolve_zero_variance] (larch/dataset/flow.py 379-420), [set_dtypes]
    (larch/dataset/patch.py 60-97), [set_altnames] (flow.py 205-240) and [alts_mapping] (flow.py 326-333).
    Also the attachment of alternative names in [_initialize_for_larch] (construct.py 19-78).

    Simplifications.  Numbers are exact: integers are [Z] and floats are [Q] or the missing value, so the
    rounding of integers beyond 2^53 is not modelled.  The standard deviation is compared through its square.
    Case ids are integers.  Data types are the eight-byte integer, the eight-byte float, the boolean, the
    one-byte integer of the availability and everything else ("object").  A dataset with one alternative, where
    the coordinate itself would be dissolved, is outside the theorems. *)
From Coq Require Export String ZArith QArith List Bool Lia.
Export ListNotations.
Open Scope nat_scope.

(** ** Cells and columns *)
(** One entry of an array: an integer, a float, the missing value NaN, a boolean, a piece of text.
    construct.py 155: the DataFrame's entries. *)
Inductive cell := CI (z : Z) | CF (q : Q) | CB (b : bool) | CS (s : string) | CNaN.
(** numpy data types as far as construct.py 201-216 and patch.py 60-97 tell them apart. *)
Inductive dtype := DInt | DInt8 | DFloat | DBool | DObj.
(** Decidable equality, for [i.dtype not in fill_missing] (construct.py 208). *)
Definition dtype_eqb (a b : dtype) : bool :=
  match a, b with
  | DInt, DInt | DInt8, DInt8 | DFloat, DFloat | DBool, DBool | DObj, DObj => true
  | _, _ => false
  end.
(** The number an entry stands for in arithmetic (flow.py 415: [std] and [min] of integers and booleans). *)
Definition num (c : cell) : option Q :=
  match c with
  | CI z => Some (inject_Z z) | CF q => Some q | CB b => Some (if b then 1 else 0)%Q | _ => None
  end.

(** ** The table *)
(** The second level of the index: signed integers, or anything else (construct.py 188:
    [dtype.kind != 'i']); unsigned integers are "anything else". *)
Inductive label := LName (s : string) | LNum (z : Z).
(** construct.py 188. *)
Inductive altlevel := AInt (l : list Z) | AOther (l : list label).
(** A DataFrame with a two-level index (construct.py 183-186): the distinct values of either level, for each
    row its position in them ([None] is the code -1), and the columns. *)
Record table := { t_cases : list Z; t_alts : altlevel; t_codes : list (nat * option nat);
                  t_cols : list (string * (dtype * list cell)) }.

(** Decidable equality of labels (construct.py 193: categories are found by equality). *)
Definition label_eqb (a b : label) : bool :=
  match a, b with
  | LName s, LName t => String.eqb s t
  | LNum x, LNum y => Z.eqb x y
  | _, _ => false
  end.
(** Position of the first element with a property (categories, coordinates: construct.py 193). *)
Fixpoint position {A} (p : A -> bool) (l : list A) : option nat :=
  match l with
  | [] => None
  | x :: r => if p x then Some O else option_map S (position p r)
  end.
(** A value, or the exception raised (construct.py 183-217). *)
Inductive res (A : Type) := Ok (a : A) | ValueErr | KeyErr.
Arguments Ok {A} _. Arguments ValueErr {A}. Arguments KeyErr {A}.
(** Exceptions stop the computation. construct.py 154-217. *)
Definition bind {A B} (x : res A) (f : A -> res B) : res B :=
  match x with Ok a => f a | ValueErr => ValueErr | KeyErr => KeyErr end.

(** Whether the elements of a list differ (categories must be unique, construct.py 193). *)
Fixpoint distinctb {A} (eqb : A -> A -> bool) (l : list A) : bool :=
  match l with [] => true | x :: r => negb (existsb (eqb x) r) && distinctb eqb r end.
(** The largest code must be within the levels (pandas [set_codes] and [set_levels], construct.py 194). *)
Definition codes_fit (n : nat) (codes : list (nat * option nat)) : bool :=
  forallb (fun c => match snd c with Some j => j <? n | None => true end) codes.
(** [np.arange(1, n + 1)], construct.py 191 and 194. *)
Definition one_to (n : nat) : list Z := map (fun i => Z.of_nat (S i)) (seq 0 n).
(** The alternatives' codes, each row's position in them and the names to attach (construct.py 187-194).
    A code outside the old levels is refused when the new codes are set, before the new levels are. *)
Definition relabel (t : table) (altnames : option (list label))
  : res (list Z * list (nat * option nat) * option (list label)) :=
  match t_alts t with
  | AInt l => Ok (l, t_codes t, altnames)
  | AOther l =>
    match altnames with
    | None => Ok (one_to (length l), t_codes t, Some l)
    | Some given =>
      if negb (distinctb label_eqb given) then ValueErr
      else
        let recode (c : nat * option nat) :=
          (fst c, match snd c with
                  | Some j => match nth_error l j with
                              | Some a => position (label_eqb a) given
                              | None => None
                              end
                  | None => None
                  end) in
        let codes := map recode (t_codes t) in
        if negb (codes_fit (length l) codes) then ValueErr
        else Ok (one_to (length given), codes, Some given)
    end
  end.

(** ** The xarray conversion: [construct] on line 194, xarray's [Dataset.from_dataframe] *)
(** [remove_unused_levels]: the levels some row uses, in order, and the new code of an old one
    (construct.py 196). *)
Definition used_levels {A} (l : list A) (codes : list nat) : list A :=
  map fst (filter (fun p => existsb (Nat.eqb (snd p)) codes) (combine l (seq 0 (length l)))).
(** construct.py 196. *)
Definition new_code (codes : list nat) (c : nat) : nat :=
  length (filter (fun k => existsb (Nat.eqb k) codes) (seq 0 c)).
(** Codes that are not missing (construct.py 196). *)
Definition some_codes (codes : list (nat * option nat)) : list nat :=
  flat_map (fun c => match snd c with Some j => [j] | None => [] end) codes.
(** [idx.is_unique], checked before anything is copied (construct.py 196). *)
Definition pair_eqb (a b : nat * option nat) : bool :=
  Nat.eqb (fst a) (fst b) &&
  match snd a, snd b with Some x, Some y => Nat.eqb x y | None, None => true | _, _ => false end.
(** [data[indexer] = values]: the last row written to a place stays; the code -1 is numpy's last position
    (construct.py 196). *)
Definition target (n_alts : nat) (c : nat * option nat) : nat * nat :=
  (fst c, match snd c with Some j => j | None => n_alts - 1 end).
(** construct.py 196. *)
Fixpoint last_written (codes : list (nat * nat)) (vals : list cell) (i j : nat) : option cell :=
  match codes, vals with
  | c :: cs, v :: vs =>
    match last_written cs vs i j with
    | Some w => Some w
    | None => if Nat.eqb (fst c) i && Nat.eqb (snd c) j then Some v else None
    end
  | _, _ => None
  end.
(** xarray's [maybe_promote]: what a data type becomes when cells may be missing (construct.py 196). *)
Definition promote (d : dtype) : dtype :=
  match d with DInt | DInt8 | DFloat => DFloat | DBool | DObj => DObj end.
(** numpy's conversion of an entry to a data type.  [junk] is what the missing value becomes as an
    integer; as a boolean it is true (patch.py 90). *)
Definition cast (junk : Z) (d : dtype) (c : cell) : cell :=
  match d, c with
  | (DInt | DInt8), CF q => CI (Z.quot (Qnum q) (Zpos (Qden q)))
  | (DInt | DInt8), CB b => CI (if b then 1 else 0)
  | (DInt | DInt8), CNaN => CI junk
  | DFloat, CI z => CF (inject_Z z)
  | DFloat, CB b => CF (if b then 1 else 0)%Q
  | DBool, CI z => CB (negb (Z.eqb z 0))
  | DBool, CF q => CB (negb (Qeq_bool q 0))
  | DBool, CNaN => CB true
  | _, _ => c
  end.
(** A variable: one value per case and alternative, or one per case (flow.py 413-420). *)
Inductive var := Dense (d : dtype) (rows : list (list cell)) | PerCase (d : dtype) (vals : list cell).
(** A dataset with a case and an alternative dimension; [d_altnames] is the coordinate 'altnames' written by
    [set_altnames] (flow.py 239) and [d_alt_names] the coordinate 'alt_names' (construct.py 72-76). *)
Record dataset := { d_cases : list Z; d_alts : list Z; d_vars : list (string * var);
                    d_altnames : option (list (option label)); d_alt_names : option (list label) }.
(** One array (construct.py 196): with missing cells the data type is promoted. *)
Definition to_dense (nc na : nat) (codes : list (nat * nat)) (d : dtype) (vals : list cell) : var :=
  if length codes <? nc * na then
    Dense (promote d)
      (map (fun i => map (fun j => match last_written codes vals i j with
                                   | Some v => cast 0 (promote d) v
                                   | None => CNaN
                                   end) (seq 0 na)) (seq 0 nc))
  else
    Dense d
      (map (fun i => map (fun j => match last_written codes vals i j with
                                   | Some v => v
                                   | None => CI 0
                                   end) (seq 0 na)) (seq 0 nc)).
(** construct.py 196. *)
Definition from_frame (cases alts : list Z) (codes : list (nat * option nat))
    (cols : list (string * (dtype * list cell))) : res dataset :=
  if negb (distinctb pair_eqb codes) then ValueErr
  else
    let cc := map fst codes in
    let ac := some_codes codes in
    let cases' := used_levels cases cc in
    let alts' := used_levels alts ac in
    let codes' := map (fun c => (new_code cc (fst c), option_map (new_code ac) (snd c))) codes in
    let at_ := map (target (length alts')) codes' in
    Ok {| d_cases := cases'; d_alts := alts';
          d_vars := map (fun kc => (fst kc, to_dense (length cases') (length alts') at_ (fst (snd kc)) (snd (snd kc)))) cols;
          d_altnames := None; d_alt_names := None |}.

(** ** dissolve_zero_variance on dense arrays (flow.py 379-420), where missing values are skipped *)
(** The numbers of a row that are present (flow.py 415: skipna). *)
Definition present (row : list cell) : list Q :=
  flat_map (fun c => match num c with Some q => [q] | None => [] end) row.
(** numpy mean and sum, flow.py 415. *)
Definition Qsum (l : list Q) : Q := fold_right Qplus 0%Q l.
(** flow.py 415. *)
Definition Qmean (l : list Q) : Q := (Qsum l / inject_Z (Z.of_nat (length l)))%Q.
(** The square of xarray's [std] (flow.py 415). *)
Definition variance (l : list Q) : Q := Qmean (map (fun x => (x - Qmean l) * (x - Qmean l)) l)%Q.
(** Square of 1e-10 (flow.py 415). *)
Definition tiny : Q := 1 # (10 ^ 20).
(** The largest standard deviation is below the tolerance: rows without values give NaN, which [max] skips,
    and NaN alone is not below anything (flow.py 415). *)
Definition dissolves (rows : list (list cell)) : bool :=
  let some := filter (fun r => match present r with [] => false | _ => true end) rows in
  match some with
  | [] => false
  | _ => forallb (fun r => negb (Qle_bool tiny (variance (present r)))) some
  end.
(** The entry with the least number, [min] over the alternatives skipping missing values (flow.py 420). *)
Fixpoint least (row : list cell) : cell :=
  match row with
  | [] => CNaN
  | c :: r =>
    match num c, num (least r) with
    | Some x, Some y => if Qle_bool x y then c else least r
    | Some _, None => c
    | None, _ => least r
    end
  end.
(** flow.py 407-420: text and object variables are left alone. *)
Definition dissolve (v : var) : var :=
  match v with
  | Dense DObj _ => v
  | Dense d rows => if dissolves rows then PerCase d (map least rows) else v
  | PerCase _ _ => v
  end.
(** patch.py 60-97. *)
Definition retype (junk : Z) (d : dtype) (v : var) : var :=
  match v with
  | Dense _ rows => Dense d (map (map (cast junk d)) rows)
  | PerCase _ vals => PerCase d (map (cast junk d) vals)
  end.
(** The first value under a name (Python mapping lookup; construct.py 201, 208). *)
Definition look {A} (k : string) (l : list (string * A)) : option A :=
  option_map snd (find (fun p => String.eqb k (fst p)) l).
(** [for k in obj], patch.py 86-90: the data type of the table's own column. *)
Definition set_dtypes (junk : Z) (cols : list (string * (dtype * list cell))) (vars : list (string * var))
  : list (string * var) :=
  map (fun kv => (fst kv, match look (fst kv) cols with
                          | Some dc => retype junk (fst dc) (snd kv)
                          | None => snd kv
                          end)) vars.

(** ** set_altnames (flow.py 205-240) *)
(** [altnames] is a list of names or a mapping of codes to names (flow.py 211-214). *)
Inductive naming := NList (l : list label) | NMap (m : list (Z * label)).
(** flow.py 226-240: a list must have one name for each alternative. *)
Definition set_altnames (n : naming) (ds : dataset) : res dataset :=
  let put names := {| d_cases := d_cases ds; d_alts := d_alts ds; d_vars := d_vars ds;
                      d_altnames := Some names; d_alt_names := d_alt_names ds |} in
  match n with
  | NList l => if Nat.eqb (length l) (length (d_alts ds)) then Ok (put (map Some l)) else ValueErr
  | NMap m => Ok (put (map (fun a => option_map snd (find (fun p => Z.eqb a (fst p)) m)) (d_alts ds)))
  end.
(** alts_mapping, flow.py 326-333: reads 'alt_names'. *)
Definition alts_mapping (ds : dataset) : list (Z * label) :=
  match d_alt_names ds with
  | Some names => combine (d_alts ds) names
  | None => combine (d_alts ds) (map LNum (d_alts ds))
  end.

(** ** fill_missing (construct.py 204-216) *)
(** A key of the mapping: a variable's name or a data type (construct.py 175-177). *)
Inductive fkey := KVar (s : string) | KType (d : dtype).
(** The argument (construct.py 175-177). *)
Inductive filling := FScalar (c : cell) | FMap (m : list (fkey * cell)).
(** Lookup in the mapping (construct.py 208-210). *)
Definition fkey_eqb (a b : fkey) : bool :=
  match a, b with
  | KVar s, KVar t => String.eqb s t
  | KType x, KType y => dtype_eqb x y
  | _, _ => false
  end.
(** construct.py 208-210. *)
Definition fget (k : fkey) (m : list (fkey * cell)) : option cell :=
  option_map snd (find (fun p => fkey_eqb k (fst p)) m).
(** [x != 0] (construct.py 211, 216): the missing value and text differ from zero. *)
Definition nonzero (c : cell) : bool :=
  match c with
  | CI z => negb (Z.eqb z 0) | CF q => negb (Qeq_bool q 0) | CB b => b | CS _ | CNaN => true
  end.
(** The data type of a fill value (construct.py 211, 216). *)
Definition dtype_of (c : cell) : dtype :=
  match c with CI _ => DInt | CF _ | CNaN => DFloat | CB _ => DBool | CS _ => DObj end.
(** numpy's common data type, as far as it matters to the entries (construct.py 211, 216). *)
Definition common (a b : dtype) : dtype :=
  match a, b with
  | DObj, _ | _, DObj => DObj
  | DFloat, _ | _, DFloat => DFloat
  | DBool, DBool => DBool
  | DInt8, (DInt8 | DBool) | DBool, DInt8 => DInt8
  | _, _ => DInt
  end.
(** One row of an indicator, for a case (construct.py 211, 216: a variable without the alternative dimension
    is broadcast). *)
Definition flags (v : var) (na i : nat) : list bool :=
  match v with
  | Dense _ rows => map nonzero (nth i rows [])
  | PerCase _ vals => repeat (nonzero (nth i vals CNaN)) na
  end.
(** [i.where(flag, filler)], construct.py 211, 216. *)
Definition where_ (na : nat) (flag : var) (filler : cell) (d : dtype) (rows : list (list cell)) : var :=
  let d' := common d (dtype_of filler) in
  Dense d' (map (fun ir => map (fun p => if fst p : bool then cast 0 d' (snd p) else cast 0 d' filler)
                             (combine (flags flag na (fst ir)) (snd ir)))
              (combine (seq 0 (length rows)) rows)).
(** [ds[k] = v] for a name already there (construct.py 211, 216). *)
Definition put (k : string) (v : var) (vars : list (string * var)) : list (string * var) :=
  map (fun p => if String.eqb k (fst p) then (fst p, v) else p) vars.
(** The body of either loop for one variable (construct.py 206-211, 213-216).  The default of
    [fill_missing.get] is evaluated first, so a data type that is not a key raises.  The indicator read is
    always the one called '_avail_'. *)
Definition fill_one (na : nat) (f : filling) (vars : list (string * var)) (k : string) : res (list (string * var)) :=
  match look k vars with
  | Some (Dense d rows) =>
    let go filler :=
      match look "_avail_"%string vars with
      | Some flag => Ok (put k (where_ na flag filler d rows) vars)
      | None => KeyErr
      end in
    match f with
    | FScalar c => go c
    | FMap m =>
      match fget (KVar k) m, fget (KType d) m with
      | None, None => Ok vars
      | _, None => KeyErr
      | Some c, Some _ => go c
      | None, Some c => go c
      end
    end
  | _ => Ok vars
  end.
(** construct.py 206, 213: the loop over the variables. *)
Fixpoint fill_all (na : nat) (f : filling) (ks : list string) (vars : list (string * var)) : res (list (string * var)) :=
  match ks with
  | [] => Ok vars
  | k :: r => bind (fill_one na f vars k) (fill_all na f r)
  end.

(** ** from_idca (construct.py 154-217) *)
(** The options (construct.py 155). *)
Record options := { o_crack : bool; o_altnames : option naming; o_avail : string; o_fill : option filling }.
(** The defaults (construct.py 155). *)
Definition defaults : options := {| o_crack := true; o_altnames := None; o_avail := "_avail_"; o_fill := None |}.
(** Names given as a list (construct.py 187-194 uses them as categories; a mapping's keys would be used,
    which is not modelled: only integer alternatives take a mapping). *)
Definition listed (n : option naming) : option (list label) :=
  match n with Some (NList l) => Some l | _ => None end.
(** The names attached on lines 200-201: those given, or the old labels (construct.py 190). *)
Definition naming_of (given : option naming) (found : option (list label)) : option naming :=
  match given with
  | Some n => Some n
  | None => option_map NList found
  end.
(** The availability written on lines 203-204: one where there is a row, zero elsewhere, as one-byte
    integers (construct.py 203-204). *)
Definition computed_avail (nc na : nat) (codes : list (nat * nat)) : var :=
  Dense DInt8 (map (fun i => map (fun j =>
    match last_written codes (repeat (CI 1) (length codes)) i j with
    | Some _ => CI 1 | None => CI 0 end) (seq 0 na)) (seq 0 nc)).
(** The dataset's rows as the conversion places them (construct.py 196, 203). *)
Definition placed (alts : list Z) (codes : list (nat * option nat)) : list (nat * nat) :=
  let cc := map fst codes in
  let ac := some_codes codes in
  map (target (length (used_levels alts ac)))
      (map (fun c => (new_code cc (fst c), option_map (new_code ac) (snd c))) codes).
(** Replace the variables of a dataset (construct.py 197-216). *)
Definition with_vars (ds : dataset) (vars : list (string * var)) : dataset :=
  {| d_cases := d_cases ds; d_alts := d_alts ds; d_vars := vars;
     d_altnames := d_altnames ds; d_alt_names := d_alt_names ds |}.
(** construct.py 154-217. *)
Definition from_idca (junk : Z) (o : options) (t : table) : res dataset :=
  bind (relabel t (listed (o_altnames o))) (fun '(alts, codes, names) =>
  bind (from_frame (t_cases t) alts codes (t_cols t)) (fun ds =>
  let vars1 := if o_crack o then map (fun kv => (fst kv, dissolve (snd kv))) (d_vars ds) else d_vars ds in
  let vars2 := set_dtypes junk (t_cols t) vars1 in
  bind (match naming_of (o_altnames o) names with
        | Some n => set_altnames n (with_vars ds vars2)
        | None => Ok (with_vars ds vars2)
        end) (fun ds3 =>
  let nc := length (d_cases ds3) in
  let na := length (d_alts ds3) in
  if negb (existsb (fun kv => String.eqb (o_avail o) (fst kv)) (d_vars ds3)) && (length codes <? nc * na) then
    let vars4 := (d_vars ds3 ++ [(o_avail o, computed_avail nc na (placed alts codes))])%list in
    match o_fill o with
    | None => Ok (with_vars ds3 vars4)
    | Some f => bind (fill_all na f (map fst vars4) vars4) (fun vars5 => Ok (with_vars ds3 vars5))
    end
  else Ok ds3))).
(** What is left of the table the caller passed: its index has been replaced when the alternatives were not
    integers (construct.py 191, 194). *)
Definition table_after (o : options) (t : table) : table :=
  match relabel t (listed (o_altnames o)), t_alts t with
  | Ok (alts, codes, _), AOther _ => {| t_cases := t_cases t; t_alts := AInt alts; t_codes := codes; t_cols := t_cols t |}
  | _, _ => t
  end.

(** ** Names attached by the generic constructor (construct.py 19-78) *)
(** A mapping between codes and names, in either direction (construct.py 47-54): the coordinate holds the
    integers. *)
Inductive direction := CodeToName (m : list (Z * string)) | NameToCode (m : list (string * Z)).
(** construct.py 69-76. *)
Definition attach (m : direction) (ds : dataset) : dataset :=
  match m with
  | CodeToName l => {| d_cases := d_cases ds; d_alts := map fst l; d_vars := d_vars ds; d_altnames := d_altnames ds;
                       d_alt_names := Some (map (fun p => LName (snd p)) l) |}
  | NameToCode l => {| d_cases := d_cases ds; d_alts := map snd l; d_vars := d_vars ds; d_altnames := d_altnames ds;
                       d_alt_names := Some (map (fun p => LName (fst p)) l) |}
  end.
