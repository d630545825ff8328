(** Model of constraint strings: interpret_contraint and asfloat (larch/model/constraints.py 525-585), the
    one-string form of OrderingBound (207-221) and adding a string to the constraint list (466-500).

    Simplifications: text is a list of 8-bit characters read as Latin-1 (Python strings are Unicode); a decimal
    numeral is read as the exact real it denotes (Python's float rounds it to 53 bits, and overflows to
    infinity). *)
From Verif Require Import ParamModel ConsModel.
From Coq Require Import Ascii.
Open Scope R_scope.

(** A Python string (constraints.py 531). *)
Definition text := list ascii.
(** The code point of a character (Latin-1). *)
Definition code (c : ascii) : nat := nat_of_ascii c.
(** A character by its code point, e.g. '<' (constraints.py 535). *)
Definition chr (n : nat) (c : ascii) : bool := Nat.eqb (code c) n.
(** A range of code points, e.g. 0-9 (constraints.py 532). *)
Definition rng (a b : nat) (c : ascii) : bool := Nat.leb a (code c) && Nat.leb (code c) b.
(** [\s]: str.isspace (constraints.py 532-533). *)
Definition is_space (c : ascii) : bool :=
  rng 9 13 c || rng 28 32 c || chr 133 c || chr 160 c.
(** [\d] (constraints.py 532). *)
Definition is_digit (c : ascii) : bool := rng 48 57 c.
(** [\w]: letters, digits, underscore; beyond ASCII the Latin-1 characters with str.isalnum
    (constraints.py 533). *)
Definition is_word (c : ascii) : bool :=
  is_digit c || rng 65 90 c || rng 97 122 c || chr 95 c || chr 170 c || chr 178 c || chr 179 c || chr 181 c
  || chr 185 c || chr 186 c || chr 188 c || chr 189 c || chr 190 c || rng 192 214 c || rng 216 246 c || rng 248 255 c.
(** [[\w#:\*&^%\$!@]] (constraints.py 533): # : * & ^ % $ ! @. *)
Definition is_name (c : ascii) : bool :=
  is_word c || chr 35 c || chr 58 c || chr 42 c || chr 38 c || chr 94 c || chr 37 c || chr 36 c || chr 33 c || chr 64 c.
(** [[-+]] (constraints.py 532). *)
Definition is_sign (c : ascii) : bool := chr 45 c || chr 43 c.
(** [[eE]] (constraints.py 532). *)
Definition is_exp (c : ascii) : bool := chr 101 c || chr 69 c.

(** The regular expressions used at constraints.py 532-585: repetition is of single characters only. *)
Inductive rx :=
| One (c : ascii -> bool) | Opt (c : ascii -> bool) | Star (c : ascii -> bool)
| Seq (a b : rx) | Alt (a b : rx) | Grp (a : rx).

(** Greedy repetition with backtracking ([c*], Python's re as used at constraints.py 536). *)
Fixpoint star {A} (c : ascii -> bool) (s : text) (k : text -> option A) : option A :=
  match s with
  | x :: s' => if c x then match star c s' k with Some a => Some a | None => k s end else k s
  | [] => k []
  end.
(** Python's backtracking matcher (re.match at constraints.py 536): the first success in priority order;
    [cs] are the groups captured so far, [k] the rest of the pattern. *)
Fixpoint rmatch {A} (r : rx) (s : text) (cs : list text) (k : text -> list text -> option A) : option A :=
  match r with
  | One c => match s with x :: s' => if c x then k s' cs else None | [] => None end
  | Opt c => match s with
             | x :: s' => if c x then match k s' cs with Some a => Some a | None => k s cs end else k s cs
             | [] => k s cs
             end
  | Star c => star c s (fun s' => k s' cs)
  | Seq a b => rmatch a s cs (fun s' cs' => rmatch b s' cs' k)
  | Alt a b => match rmatch a s cs k with Some x => Some x | None => rmatch b s cs k end
  | Grp a => rmatch a s cs (fun s' cs' => k s' (cs' ++ [firstn (length s - length s') s]))
  end.
(** [$]: the end, or before a final newline (constraints.py 535). *)
Definition at_end (s : text) : bool :=
  match s with [] => true | [c] => chr 10 c | _ => false end.
(** [re.match(f"^{r}$", c)] and its groups (constraints.py 535-536). *)
Definition re_match (r : rx) (c : text) : option (list text) :=
  rmatch r c [] (fun s cs => if at_end s then Some cs else None).

(** [c+] (constraints.py 532-533). *)
Definition Plus (c : ascii -> bool) : rx := Seq (One c) (Star c).
(** [\s*(...)\s*] (constraints.py 532-533). *)
Definition spaced (r : rx) : rx := Seq (Star is_space) (Seq (Grp r) (Star is_space)).
(** [[-+]?\d*\.?\d*[eE]?[-+]?\d*] (constraints.py 532). *)
Definition rx_decimal : rx :=
  Seq (Opt is_sign) (Seq (Star is_digit) (Seq (Opt (chr 46)) (Seq (Star is_digit)
    (Seq (Opt is_exp) (Seq (Opt is_sign) (Star is_digit)))))).
(** [\d+\/\d+] (constraints.py 532). *)
Definition rx_fraction : rx := Seq (Plus is_digit) (Seq (One (chr 47)) (Plus is_digit)).
(** [numbr] (constraints.py 532). *)
Definition numbr : rx := spaced (Alt rx_decimal rx_fraction).
(** [token] (constraints.py 533). *)
Definition token : rx := spaced (Plus is_name).
(** [(<=|<)] (constraints.py 535). *)
Definition rx_le : rx := Grp (Alt (Seq (One (chr 60)) (One (chr 61))) (One (chr 60))).
(** [(>=|>)] (constraints.py 545). *)
Definition rx_ge : rx := Grp (Alt (Seq (One (chr 62)) (One (chr 61))) (One (chr 62))).
(** [/] between two tokens (constraints.py 570). *)
Definition rx_slash : rx := One (chr 47).

(** The ten patterns (constraints.py 535, 540, 545, 550, 555, 560, 565, 570, 575, 580). *)
Definition n_2w : rx := Seq numbr (Seq rx_le (Seq token (Seq rx_le numbr))).
(** constraints.py 540. *)
Definition le_n : rx := Seq token (Seq rx_le numbr).
(** constraints.py 545. *)
Definition ge_n : rx := Seq token (Seq rx_ge numbr).
(** constraints.py 550. *)
Definition n_le : rx := Seq numbr (Seq rx_le token).
(** constraints.py 555. *)
Definition n_ge : rx := Seq numbr (Seq rx_ge token).
(** constraints.py 560. *)
Definition p_le : rx := Seq token (Seq rx_le token).
(** constraints.py 565. *)
Definition p_ge : rx := Seq token (Seq rx_ge token).
(** constraints.py 570. *)
Definition r_le : rx := Seq token (Seq rx_slash (Seq token (Seq rx_le numbr))).
(** constraints.py 575. *)
Definition r_ge : rx := Seq token (Seq rx_slash (Seq token (Seq rx_ge numbr))).
(** constraints.py 580. *)
Definition r_2w : rx := Seq numbr (Seq rx_le (Seq token (Seq rx_slash (Seq token (Seq rx_le numbr))))).

(** Longest prefix of digits (part of float(), constraints.py 529). *)
Fixpoint span_digits (s : text) : text * text :=
  match s with
  | x :: s' => if is_digit x then let '(a, b) := span_digits s' in (x :: a, b) else ([], s)
  | [] => ([], [])
  end.
(** The integer a run of digits denotes (constraints.py 529). *)
Fixpoint dec (acc : Z) (s : text) : Z :=
  match s with [] => acc | x :: s => dec (10 * acc + Z.of_nat (code x - 48)) s end.
(** An optional sign (constraints.py 529). *)
Definition take_sign (s : text) : Z * text :=
  match s with
  | x :: s' => if chr 45 x then ((-1)%Z, s') else if chr 43 x then (1%Z, s') else (1%Z, s)
  | [] => (1%Z, [])
  end.
(** The exponent part of float()'s argument; [None]: ValueError (constraints.py 529). *)
Definition take_exp (s : text) : option Z :=
  match s with
  | [] => Some 0%Z
  | x :: s =>
    if is_exp x then
      let '(g, s) := take_sign s in
      match span_digits s with
      | ((_ :: _) as d, []) => Some (g * dec 0 d)%Z
      | _ => None
      end
    else None
  end.
(** [float(x)] on text without blanks or underscores; [None]: ValueError (constraints.py 529). *)
Definition pyfloat (s : text) : option R :=
  let '(g, s) := take_sign s in
  let '(i, s) := span_digits s in
  let '(f, s) := match s with
                 | x :: s' => if chr 46 x then span_digits s' else ([], s)
                 | [] => ([], [])
                 end in
  match i ++ f with
  | [] => None
  | d => match take_exp s with
         | Some e => Some (IZR (g * dec 0 d) * powerRZ 10 (e - Z.of_nat (length f)))
         | None => None
         end
  end.
(** [x.split("/")] as far as its first two parts are used (constraints.py 527-528). *)
Fixpoint until_slash (s : text) : text :=
  match s with [] => [] | x :: s => if chr 47 x then [] else x :: until_slash s end.
(** What follows the first slash (constraints.py 527). *)
Fixpoint after_slash (s : text) : text :=
  match s with [] => [] | x :: s => if chr 47 x then s else after_slash s end.
(** [asfloat] (constraints.py 525-529); [None]: ValueError or ZeroDivisionError. *)
Definition asfloat (s : text) : option R :=
  if existsb (chr 47) s then
    match pyfloat (until_slash s), pyfloat (until_slash (after_slash s)) with
    | Some a, Some b => if Req_EM_T b 0 then None else Some (a / b)
    | _, _ => None
    end
  else pyfloat s.

(** How interpret_contraint ends (constraints.py 531-585): a constraint, an exception of asfloat, or the
    final ValueError. *)
Inductive reading := Says (s : cspec) | BadNumber | NotAConstraint.
(** A number in a group (constraints.py 538 etc.). *)
Definition with_number (w : text) (k : R -> reading) : reading :=
  match asfloat w with Some r => k r | None => BadNumber end.
(** The name in a group, as a key of the parameter frame (constraints.py 538 etc.). *)
Definition str (s : text) : string := string_of_list_ascii s.
(** The n-th group of a match, counted from 1 (constraints.py 538 etc.). *)
Definition group (n : nat) (gs : list text) : text := nth (n - 1) gs [].

(** [interpret_contraint] (constraints.py 531-585). *)
Definition interpret (c : text) : reading :=
  match re_match n_2w c with
  | Some g => with_number (group 1 g) (fun lo => with_number (group 5 g) (fun hi =>
      Says (Fixed (str (group 3 g)) (Some (Fin lo)) (Some (Fin hi)))))
  | None =>
  match re_match le_n c with
  | Some g => with_number (group 3 g) (fun hi => Says (Fixed (str (group 1 g)) None (Some (Fin hi))))
  | None =>
  match re_match ge_n c with
  | Some g => with_number (group 3 g) (fun lo => Says (Fixed (str (group 1 g)) (Some (Fin lo)) None))
  | None =>
  match re_match n_le c with
  | Some g => with_number (group 1 g) (fun lo => Says (Fixed (str (group 3 g)) (Some (Fin lo)) None))
  | None =>
  match re_match n_ge c with
  | Some g => with_number (group 1 g) (fun hi => Says (Fixed (str (group 3 g)) None (Some (Fin hi))))
  | None =>
  match re_match p_le c with
  | Some g => Says (Order (str (group 1 g)) (str (group 3 g)))
  | None =>
  match re_match p_ge c with
  | Some g => Says (Order (str (group 3 g)) (str (group 1 g)))
  | None =>
  match re_match r_le c with
  | Some g => with_number (group 4 g) (fun hi => Says (Ratio (str (group 1 g)) (str (group 2 g)) None (Some hi)))
  | None =>
  match re_match r_ge c with
  | Some g => with_number (group 4 g) (fun lo => Says (Ratio (str (group 1 g)) (str (group 2 g)) (Some lo) None))
  | None =>
  match re_match r_2w c with
  | Some g => with_number (group 1 g) (fun lo => with_number (group 6 g) (fun hi =>
      Says (Ratio (str (group 3 g)) (str (group 4 g)) (Some lo) (Some hi))))
  | None => NotAConstraint
  end end end end end end end end end end.

(** Inserting a string into the constraint list (constraints.py 489-500): the text is read, then the
    constraint is added as usual; a reading error leaves the list alone. *)
Definition cl_insert_text (f : frame) (tol : R) (i : Z) (c : text) (l : clist) : cres :=
  match interpret c with
  | Says s => cl_insert f i (new_cons tol s) l
  | _ => CExn l
  end.
(** Replacing an item by a string (constraints.py 466-477). *)
Definition cl_set_text (f : frame) (tol : R) (i : Z) (c : text) (l : clist) : cres :=
  match interpret c with
  | Says s => cl_set f i (new_cons tol s) l
  | _ => CExn l
  end.

(** ** The one-string form of OrderingBound (constraints.py 212-223). *)
(** [str.strip()] on the left (constraints.py 214). *)
Fixpoint lstrip (s : text) : text :=
  match s with x :: s' => if is_space x then lstrip s' else s | [] => [] end.
(** [str.strip()] (constraints.py 214). *)
Definition strip (s : text) : text := rev (lstrip (rev (lstrip s))).
(** Does the text begin with the separator ([in], [split]; constraints.py 213-214). *)
Fixpoint starts (sep : list nat) (s : text) : option text :=
  match sep, s with
  | [], _ => Some s
  | n :: sep, x :: s => if chr n x then starts sep s else None
  | _ :: _, [] => None
  end.
(** [s.split(sep, 1)] when [sep in s], else [None] (constraints.py 213-214). *)
Fixpoint split1 (sep : list nat) (s : text) : option (text * text) :=
  match starts sep s with
  | Some r => Some ([], r)
  | None => match s with
            | [] => None
            | x :: s => match split1 sep s with Some (a, b) => Some (x :: a, b) | None => None end
            end
  end.
(** [OrderingBound(text)] (constraints.py 212-223); [None]: ValueError. *)
Definition ordering_text (s : text) : option cspec :=
  match split1 [60; 61]%nat s with
  | Some (a, b) => Some (Order (str (strip a)) (str (strip b)))
  | None =>
  match split1 [60]%nat s with
  | Some (a, b) => Some (Order (str (strip a)) (str (strip b)))
  | None =>
  match split1 [62; 61]%nat s with
  | Some (a, b) => Some (Order (str (strip b)) (str (strip a)))
  | None =>
  match split1 [62]%nat s with
  | Some (a, b) => Some (Order (str (strip b)) (str (strip a)))
  | None => None
  end end end end.
