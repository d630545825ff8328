(** Specification for constraint strings: what a sentence such as "-3 < B_cost <= 1/2" means, independently of
    any matcher.  Characters are given by their code points. *)
From Verif Require Import ParamModel.
From Coq Require Import Ascii.
Open Scope R_scope.

Definition cd (c : ascii) : nat := nat_of_ascii c.
Definition ch (n : nat) : ascii := ascii_of_nat n.
(** Blanks; decimal digits; characters allowed in a name: letters, digits, "_" and # : * & ^ % $ ! @. *)
Definition white (c : ascii) : Prop := In (cd c) [9; 10; 11; 12; 13; 28; 29; 30; 31; 32; 133; 160]%nat.
Definition digit (c : ascii) : Prop := (48 <= cd c <= 57)%nat.
Definition name_char (c : ascii) : Prop :=
  digit c \/ (65 <= cd c <= 90)%nat \/ (97 <= cd c <= 122)%nat
  \/ In (cd c) [95; 35; 58; 42; 38; 94; 37; 36; 33; 64]%nat
  \/ In (cd c) [170; 178; 179; 181; 185; 186; 188; 189; 190]%nat
  \/ ((192 <= cd c <= 255)%nat /\ cd c <> 215%nat /\ cd c <> 247%nat).

(** ** Numerals. *)
(** The number a run of digits denotes. *)
Fixpoint digits_value (d : list ascii) : R :=
  match d with
  | [] => 0
  | c :: d => INR (cd c - 48) * 10 ^ length d + digits_value d
  end.
(** A sign and its factor. *)
Inductive sign_text : list ascii -> R -> Prop :=
| sg_none : sign_text [] 1 | sg_plus : sign_text [ch 43] 1 | sg_minus : sign_text [ch 45] (-1).
(** A fractional part ("", ".", ".25") and the value it adds. *)
Inductive frac_text : list ascii -> list ascii -> Prop :=
| fr_none : frac_text [] []
| fr_some f : Forall digit f -> frac_text (ch 46 :: f) f.
(** An exponent ("", "e5", "E-3") and its factor. *)
Inductive exp_text : list ascii -> R -> Prop :=
| ex_none : exp_text [] 1
| ex_up e g d : e = ch 101 \/ e = ch 69 -> g = [] \/ g = [ch 43] -> Forall digit d -> d <> [] ->
    forall n, INR n = digits_value d -> exp_text (e :: g ++ d) (10 ^ n)
| ex_down e d : e = ch 101 \/ e = ch 69 -> Forall digit d -> d <> [] ->
    forall n, INR n = digits_value d -> exp_text (e :: ch 45 :: d) (/ 10 ^ n).
Inductive numeral : list ascii -> R -> Prop :=
| decimal g s i ft f et x :
    sign_text g s -> Forall digit i -> frac_text ft f -> i ++ f <> [] -> exp_text et x ->
    numeral (g ++ i ++ ft ++ et) (s * (digits_value i + digits_value f / 10 ^ length f) * x)
| fraction a b : Forall digit a -> a <> [] -> Forall digit b -> b <> [] -> digits_value b <> 0 ->
    numeral (a ++ ch 47 :: b) (digits_value a / digits_value b).

(** ** Sentences. *)
Definition name_text (s : list ascii) : Prop := s <> [] /\ Forall name_char s.
(** A name that could pass for a numeral: digits, with at most one e or E among them. *)
Definition looks_numeric (s : list ascii) : Prop :=
  exists a b, Forall digit a /\ Forall digit b /\ (s = a ++ b \/ s = a ++ ch 101 :: b \/ s = a ++ ch 69 :: b).
Definition str_of (s : list ascii) : string := string_of_list_ascii s.

(** One side of an inequality: a number, a parameter or a ratio of two parameters, with its text. *)
Inductive side := Num (r : R) | Par (p : string) | Quo (p q : string).
Definition spaces (s : list ascii) : Prop := Forall white s.
Inductive side_text : side -> list ascii -> Prop :=
| st_num w r : numeral w r -> side_text (Num r) w
| st_par p : name_text p -> side_text (Par (str_of p)) p
| st_quo p q s1 s2 : name_text p -> name_text q -> spaces s1 -> spaces s2 ->
    side_text (Quo (str_of p) (str_of q)) (p ++ s1 ++ ch 47 :: s2 ++ q).
Inductive rel := LE | GE.
Inductive rel_text : rel -> list ascii -> Prop :=
| rt_lt : rel_text LE [ch 60] | rt_le : rel_text LE [ch 60; ch 61]
| rt_gt : rel_text GE [ch 62] | rt_ge : rel_text GE [ch 62; ch 61].

(** A sentence: sides joined by inequalities. *)
Inductive sentence := Two (a : side) (o : rel) (b : side) | Three (a : side) (o : rel) (b : side) (o' : rel) (c : side).
Inductive written : sentence -> list ascii -> Prop :=
| wr_two a o b s1 ta s2 t s3 tb s4 :
    spaces s1 -> side_text a ta -> spaces s2 -> rel_text o t -> spaces s3 -> side_text b tb -> spaces s4 ->
    written (Two a o b) (s1 ++ ta ++ s2 ++ t ++ s3 ++ tb ++ s4)
| wr_three a o b o' c s1 ta s2 t s3 tb s4 t' s5 tc s6 :
    spaces s1 -> side_text a ta -> spaces s2 -> rel_text o t -> spaces s3 -> side_text b tb -> spaces s4 ->
    rel_text o' t' -> spaces s5 -> side_text c tc -> spaces s6 ->
    written (Three a o b o' c) (s1 ++ ta ++ s2 ++ t ++ s3 ++ tb ++ s4 ++ t' ++ s5 ++ tc ++ s6).

(** What it means, "<" being read as "<=". *)
Definition side_value (v : string -> R) (s : side) : R :=
  match s with Num r => r | Par p => v p | Quo p q => v p / v q end.
Definition related (o : rel) (x y : R) : Prop := match o with LE => x <= y | GE => y <= x end.
Definition true_at (v : string -> R) (s : sentence) : Prop :=
  match s with
  | Two a o b => related o (side_value v a) (side_value v b)
  | Three a o b o' c =>
      related o (side_value v a) (side_value v b) /\ related o' (side_value v b) (side_value v c)
  end.

(** The sentences that are supposed to be understood, and those that are refused. *)
Inductive understood : sentence -> Prop :=
| un_upper p o r : understood (Two (Par p) o (Num r))
| un_lower r o p : understood (Two (Num r) o (Par p))
| un_order p o q : understood (Two (Par p) o (Par q))
| un_ratio p q o r : understood (Two (Quo p q) o (Num r))
| un_between r p r' : understood (Three (Num r) LE (Par p) LE (Num r'))
| un_ratio_between r p q r' : understood (Three (Num r) LE (Quo p q) LE (Num r')).

(** No parameter in the sentence has a name that could pass for a numeral. *)
Definition plain_side (s : side) : Prop :=
  match s with
  | Num _ => True
  | Par p => ~ looks_numeric (list_ascii_of_string p)
  | Quo p q => ~ looks_numeric (list_ascii_of_string p) /\ ~ looks_numeric (list_ascii_of_string q)
  end.
Definition plain (s : sentence) : Prop :=
  match s with
  | Two a _ b => plain_side a /\ plain_side b
  | Three a _ b _ c => plain_side a /\ plain_side b /\ plain_side c
  end.
