(** Model of the expansions of one variable: [fourier_expansion_names] and [fourier_expansion] (larch/util/data_expansion.py 149-210), [fourier_series]
    (larch/util/common_functions.py 37-45) and [hard_sigmoid] (data_expansion.py 213-235).
    Simplifications: a name is its function and the text between the brackets, as tokens of LinModel; numbers are exact reals. *)
From Verif Require Export LinModel.
From Verif Require Export ParamModel.
Open Scope R_scope.

(** The function of a term (data_expansion.py 166, 204). *)
Inductive wave := Sin | Cos.
(** 'cos' if i % 2 else 'sin' (data_expansion.py 166, 204). *)
Definition func (i : nat) : wave := if Nat.eqb (Nat.modulo i 2) 0 then Sin else Cos.
(** ((i // 2) + 1) * 2 (data_expansion.py 167, 205). *)
Definition mult (i : nat) : nat := (Nat.div i 2 + 1) * 2.
(** A name (data_expansion.py 168): the function, and "basename*mult*pi". *)
Definition fname := (wave * text)%type.
(** One name (data_expansion.py 168, common_functions.py 44). *)
Definition term_name (base : text) (i : nat) : fname := (func i, base ++ [TO Times; TN (INR (mult i)); TO Times; TA "pi"]).
(** fourier_expansion_names (data_expansion.py 149-169). *)
Definition fourier_expansion_names (base : text) (n : nat) : list fname := map (term_name base) (seq 0 n).
(** numpy.sin, numpy.cos (data_expansion.py 204-206). *)
Definition apply_wave (w : wave) (x : R) : R := match w with Sin => sin x | Cos => cos x end.
(** fourier_expansion (data_expansion.py 172-210): the columns, with their names. *)
Definition fourier_expansion (base : text) (s : list R) (n : nat) : list (fname * list R) :=
  map (fun i => (term_name base i, map (fun v => apply_wave (func i) (v * INR (mult i) * PI)) s)) (seq 0 n).
(** A parameter's name (common_functions.py 44): function, multiplier and the name given. *)
Definition pname := (wave * nat * string)%type.
(** fourier_series (common_functions.py 37-45): the terms, a parameter for a name each. *)
Definition fourier_series (base : text) (p : string) (n : nat) : list (fname * pname) :=
  map (fun i => (term_name base i, (func i, mult i, p))) (seq 0 n).

(** helper: a number over a positive one (data_expansion.py 231). *)
Definition over (x : num) (d : R) : num := match x with Fin a => Fin (a / d) | y => y end.
(** np.clip to 0 and 1 (data_expansion.py 231, 235). *)
Definition clip01 (x : num) : num := match x with NaN => NaN | NInf => Fin 0 | PInf => Fin 1 | Fin a => Fin (Rmin 1 (Rmax 0 a)) end.
(** hard_sigmoid (data_expansion.py 213-235), one element. *)
Definition hard_sigmoid (x : num) (zero_bound one_bound : R) : num :=
  if Rlt_dec zero_bound one_bound then clip01 (over (nsub x (Fin zero_bound)) (one_bound - zero_bound))
  else if Req_EM_T zero_bound one_bound then (if nlt (Fin zero_bound) x then Fin 1 else Fin 0)
  else clip01 (over (nsub (Fin zero_bound) x) (zero_bound - one_bound)).
