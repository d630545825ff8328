(** Specification: the waves of a Fourier expansion, and the ramp of a hard sigmoid. *)
From Verif Require Import FourierModel.

(** The [i]-th wave: sine and cosine in turn, once, twice, ... for every unit (data_expansion.py 149-169). *)
Definition wanted_wave (i : nat) (v : R) : R :=
  let k := INR (S (Nat.div i 2)) in if Nat.even i then sin (2 * PI * k * v) else cos (2 * PI * k * v).
(** What a name says (data_expansion.py 168), [x] giving the values of data names and of pi: its function of what the text between the brackets means. *)
Definition says (x : string -> R) (other : LinModel.op -> R -> R -> R) (inv : R -> R) (f : fname) (v : R) : Prop :=
  exists u, means x other inv (snd f) u /\ v = match fst f with Sin => sin u | Cos => cos u end.
(** The value of a linear function (linear.pyx 1243): the sum of parameters times data. *)
Inductive sums (x : string -> R) (other : LinModel.op -> R -> R -> R) (inv : R -> R) (beta : pname -> R) : list (fname * pname) -> R -> Prop :=
| s_nil : sums x other inv beta [] 0
| s_cons f p l d v : says x other inv f d -> sums x other inv beta l v -> sums x other inv beta ((f, p) :: l) (beta p * d + v).
