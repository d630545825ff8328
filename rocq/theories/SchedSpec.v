(** SPEC for the parallel kernels: the multinomial logit formulas, and sums over the cases of the range. *)
From Verif Require Export SchedModel.
Open Scope R_scope.

(** Plain sum over a list. *)
Definition Rsum {A} (f : A -> R) (l : list A) : R := fold_right (fun x s => f x + s) 0 l.
(** exp of a utility, zero for minus infinity. *)
Definition oexp (u : option R) : R := match u with Some v => exp v | None => 0 end.
(** Logit probabilities of [n] alternatives (all zero when none is available). *)
Definition logit (n : nat) (u : nat -> option R) (i : nat) : R :=
  let s := Rsum (fun j => oexp (u j)) (seq 0 n) in if Req_EM_T s 0 then 0 else oexp (u i) / s.
(** Log likelihood of one case, [None] when an alternative without probability is chosen. *)
Fixpoint loglike_of (p ch : nat -> R) (l : list nat) : option R :=
  match l with
  | [] => Some 0
  | i :: l => if Req_EM_T (ch i) 0 then loglike_of p ch l else oplus (oscale (ch i) (flog (p i))) (loglike_of p ch l)
  end.
(** Gradient of the log probability of alternative [a]: its own utility's derivative minus the
    expected one. *)
Definition score (n : nat) (p : nat -> R) (du : nat -> nat -> R) (a v : nat) : R :=
  du a v - Rsum (fun i => p i * du i v) (seq 0 n).
(** Sum of casewise log likelihoods, [None] if one is. *)
Definition total (l : list (option R)) : option R := fold_right oplus (Some 0) l.

Section Spec.
Variables (d : data).
Definition prob (c : Z) : nat -> R := logit (d_alts d) (d_u d c).
Definition case_ll (c : Z) : option R :=
  oscale (d_wt d c) (loglike_of (prob c) (d_ch d c) (seq 0 (d_alts d))).
Definition case_dll (c : Z) (v : nat) : R :=
  d_wt d c * Rsum (fun a => d_ch d c a * score (d_alts d) (prob c) (d_du d c) a v) (seq 0 (d_alts d)).
Definition case_bhhh (c : Z) (v w : nat) : R :=
  d_wt d c * Rsum (fun a => d_ch d c a * score (d_alts d) (prob c) (d_du d c) a v
                            * score (d_alts d) (prob c) (d_du d c) a w) (seq 0 (d_alts d)).
End Spec.

(** The sample a call asks for, read from the documentation of loglike (abstract_model.pyx 78-101):
    every step_case-th case from start_case up to the stop, without the fold left out, only the fold
    kept. *)
Definition in_sample (o : opts) (stop c : Z) : Prop :=
  (exists k, (0 <= k)%Z /\ c = (o_start o + k * o_step o)%Z) /\ (c < stop)%Z /\
  ((0 <= o_leave o)%Z -> (c mod o_sub o)%Z <> o_leave o) /\ ((0 <= o_keep o)%Z -> (c mod o_sub o)%Z = o_keep o).
(** [l] lists the sample, each case once. *)
Definition lists_sample (o : opts) (stop : Z) (l : list Z) : Prop := NoDup l /\ forall c, In c l <-> in_sample o stop c.
