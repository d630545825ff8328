(** The gradient of the mixture log likelihood. *)
From Coq Require Import Lra.
From Coquelicot Require Import Coquelicot.
From Verif Require Export LcKernel LogitDeriv.
Open Scope R_scope.

Lemma d_mixture_value K keys pk dpk pm dpm acc :
  (forall k, In k keys -> (1 <= k <= Z.of_nat K)%Z) ->
  exists D, d_mixture K keys pk dpk pm dpm acc = Ok D /\
    forall a i, D a i = acc a i + Rsum (fun k => dpk k a i * pm (Z.to_nat (k - 1)) +
                                     pk k a * dpm (Z.to_nat (k - 1)) i) keys.
Proof.
  revert acc. induction keys as [|k keys IH]; intros acc H; simpl.
  - exists acc. split; auto. intros. lra.
  - rewrite column_ok by (apply H; left; auto).
    destruct (IH (fun a i => acc a i + dpk k a i * pm (Z.to_nat (k - 1)) + pk k a * dpm (Z.to_nat (k - 1)) i)
      (fun k' H' => H k' (or_intror H'))) as (D & E & V).
    exists D. split; auto. intros a i. rewrite V. lra.
Qed.

Lemma log_likelihood_deriv N n_alts (Pt : R -> nat -> nat -> R) (dP : nat -> nat -> R) ch wt t0 :
  chosen_possible N n_alts (Pt t0) ch ->
  (forall i a, (i < N)%nat -> (a < n_alts)%nat -> is_derive (fun t => Pt t i a) t0 (dP i a)) ->
  is_derive (fun t => log_likelihood N n_alts (Pt t) ch wt) t0
    (Rsum (fun i => Rsum (fun a => wt i * ch i a * (dP i a / Pt t0 i a)) (seq 0 n_alts)) (seq 0 N)).
Proof.
  intros HC HD. unfold log_likelihood. apply is_derive_Rsum. intros i Hi. apply in_seq in Hi.
  apply (d_eq _ _ (wt i * Rsum (fun a => ch i a * (dP i a / Pt t0 i a)) (seq 0 n_alts))).
  2:{ rewrite <- Rsum_scal. apply Rsum_ext. intros a Ha. ring. }
  apply (is_derive_scal (fun t => Rsum (fun a => ch i a * ln (Pt t i a)) (seq 0 n_alts)) t0 (wt i)).
  apply is_derive_Rsum. intros a Ha. apply in_seq in Ha.
  destruct (Req_EM_T (ch i a) 0) as [Z|Z].
  - apply (is_derive_ext (fun _ => 0)); [intros; rewrite Z; lra|].
    rewrite Z. replace (0 * (dP i a / Pt t0 i a)) with 0 by lra. apply d_const.
  - apply (is_derive_scal (fun t => ln (Pt t i a)) t0 (ch i a)).
    apply d_ln; [apply HC; auto; lia|apply HD; lia].
Qed.

Lemma mixture_deriv keys (pk : R -> Z -> Z -> list R) (pm : R -> Z -> list R) c a t0 (dpk : Z -> R) (dpm : Z -> R) :
  (forall k, In k keys -> is_derive (fun t => nth a (pk t k c) 0) t0 (dpk k)) ->
  (forall k, In k keys -> is_derive (fun t => share (pm t) k c) t0 (dpm k)) ->
  is_derive (fun t => mixture keys (pk t) (pm t) c a) t0
    (Rsum (fun k => dpk k * share (pm t0) k c + nth a (pk t0 k c) 0 * dpm k) keys).
Proof.
  intros H1 H2. unfold mixture. apply is_derive_Rsum. intros k Hk.
  apply (d_eq _ _ (dpm k * nth a (pk t0 k c) 0 + share (pm t0) k c * dpk k)); [|ring].
  apply (d_mult (fun t => share (pm t) k c) (fun t => nth a (pk t k c) 0)); auto.
Qed.

Lemma is_derive_pos_near (f : R -> R) t0 d : is_derive f t0 d -> 0 < f t0 -> locally t0 (fun t => 0 < f t).
Proof.
  intros H Hp. assert (C : continuous f t0) by (apply (@ex_derive_continuous R_AbsRing R_NormedModule f t0); exists d; auto).
  apply (C (fun y => 0 < y)). exists (mkposreal _ Hp). intros y Hy.
  unfold ball in Hy; simpl in Hy; unfold AbsRing_ball, abs, minus, plus, opp in Hy; simpl in Hy.
  apply Rabs_def2 in Hy. lra.
Qed.

Lemma locally_forall_below {t0 : R} (Q : nat -> R -> Prop) N :
  (forall i, (i < N)%nat -> locally t0 (Q i)) -> locally t0 (fun t => forall i, (i < N)%nat -> Q i t).
Proof.
  induction N as [|N IH]; intros H.
  - apply filter_forall. intros t i Hi. lia.
  - assert (A : locally t0 (fun t => forall i, (i < N)%nat -> Q i t)) by (apply IH; intros; apply H; lia).
    assert (B : locally t0 (Q N)) by (apply H; lia).
    generalize (filter_and _ _ A B). apply filter_imp. intros t [HA HB] i Hi.
    destruct (Nat.eq_dec i N) as [ ->|]; auto. apply HA. lia.
Qed.
