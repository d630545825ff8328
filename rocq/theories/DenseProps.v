(** C16, dense variables. *)
From Coq Require Import Psatz.
From Verif Require Import DenseModel LogitProofs.

Lemma max_ge l x : In x l -> x <= Rlist_max l.
Proof. induction l as [|y l IH]; simpl; [easy|]. intros [ ->|H]; [apply Rmax_l|]. eapply Rle_trans; [apply IH; auto|apply Rmax_r]. Qed.
Lemma min_in x r : In (fold_right Rmin x r) (x :: r).
Proof.
  induction r as [|y r IH]; simpl; auto. assert (E : Rmin y (fold_right Rmin x r) = y \/ Rmin y (fold_right Rmin x r) = fold_right Rmin x r).
  { unfold Rmin. destruct (Rle_dec _ _); auto. }
  destruct E as [ ->| ->]; auto. simpl in IH. tauto.
Qed.
Lemma min_le x r y : In y (x :: r) -> fold_right Rmin x r <= y.
Proof.
  induction r as [|z r IH]; simpl; [intros [ ->|[]]; lra|]. intros H.
  destruct H as [ ->|[ ->|H]].
  - eapply Rle_trans; [apply Rmin_r|]. apply IH. simpl; auto.
  - apply Rmin_l.
  - eapply Rle_trans; [apply Rmin_r|]. apply IH. simpl; auto.
Qed.
Lemma Rsum_ge (f : R -> R) l x : (forall y, In y l -> 0 <= f y) -> In x l -> f x <= Rsum f l.
Proof.
  induction l as [|y l IH]; simpl; intros Hf Hx; [easy|].
  assert (0 <= f y) by auto. destruct Hx as [ ->|Hx].
  - assert (0 <= Rsum f l) by (apply Rsum_nonneg; auto). lra.
  - assert (f x <= Rsum f l) by auto. lra.
Qed.
Lemma Rsum_map_id {A} (g : A -> R) l : Rsum (fun x => x) (map g l) = Rsum g l.
Proof. induction l; simpl; auto. rewrite IHl. auto. Qed.
Lemma std_dev l x : In x l -> (x - mean l) ^ 2 <= INR (length l) * std l ^ 2.
Proof.
  intros Hx. assert (Hl : 0 < INR (length l)) by (apply lt_0_INR; destruct l; simpl; [easy|lia]).
  unfold std. rewrite pow2_sqrt.
  - unfold mean at 2. rewrite map_length, Rsum_map_id. replace (INR (length l) * (Rsum (fun x0 => (x0 - mean l) ^ 2) l / INR (length l)))
      with (Rsum (fun x0 => (x0 - mean l) ^ 2) l) by (field; lra).
    apply (Rsum_ge (fun x0 => (x0 - mean l) ^ 2)); auto. intros; apply pow2_ge_0.
  - unfold mean at 1. apply Rmult_le_pos; [|rewrite map_length; apply Rlt_le, Rinv_0_lt_compat; auto].
    rewrite Rsum_map_id. apply Rsum_nonneg. intros; apply pow2_ge_0.
Qed.
(** A dissolved dense variable: the value kept for a case is one of its values, and no value
    of that case is further from it than 2*sqrt(n)*1e-10 (n alternatives). *)
Theorem C16_dense_within_tolerance : forall rows out i row x,
  dissolve_dense rows = Some out -> nth_error rows i = Some row -> In x row ->
  exists v, nth_error out i = Some v /\ In v row /\ 0 <= x - v <= 2 * sqrt (INR (length row)) * / 10 ^ 10.
Proof.
  intros rows out i row x E Hi Hx. unfold dissolve_dense in E. destruct (Rlt_dec _ _) as [Hs|]; [|discriminate].
  injection E as <-. exists (Rlist_min row). split; [apply map_nth_error; auto|].
  destruct row as [|y r]; [easy|]. set (row := y :: r) in *.
  assert (Hin : In (Rlist_min row) row) by apply min_in. split; auto.
  assert (Hle : Rlist_min row <= x) by (apply min_le; auto). split; [lra|].
  assert (Hsd : std row < / 10 ^ 10). { eapply Rle_lt_trans; [|exact Hs]. apply max_ge, in_map. apply nth_error_In in Hi. auto. }
  assert (H0 : 0 <= std row) by apply sqrt_pos.
  assert (Hn : 0 <= INR (length row)) by apply pos_INR.
  assert (Hd : forall z, In z row -> Rabs (z - mean row) <= sqrt (INR (length row)) * / 10 ^ 10).
  { intros z Hz. apply Rsqr_incr_0_var; [|apply Rmult_le_pos; [apply sqrt_pos|apply Rlt_le, Rinv_0_lt_compat, pow_lt; lra]].
    rewrite <- Rsqr_abs, Rsqr_mult, Rsqr_sqrt by auto. rewrite Rsqr_pow2. eapply Rle_trans; [apply std_dev; auto|].
    apply Rmult_le_compat_l; auto. rewrite <- Rsqr_pow2. apply Rsqr_incr_1; try lra. }
  assert (H1 := Hd x Hx). assert (H2 := Hd _ Hin). 
  unfold Rabs in H1, H2. destruct (Rcase_abs (x - mean row)), (Rcase_abs (Rlist_min row - mean row)); lra.
Qed.
(** Variables constant over the alternatives of every case are dissolved, with that value. *)
Theorem C16_dense_constant : forall rows c,
  (forall i row, nth_error rows i = Some row -> row <> [] /\ forall x, In x row -> x = c i) ->
  exists out, dissolve_dense rows = Some out /\ forall i row, nth_error rows i = Some row -> nth_error out i = Some (c i).
Proof.
  intros rows c H. unfold dissolve_dense.
  assert (Hstd : forall row, In row rows -> std row = 0).
  { intros row Hr. apply In_nth_error in Hr. destruct Hr as [i Hi]. destruct (H i row Hi) as [Hne Hc].
    assert (Hl : 0 < INR (length row)) by (apply lt_0_INR; destruct row; simpl; [congruence|lia]).
    assert (Hm : mean row = c i).
    { unfold mean. assert (Es : Rsum (fun x => x) row = INR (length row) * c i).
      { clear -Hc. induction row as [|x row IH]; [simpl; lra|].
        change (Rsum (fun x0 => x0) (x :: row)) with (x + Rsum (fun x0 => x0) row). rewrite IH by (intros; apply Hc; simpl; auto).
        replace (INR (length (x :: row))) with (INR (length row) + 1) by (rewrite <- S_INR; auto).
        rewrite (Hc x) by (simpl; auto). ring. }
      rewrite Es. field. lra. }
    unfold std. rewrite Hm. unfold mean. rewrite Rsum_map_id. rewrite Rsum_zero; [unfold Rdiv; rewrite Rmult_0_l; apply sqrt_0|].
    intros x Hx. rewrite (Hc x Hx). ring. }
  destruct (Rlt_dec _ _) as [_|Hn].
  - exists (map Rlist_min rows). split; auto. intros i row Hi. rewrite (map_nth_error Rlist_min _ _ Hi). f_equal.
    destruct (H i row Hi) as [Hne Hc]. destruct row as [|y r]; [congruence|]. apply Hc. apply min_in.
  - exfalso. apply Hn. assert (E : Rlist_max (map std rows) = 0).
    { clear -Hstd. induction rows as [|row rows IH]; simpl; auto. rewrite IH by (intros; apply Hstd; simpl; auto).
      rewrite Hstd by (simpl; auto). apply Rmax_left. lra. }
    rewrite E. apply Rinv_0_lt_compat, pow_lt. lra.
Qed.
(** ... but a variable that does differ between alternatives is dissolved too if its values
    are small: 0 and 1e-11 become 0 for both alternatives. *)
Theorem C16_dense_small_values_refuted :
  exists rows out row x v, dissolve_dense rows = Some out /\ nth_error rows 0 = Some row /\ In x row /\
    nth_error out 0 = Some v /\ x <> v.
Proof.
  set (e := / 10 ^ 11). assert (He : 0 < e) by (apply Rinv_0_lt_compat, pow_lt; lra).
  exists [[0; e]], [Rlist_min [0; e]], [0; e], e, (Rlist_min [0; e]).
  assert (Hm : Rlist_min [0; e] = 0) by (simpl; apply Rmin_right; lra).
  split; [|repeat split; simpl; auto; rewrite Rmin_right; lra].
  unfold dissolve_dense. destruct (Rlt_dec _ _) as [|Hn]; auto. exfalso. apply Hn. simpl map. unfold Rlist_max. simpl fold_right.
  assert (Hs : std [0; e] = e / 2).
  { unfold std. assert (Em : mean [0; e] = e / 2) by (unfold mean; simpl; lra).
    rewrite Em. assert (Ev : mean (map (fun x => (x - e / 2) ^ 2) [0; e]) = (e / 2) * (e / 2)).
    { unfold mean. simpl. field. }
    rewrite Ev. apply sqrt_square. lra. }
  rewrite Hs, Rmax_left by lra. unfold e. simpl pow. lra.
Qed.
