(** C76: Fourier terms and hard sigmoids are what they say. *)
From Verif Require Import FourierModel FourierSpec.
From Verif Require Import LinProofs.
From Coq Require Import Lra Lia.

Lemma func_even i : func i = if Nat.even i then Sin else Cos.
Proof.
  unfold func. destruct (Nat.even i) eqn:E.
  - apply Nat.even_spec in E as [k ->]. rewrite Nat.mul_comm, Nat.mod_mul by lia. reflexivity.
  - assert (O : Nat.odd i = true) by (unfold Nat.odd; now rewrite E). apply Nat.odd_spec in O as [k ->].
    replace (2 * k + 1)%nat with (1 + k * 2)%nat by lia. rewrite Nat.mod_add by lia. reflexivity.
Qed.
Lemma wave_wanted i v : apply_wave (func i) (v * INR (mult i) * PI) = wanted_wave i v.
Proof.
  unfold wanted_wave, mult. rewrite func_even. replace (Nat.div i 2 + 1)%nat with (S (Nat.div i 2)) by lia.
  rewrite mult_INR. change (INR 2) with (1 + 1). destruct (Nat.even i); cbn [apply_wave]; f_equal; lra.
Qed.
(** ** The expansion *)
(** So many columns as asked; each has the values of its wave, at every row. *)
Theorem C76_columns : forall base s n, length (fourier_expansion base s n) = n /\
  (forall i, (i < n)%nat -> exists c, nth_error (fourier_expansion base s n) i = Some (term_name base i, c) /\ length c = length s /\
     forall r v, nth_error s r = Some v -> nth_error c r = Some (wanted_wave i v)).
Proof.
  intros base s n. unfold fourier_expansion. split; [now rewrite map_length, seq_length|]. intros i I. eexists. rewrite nth_error_map.
  assert (Q : nth_error (seq 0 n) i = Some i) by (rewrite (nth_error_nth' _ 0%nat) by (now rewrite seq_length); now rewrite seq_nth).
  rewrite Q. cbn [option_map]. split; [reflexivity|]. split; [apply map_length|]. intros r v R. rewrite nth_error_map, R. cbn. now rewrite wave_wanted.
Qed.
(** Every wave comes back after one unit. *)
Theorem C76_periodic : forall i v, wanted_wave i (v + 1) = wanted_wave i v.
Proof.
  intros i v. unfold wanted_wave. set (k := S (Nat.div i 2)). 
  replace (2 * PI * INR k * (v + 1)) with (2 * PI * INR k * v + 2 * INR k * PI) by ring.
  destruct (Nat.even i); [apply sin_period|apply cos_period].
Qed.
Lemma mult_inj i j : func i = func j -> mult i = mult j -> i = j.
Proof.
  rewrite !func_even. unfold mult. intros F M.
  assert (D : Nat.div i 2 = Nat.div j 2) by lia.
  assert (A : forall k, k = (2 * Nat.div k 2 + if Nat.even k then 0 else 1)%nat).
  { intro k. destruct (Nat.even k) eqn:E.
    - apply Nat.even_spec in E as [m ->]. rewrite (Nat.mul_comm 2 m), Nat.div_mul by lia. lia.
    - assert (O : Nat.odd k = true) by (unfold Nat.odd; now rewrite E). apply Nat.odd_spec in O as [m ->].
      replace (2 * m + 1)%nat with (1 + m * 2)%nat by lia. rewrite Nat.div_add by lia. cbn. lia. }
  rewrite (A i), (A j), D. destruct (Nat.even i), (Nat.even j); congruence.
Qed.
(** No two columns, and no two parameters, share a name. *)
Theorem C76_names : forall base p n, NoDup (fourier_expansion_names base n) /\ NoDup (map snd (fourier_series base p n)) /\
  forall s, map fst (fourier_expansion base s n) = fourier_expansion_names base n.
Proof.
  intros base p n. split; [|split].
  - apply FinFun.Injective_map_NoDup; [|apply seq_NoDup]. intros i j E. unfold term_name in E. injection E as F T. apply app_inv_head in T. injection T as M.
    apply mult_inj; [exact F|]. now apply INR_eq.
  - unfold fourier_series. rewrite map_map. cbn [snd]. apply FinFun.Injective_map_NoDup; [|apply seq_NoDup]. intros i j E. injection E as F M. now apply mult_inj.
  - intro s. unfold fourier_expansion, fourier_expansion_names. rewrite map_map. reflexivity.
Qed.
(** The name of a column, read as an expression, gives the column: for a variable with a plain name. *)
Theorem C76_name_says : forall x other inv s i, x "pi"%string = PI -> says x other inv (term_name [TA s] i) (wanted_wave i (x s)).
Proof.
  intros x other inv s i P. exists (x s * INR (mult i) * PI). split.
  - exists 40%nat, (YBin Times (YBin Times (YA s) (YN (INR (mult i)))) (YA "pi")). split; [reflexivity|]. cbn. now rewrite P.
  - rewrite <- wave_wanted. unfold term_name. cbn [fst apply_wave]. reflexivity.
Qed.
(** The linear function of the same length uses just the columns of the expansion, and is the Fourier series of its parameters. *)
Theorem C76_series : forall x other inv beta s p n, x "pi"%string = PI ->
  map fst (fourier_series [TA s] p n) = fourier_expansion_names [TA s] n /\
  sums x other inv beta (fourier_series [TA s] p n) (fold_right Rplus 0 (map (fun i => beta (func i, mult i, p) * wanted_wave i (x s)) (seq 0 n))).
Proof.
  intros x other inv beta s p n P. unfold fourier_series, fourier_expansion_names. rewrite map_map. split; [reflexivity|].
  induction (seq 0 n) as [|i l IH]; cbn [map fold_right]; [constructor|]. constructor; [now apply C76_name_says|exact IH].
Qed.
(** Wrong for a variable that is an expression: the factor takes only its last part. *)
Theorem C76_expression_refuted : exists x, x "pi"%string = PI /\ forall other inv,
  means x other inv [TA "a"; TO Plus; TA "b"] (1/4) /\ wanted_wave 0 (1/4) = 1 /\
  says x other inv (term_name [TA "a"; TO Plus; TA "b"] 0) (sin (1/4)) /\ sin (1/4) <> 1.
Proof.
  exists (fun s => if String.eqb s "pi" then PI else if String.eqb s "a" then 1/4 else 0). split; [reflexivity|]. intros other inv. split; [|split; [|split]].
  - exists 40%nat, (YBin Plus (YA "a") (YA "b")). split; [reflexivity|]. cbn. lra.
  - unfold wanted_wave. cbn. replace (2 * PI * 1 * (1 / 4)) with (PI / 2) by lra. apply sin_PI2.
  - exists (1/4). split; [|reflexivity]. exists 40%nat, (YBin Plus (YA "a") (YBin Times (YBin Times (YA "b") (YN (INR (mult 0)))) (YA "pi"))). split; [reflexivity|]. cbn. lra.
  - pose proof (sin_lt_x (1/4)). lra.
Qed.

(** ** The hard sigmoid *)
Lemma clip_mid a : 0 <= a <= 1 -> clip01 (Fin a) = Fin a.
Proof. intros H. cbn. rewrite Rmax_right by lra. now rewrite Rmin_right by lra. Qed.
Lemma clip_low a : a <= 0 -> clip01 (Fin a) = Fin 0.
Proof. intros H. cbn. rewrite Rmax_left by lra. now rewrite Rmin_right by lra. Qed.
Lemma clip_high a : 1 <= a -> clip01 (Fin a) = Fin 1.
Proof. intros H. cbn. rewrite Rmax_right by lra. now rewrite Rmin_left by lra. Qed.
Lemma div_le_0 a d : 0 < d -> a <= 0 -> a / d <= 0.
Proof. intros D A. apply Rmult_le_reg_r with d; [exact D|]. unfold Rdiv. rewrite Rmult_assoc, Rinv_l by lra. lra. Qed.
Lemma div_ge_0 a d : 0 < d -> 0 <= a -> 0 <= a / d.
Proof. intros D A. apply Rmult_le_reg_r with d; [exact D|]. unfold Rdiv. rewrite Rmult_assoc, Rinv_l by lra. lra. Qed.
Lemma div_ge_1 a d : 0 < d -> d <= a -> 1 <= a / d.
Proof. intros D A. apply Rmult_le_reg_r with d; [exact D|]. unfold Rdiv. rewrite Rmult_assoc, Rinv_l by lra. lra. Qed.
Lemma div_le_1 a d : 0 < d -> a <= d -> a / d <= 1.
Proof. intros D A. apply Rmult_le_reg_r with d; [exact D|]. unfold Rdiv. rewrite Rmult_assoc, Rinv_l by lra. lra. Qed.
(** It is 0 up to the zero bound, 1 from the one bound, and linear between: rising, *)
Theorem C76_rising : forall x z o, z < o ->
  (x <= z -> hard_sigmoid (Fin x) z o = Fin 0) /\ (o <= x -> hard_sigmoid (Fin x) z o = Fin 1) /\
  (z <= x <= o -> hard_sigmoid (Fin x) z o = Fin ((x - z) / (o - z))) /\
  hard_sigmoid NInf z o = Fin 0 /\ hard_sigmoid PInf z o = Fin 1 /\ hard_sigmoid NaN z o = NaN.
Proof.
  intros x z o L. unfold hard_sigmoid. destruct (Rlt_dec z o); [|lra]. cbn [nsub over]. repeat split; intros.
  - apply clip_low. apply div_le_0; lra.
  - apply clip_high. apply div_ge_1; lra.
  - apply clip_mid. split; [apply div_ge_0|apply div_le_1]; lra.
Qed.
(** or falling. *)
Theorem C76_falling : forall x z o, o < z ->
  (x <= o -> hard_sigmoid (Fin x) z o = Fin 1) /\ (z <= x -> hard_sigmoid (Fin x) z o = Fin 0) /\
  (o <= x <= z -> hard_sigmoid (Fin x) z o = Fin ((z - x) / (z - o))) /\
  hard_sigmoid NInf z o = Fin 1 /\ hard_sigmoid PInf z o = Fin 0 /\ hard_sigmoid NaN z o = NaN.
Proof.
  intros x z o L. unfold hard_sigmoid. destruct (Rlt_dec z o); [lra|]. destruct (Req_EM_T z o); [lra|]. cbn [nsub over]. repeat split; intros.
  - apply clip_high. apply div_ge_1; lra.
  - apply clip_low. apply div_le_0; lra.
  - apply clip_mid. split; [apply div_ge_0|apply div_le_1]; lra.
Qed.
(** With equal bounds it is a step. *)
Theorem C76_step : forall x z, (x <= z -> hard_sigmoid (Fin x) z z = Fin 0) /\ (z < x -> hard_sigmoid (Fin x) z z = Fin 1).
Proof.
  intros x z. unfold hard_sigmoid. destruct (Rlt_dec z z); [lra|]. destruct (Req_EM_T z z); [|contradiction]. unfold nlt, nle.
  destruct (Rle_dec x z); cbn [negb]; split; intro; try reflexivity; lra.
Qed.
(** Always between 0 and 1; and the bounds swapped give the complement, *)
Theorem C76_sigmoid : forall x z o, exists y, hard_sigmoid (Fin x) z o = Fin y /\ 0 <= y <= 1 /\
  (z <> o -> hard_sigmoid (Fin x) o z = Fin (1 - y)).
Proof.
  intros x z o. destruct (Rtotal_order z o) as [L|[<-|L]].
  - destruct (C76_rising x z o L) as [A [B [C _]]], (C76_falling x o z L) as [A' [B' [C' _]]].
    destruct (Rle_dec x z); [|destruct (Rle_dec o x)].
    + exists 0. split; [auto|]. split; [lra|]. intros _. rewrite A' by lra. f_equal. lra.
    + exists 1. split; [auto|]. split; [lra|]. intros _. rewrite B' by lra. f_equal. lra.
    + exists ((x - z) / (o - z)). split; [apply C; lra|]. split; [split; [apply div_ge_0|apply div_le_1]; lra|]. intros _. rewrite C' by lra. f_equal. field. lra.
  - destruct (C76_step x z) as [A B]. destruct (Rle_dec x z); [exists 0; rewrite A by lra|exists 1; rewrite B by lra]; (split; [reflexivity|]; split; [lra|congruence]).
  - destruct (C76_falling x z o L) as [A [B [C _]]], (C76_rising x o z L) as [A' [B' [C' _]]].
    destruct (Rle_dec x o); [|destruct (Rle_dec z x)].
    + exists 1. split; [auto|]. split; [lra|]. intros _. rewrite A' by lra. f_equal. lra.
    + exists 0. split; [apply B; lra|]. split; [lra|]. intros _. rewrite B' by lra. f_equal. lra.
    + exists ((z - x) / (z - o)). split; [apply C; lra|]. split; [split; [apply div_ge_0|apply div_le_1]; lra|]. intros _. rewrite C' by lra. f_equal. field. lra.
Qed.
(** Wrong with equal bounds: a missing value counts as 0. *)
Theorem C76_missing_refuted : exists z, hard_sigmoid NaN z z = Fin 0 /\ forall o, o <> z -> hard_sigmoid NaN z o = NaN.
Proof.
  exists 0. split; [unfold hard_sigmoid; destruct (Rlt_dec 0 0); [lra|]; destruct (Req_EM_T 0 0); [reflexivity|contradiction]|].
  intros o N. destruct (Rtotal_order 0 o) as [L|[E|L]]; [apply (C76_rising 0 0 o L)|congruence|apply (C76_falling 0 0 o L)].
Qed.

(** ** Cases that meet the hypotheses *)
Example names0 : fourier_expansion_names [TA "h"] 3 =
  [(Sin, [TA "h"; TO Times; TN 2; TO Times; TA "pi"]); (Cos, [TA "h"; TO Times; TN 2; TO Times; TA "pi"]); (Sin, [TA "h"; TO Times; TN 4; TO Times; TA "pi"])].
Proof. unfold fourier_expansion_names, term_name. cbn -[INR]. rewrite !INR_IZR_INZ. reflexivity. Qed.
Example waves0 : wanted_wave 0 (1/4) = 1 /\ wanted_wave 1 1 = 1 /\ (fun s => if String.eqb s "pi" then PI else 0) "pi"%string = PI.
Proof.
  unfold wanted_wave. cbn. split; [|split; [|reflexivity]].
  - replace (2 * PI * 1 * (1 / 4)) with (PI / 2) by lra. apply sin_PI2.
  - replace (2 * PI * 1 * 1) with (2 * PI) by lra. apply cos_2PI.
Qed.
Example sigmoid0 : hard_sigmoid (Fin 3) 2 4 = Fin (1/2) /\ hard_sigmoid (Fin (7/2)) 4 2 = Fin (1/4).
Proof.
  split; [destruct (C76_rising 3 2 4) as [_ [_ [C _]]]|destruct (C76_falling (7/2) 4 2) as [_ [_ [C _]]]]; try lra; rewrite C by lra; f_equal; field.
Qed.
