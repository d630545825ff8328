(** The gradient kernel, with and without aliased buffers. *)
From Coq Require Import Lra FunctionalExtensionality.
From Verif Require Export LcProofs.
Open Scope R_scope.

(** What ends up in the temporary buffer, relative to the gradient of the log probability. *)
Definition tmp_factor (dLL tmp : nat) (ch wt : R) : R :=
  if Nat.eq_dec dLL tmp then 1 + ch * wt else 1.

Section Kernel.
Variables (n_params dLL cum tmp : nat).
Hypothesis cum_dLL : cum <> dLL.
Hypothesis cum_tmp : cum <> tmp.

Lemma param_step_buf da r ch wt m i b j :
  buf (param_step dLL cum tmp da r ch wt m i) b j =
  if Nat.eq_dec j i then
    if Nat.eq_dec b cum then buf m cum i + da i * r * wt
    else if Nat.eq_dec b tmp then
      (if Nat.eq_dec dLL tmp then da i * r / ch + da i * r * wt else da i * r / ch)
    else if Nat.eq_dec b dLL then buf m dLL i + da i * r * wt else buf m b j
  else buf m b j.
Proof.
  unfold param_step, write. cbn [buf].
  destruct (Nat.eq_dec j i) as [ ->|Hj].
  2:{ apply Nat.eqb_neq in Hj. rewrite Hj, !andb_false_r. reflexivity. }
  rewrite !Nat.eqb_refl, !andb_true_r.
  destruct (Nat.eq_dec b cum) as [ ->|Hb].
  - rewrite Nat.eqb_refl. rewrite (proj2 (Nat.eqb_neq cum dLL)), (proj2 (Nat.eqb_neq cum tmp)) by auto. reflexivity.
  - rewrite (proj2 (Nat.eqb_neq b cum)) by auto.
    destruct (Nat.eq_dec b tmp) as [ ->|Hbt].
    + destruct (Nat.eq_dec dLL tmp) as [ ->|Hd].
      * rewrite !Nat.eqb_refl. reflexivity.
      * rewrite (proj2 (Nat.eqb_neq tmp dLL)), Nat.eqb_refl by auto. reflexivity.
    + rewrite (proj2 (Nat.eqb_neq b tmp)) by auto.
      destruct (Nat.eq_dec b dLL) as [ ->|Hbd].
      * rewrite Nat.eqb_refl, (proj2 (Nat.eqb_neq dLL tmp)) by auto. reflexivity.
      * rewrite (proj2 (Nat.eqb_neq b dLL)) by auto. reflexivity.
Qed.

Lemma param_loop da r ch wt m k :
  let m' := fold_left (param_step dLL cum tmp da r ch wt) (seq 0 k) m in
  bhhh m' = bhhh m /\
  (forall j, buf m' cum j = buf m cum j + (if (j <? k)%nat then da j * r * wt else 0)) /\
  (forall j, (j < k)%nat -> buf m' tmp j =
     if Nat.eq_dec dLL tmp then da j * r / ch + da j * r * wt else da j * r / ch).
Proof.
  induction k as [|k IH]; cbv zeta in *.
  - cbn [seq fold_left]. split; auto. split; [intros; simpl; lra|]. intros j H. lia.
  - rewrite (seq_S k 0), fold_left_app. cbn [fold_left Nat.add]. set (m1 := fold_left _ (seq 0 k) m) in *.
    destruct IH as (I1 & I2 & I3). split; [|split].
    + rewrite <- I1. reflexivity.
    + intros j. rewrite param_step_buf. destruct (Nat.eq_dec j k) as [ ->|Hj].
      * destruct (Nat.eq_dec cum cum) as [_|N]; [|congruence]. rewrite I2.
        rewrite Nat.ltb_irrefl. rewrite (proj2 (Nat.ltb_lt k (S k))) by lia. lra.
      * rewrite I2. destruct (Nat.ltb_spec j k); destruct (Nat.ltb_spec j (S k)); try lia; lra.
    + intros j Hj. rewrite param_step_buf. destruct (Nat.eq_dec j k) as [ ->|Hn].
      * destruct (Nat.eq_dec tmp cum) as [E|_]; [congruence|].
        destruct (Nat.eq_dec tmp tmp) as [_|N]; [|congruence]. reflexivity.
      * apply I3. lia.
Qed.

Section Alts.
Variables (P : nat -> R) (dP : nat -> nat -> R) (ch : nat -> R) (wt : R).
(** Contribution of one alternative to the gradient, and to the matrix. *)
Definition dll_term (a v : nat) : R :=
  if Rlt_dec 0 (P a) then wt * ch a * (dP a v / P a) else 0.
Definition bhhh_term (a v w : nat) : R :=
  if Rlt_dec 0 (P a) then
    wt * ch a * (tmp_factor dLL tmp (ch a) wt ^ 2) * (dP a v / P a) * (dP a w / P a) else 0.

Lemma alt_step_value ret m a :
  let m' := alt_step n_params dLL cum tmp ret P dP ch wt m a in
  (forall v, (v < n_params)%nat -> buf m' cum v = buf m cum v + dll_term a v) /\
  (forall v w, (v < n_params)%nat -> (w < n_params)%nat ->
     bhhh m' v w = bhhh m v w + if ret then bhhh_term a v w else 0).
Proof.
  simpl. unfold alt_step, dll_term, bhhh_term. destruct (Req_EM_T (ch a) 0) as [Z|Z].
  - rewrite Z. split; intros; [destruct (Rlt_dec 0 (P a)); lra|].
    destruct ret; destruct (Rlt_dec 0 (P a)); lra.
  - destruct (Rlt_dec 0 (P a)) as [Hp|Hp].
    2:{ split; intros; [lra|destruct ret; lra]. }
    destruct (param_loop (dP a) (ch a / P a) (ch a) wt m n_params) as (I1 & I2 & I3).
    set (m1 := fold_left _ (seq 0 n_params) m) in *.
    assert (C : forall v, (v < n_params)%nat -> buf m1 cum v = buf m cum v + wt * ch a * (dP a v / P a)).
    { intros v Hv. rewrite I2. rewrite (proj2 (Nat.ltb_lt v n_params)) by auto. field. lra. }
    assert (T : forall v, (v < n_params)%nat -> buf m1 tmp v = tmp_factor dLL tmp (ch a) wt * (dP a v / P a)).
    { intros v Hv. rewrite I3 by auto. unfold tmp_factor. destruct (Nat.eq_dec dLL tmp); field; lra. }
    destruct ret; split; intros; auto.
    + exact (C v H).
    + unfold bhhh_step. cbn [bhhh]. rewrite (proj2 (Nat.ltb_lt v n_params)), (proj2 (Nat.ltb_lt w n_params)) by auto.
      simpl. rewrite (T v), (T w), I1 by auto. ring.
    + rewrite I1. lra.
Qed.

Lemma zero_loop m k : 
  let m' := fold_left (fun m i => write dLL i 0 m) (seq 0 k) m in
  buf m' cum = buf m cum /\ bhhh m' = bhhh m.
Proof.
  cbv zeta. induction k as [|k [I1 I2]]; [auto|].
  rewrite (seq_S k 0), fold_left_app. cbn [fold_left Nat.add write buf bhhh]. split; auto.
  rewrite <- I1. apply functional_extensionality. intros j.
  rewrite (proj2 (Nat.eqb_neq cum dLL)) by auto. reflexivity.
Qed.

Lemma alts_value ret l m :
  let m' := fold_left (alt_step n_params dLL cum tmp ret P dP ch wt) l m in
  (forall v, (v < n_params)%nat -> buf m' cum v = buf m cum v + Rsum (fun a => dll_term a v) l) /\
  (forall v w, (v < n_params)%nat -> (w < n_params)%nat ->
     bhhh m' v w = bhhh m v w + if ret then Rsum (fun a => bhhh_term a v w) l else 0).
Proof.
  revert m. induction l as [|a l IH]; intros m; simpl.
  - split; intros; [lra|destruct ret; lra].
  - destruct (IH (alt_step n_params dLL cum tmp ret P dP ch wt m a)) as [I1 I2].
    destruct (alt_step_value ret m a) as [J1 J2]. split.
    + intros v Hv. rewrite I1, J1 by auto. lra.
    + intros v w Hv Hw. rewrite I2, J2 by auto. destruct ret; lra.
Qed.
End Alts.

Lemma cases_value n_alts ret P dP ch wt N :
  let m := cases_kernel n_params n_alts dLL cum tmp ret P dP ch wt N in
  (forall v, (v < n_params)%nat -> buf m cum v =
    Rsum (fun c => Rsum (fun a => dll_term (P c) (dP c) (ch c) (wt c) a v) (seq 0 n_alts)) (seq 0 N)) /\
  (forall v w, (v < n_params)%nat -> (w < n_params)%nat -> bhhh m v w =
    if ret then Rsum (fun c => Rsum (fun a => bhhh_term (P c) (dP c) (ch c) (wt c) a v w) (seq 0 n_alts)) (seq 0 N)
    else 0).
Proof.
  simpl. unfold cases_kernel. induction N as [|N [I1 I2]].
  - simpl. split; intros; auto. destruct ret; auto.
  - rewrite (seq_S N 0), fold_left_app. cbn [fold_left Nat.add].
    set (m1 := fold_left _ (seq 0 N) _) in *. unfold case_kernel.
    destruct (zero_loop m1 n_params) as [Z1 Z2].
    set (m2 := fold_left _ (seq 0 n_params) m1) in *.
    destruct (alts_value (P N) (dP N) (ch N) (wt N) ret (seq 0 n_alts) m2) as [A1 A2].
    split.
    + intros v Hv. rewrite A1, Z1, I1 by auto. rewrite Rsum_app. simpl. lra.
    + intros v w Hv Hw. rewrite A2, Z2, I2 by auto. destruct ret; [|lra]. rewrite Rsum_app. simpl. lra.
Qed.
End Kernel.

Lemma dll_term_gradient N n_alts P dP ch wt v : chosen_possible N n_alts P ch ->
  Rsum (fun c => Rsum (fun a => dll_term (P c) (dP c) (ch c) (wt c) a v) (seq 0 n_alts)) (seq 0 N)
  = gradient N n_alts P dP ch wt v.
Proof.
  intros H. unfold gradient. apply Rsum_ext. intros i Hi. apply Rsum_ext. intros a Ha.
  apply in_seq in Hi, Ha. unfold dll_term. destruct (Rlt_dec 0 (P i a)) as [Hp|Hp]; auto.
  destruct (Req_EM_T (ch i a) 0) as [Z|Z]; [rewrite Z; lra|].
  exfalso. apply Hp, H; auto; lia.
Qed.

Lemma bhhh_term_outer N n_alts P dP ch wt v w (f : nat -> nat -> R) d t :
  chosen_possible N n_alts P ch ->
  (forall i a, f i a = tmp_factor d t (ch i a) (wt i)) ->
  Rsum (fun c => Rsum (fun a => bhhh_term d t (P c) (dP c) (ch c) (wt c) a v w) (seq 0 n_alts)) (seq 0 N)
  = Rsum (fun i => Rsum (fun a => wt i * ch i a * f i a ^ 2 * (dP i a v / P i a) * (dP i a w / P i a))
      (seq 0 n_alts)) (seq 0 N).
Proof.
  intros H Hf. apply Rsum_ext. intros i Hi. apply Rsum_ext. intros a Ha.
  apply in_seq in Hi, Ha. unfold bhhh_term. rewrite Hf.
  destruct (Rlt_dec 0 (P i a)) as [Hp|Hp]; auto.
  destruct (Req_EM_T (ch i a) 0) as [Z|Z]; [rewrite Z; lra|].
  exfalso. apply Hp, H; auto; lia.
Qed.
