(** Facts about case ranges. *)
From Verif Require Export RangeModel.
From Coq Require Import ZArith Lia List FinFun.

Lemma n_rows_count start stop step : 0 < step ->
  n_rows start stop step = (stop - start + step - 1) / step.
Proof.
  intros Hs. unfold n_rows. set (d := stop - start).
  pose proof (Z.div_mod d step ltac:(lia)) as E. pose proof (Z.mod_pos_bound d step Hs) as B.
  destruct (Z.eqb_spec (d mod step) 0) as [Z0|Z0].
  - rewrite Z.add_0_r. apply Z.div_unique with (r := step - 1); lia.
  - apply Z.div_unique with (r := d mod step - 1); lia.
Qed.

Lemma case_range_length start stop step : 0 < step -> start <= stop ->
  length (case_range start stop step) = Z.to_nat (n_rows start stop step).
Proof. intros. unfold case_range. rewrite map_length, seq_length, n_rows_count; auto. Qed.

Lemma case_range_nth start stop step i : (i < length (case_range start stop step))%nat ->
  nth i (case_range start stop step) 0 = start + Z.of_nat i * step.
Proof.
  unfold case_range. rewrite map_length, seq_length. intros H.
  rewrite nth_indep with (d' := (fun i => start + Z.of_nat i * step) O)
    by (rewrite map_length, seq_length; auto).
  rewrite (map_nth (fun i => start + Z.of_nat i * step)). rewrite seq_nth by auto. reflexivity.
Qed.

Lemma in_case_range start stop step c : 0 < step ->
  In c (case_range start stop step) <-> start <= c < stop /\ (c - start) mod step = 0.
Proof.
  intros Hs. unfold case_range. rewrite in_map_iff. split.
  - intros (i & <- & Hi). rewrite in_seq in Hi.
    assert (Hq : Z.of_nat i < (stop - start + step - 1) / step) by lia.
    assert (L : step * (Z.of_nat i + 1) <= stop - start + step - 1).
    { transitivity (step * ((stop - start + step - 1) / step)).
      - apply Z.mul_le_mono_nonneg_l; lia.
      - apply Z.mul_div_le; lia. }
    split; [nia|]. replace (start + Z.of_nat i * step - start) with (Z.of_nat i * step) by lia.
    apply Z.mod_mul. lia.
  - intros [[L1 L2] M].
    pose proof (Z.div_mod (c - start) step ltac:(lia)) as E. rewrite M in E.
    set (q := (c - start) / step) in *.
    assert (0 <= q) by (apply Z.div_pos; lia).
    exists (Z.to_nat q). split; [rewrite Z2Nat.id by lia; lia|].
    rewrite in_seq. split; [lia|]. simpl.
    apply Z2Nat.inj_lt; [lia|apply Z.div_pos; lia|].
    assert (q + 1 <= (stop - start + step - 1) / step); [|lia].
    apply Z.div_le_lower_bound; [lia|]. nia.
Qed.

Lemma case_range_NoDup start stop step : 0 < step -> NoDup (case_range start stop step).
Proof.
  intros Hs. unfold case_range. apply FinFun.Injective_map_NoDup; [|apply seq_NoDup].
  intros i j H. nia.
Qed.

Lemma store_length {A} (l : list A) i v : length (store l i v) = length l.
Proof. revert i. induction l; destruct i; simpl; auto. Qed.
Lemma store_app {A} (l l' : list A) x v : store (l ++ x :: l') (length l) v = l ++ v :: l'.
Proof. induction l; simpl; auto. rewrite IHl. reflexivity. Qed.

(** Every row is written, in order: the persisted array holds one row per case of the range. *)
Lemma persisted_rows {A} (zero : A) row start stop step : 0 < step -> start <= stop ->
  persisted zero row start stop step = map row (case_range start stop step).
Proof.
  intros Hs Hle. unfold persisted. rewrite n_rows_count by auto. unfold case_range.
  set (N := Z.to_nat ((stop - start + step - 1) / step)).
  assert (forall k, (k <= N)%nat ->
    fold_left (fun arr c => store arr (Z.to_nat ((c - start) / step)) (row c))
      (map (fun i => start + Z.of_nat i * step) (seq 0 k)) (repeat zero N)
    = map row (map (fun i => start + Z.of_nat i * step) (seq 0 k)) ++ repeat zero (N - k)) as G.
  { induction k as [|k IH]; intros Hk.
    - simpl. f_equal. lia.
    - rewrite seq_S, !map_app, fold_left_app, IH by lia. simpl.
      replace (Z.to_nat ((start + Z.of_nat k * step - start) / step)) with
        (length (map row (map (fun i => start + Z.of_nat i * step) (seq 0 k)))).
      2:{ rewrite !map_length, seq_length.
          replace (start + Z.of_nat k * step - start) with (Z.of_nat k * step) by lia.
          rewrite Z.div_mul by lia. lia. }
      replace (N - k)%nat with (S (N - S k)) by lia. simpl repeat.
      rewrite store_app, <- app_assoc. reflexivity. }
  rewrite G by lia. rewrite Nat.sub_diag. simpl. rewrite app_nil_r. reflexivity.
Qed.
