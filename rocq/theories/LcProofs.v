From Coq Require Import Lra Permutation.
From Verif Require Import RangeProofs.
From Verif Require Export LcModel LcSpec LogitProofs.
Open Scope R_scope.

Lemma map2_length {A B C} (f : A -> B -> C) l m : length (map2 f l m) = Nat.min (length l) (length m).
Proof. revert m. induction l; destruct m; simpl; auto. Qed.
Lemma map2_nth {A B C} (f : A -> B -> C) l m i da db dc :
  (i < length l)%nat -> (i < length m)%nat -> nth i (map2 f l m) dc = f (nth i l da) (nth i m db).
Proof.
  revert m i. induction l as [|x l IH]; destruct m as [|y m]; simpl; intros i H1 H2; try lia.
  destruct i; auto. apply IH; lia.
Qed.

Lemma resolve_ok n start stop step : valid_range n start (if (stop =? -1)%Z then n else stop) step ->
  resolve_range n start stop step = Ok (if (stop =? -1)%Z then n else stop).
Proof.
  intros (H1 & H2 & H3). unfold resolve_range. set (s := if (stop =? -1)%Z then n else stop) in *.
  destruct (Z.leb_spec n start); [lia|]. destruct (Z.ltb_spec s start); [lia|].
  destruct (Z.leb_spec step 0); [lia|]. destruct (Z.ltb_spec start 0); [lia|].
  destruct (Z.ltb_spec n s); [lia|]. reflexivity.
Qed.

Lemma range_count_length n start stop step : valid_range n start stop step ->
  range_count start stop step (length (case_range start stop step)).
Proof.
  intros (H1 & H2 & H3) i. rewrite case_range_length, n_rows_count by lia.
  split; intros H.
  - assert (Hq : (Z.of_nat i + 1 <= (stop - start + step - 1) / step)%Z) by lia.
    assert ((step * (Z.of_nat i + 1) <= step * ((stop - start + step - 1) / step))%Z) by
      (apply Z.mul_le_mono_nonneg_l; lia).
    pose proof (Z.mul_div_le (stop - start + step - 1) step H3). nia.
  - assert (Hq : (Z.of_nat i + 1 <= (stop - start + step - 1) / step)%Z); [|lia].
    apply Z.div_le_lower_bound; nia.
Qed.

Lemma range_count_unique start stop step N M :
  range_count start stop step N -> range_count start stop step M -> N = M.
Proof.
  intros HN HM.
  destruct (Nat.lt_trichotomy N M) as [H|[H|H]]; auto.
  - apply HM in H. apply HN in H. lia.
  - apply HN in H. apply HM in H. lia.
Qed.

Lemma column_ok K k : (1 <= k <= Z.of_nat K)%Z -> column_of K k = Some (Z.to_nat (k - 1)).
Proof.
  intros H. unfold column_of. destruct (Z.leb_spec 1 k); [|lia]. destruct (Z.leb_spec k (Z.of_nat K)); [|lia].
  reflexivity.
Qed.
Lemma column_bad K k : ~ (1 <= k <= Z.of_nat K)%Z -> column_of K k = None.
Proof.
  intros H. unfold column_of. destruct (Z.leb_spec 1 k); auto. destruct (Z.leb_spec k (Z.of_nat K)); auto. lia.
Qed.

Section Mix.
Variables (n_alts : nat) (pk : Z -> Z -> list R) (pm : Z -> list R) (cs : list Z).
Hypothesis wide : forall k c, (n_alts <= length (pk k c))%nat.

Definition shaped (p : list (list R)) : Prop :=
  length p = length cs /\ forall i, (i < length cs)%nat -> length (nth i p []) = n_alts.

Lemma add_class_shaped col k p : shaped p ->
  shaped (add_class n_alts col p (map (pk k) cs) (map pm cs)) /\
  forall i a, (i < length cs)%nat -> (a < n_alts)%nat ->
    nth a (nth i (add_class n_alts col p (map (pk k) cs) (map pm cs)) []) 0 =
    nth a (nth i p []) 0 + nth a (pk k (nth i cs 0%Z)) 0 * nth col (pm (nth i cs 0%Z)) 0.
Proof.
  intros [L1 L2]. unfold add_class.
  assert (E : forall i, (i < length cs)%nat ->
    nth i (map2 (map2 Rplus) p (map2 (fun row m => map (fun x => x * nth col m 0) (firstn n_alts row))
       (map (pk k) cs) (map pm cs))) [] =
    map2 Rplus (nth i p []) (map (fun x => x * nth col (pm (nth i cs 0%Z)) 0)
       (firstn n_alts (pk k (nth i cs 0%Z))))).
  { intros i Hi. rewrite (map2_nth _ _ _ _ [] []); [|lia|rewrite map2_length, !map_length; lia].
    f_equal. rewrite (map2_nth _ _ _ _ [] []); try (rewrite map_length; lia).
    rewrite !(nth_indep (map _ cs) [] (pk k 0%Z)) by (rewrite map_length; lia).
    rewrite (nth_indep (map pm cs) (pk k 0%Z) (pm 0%Z)) by (rewrite map_length; lia).
    rewrite (map_nth (pk k)), (map_nth pm). reflexivity. }
  split; [split|].
  - rewrite !map2_length, !map_length. lia.
  - intros i Hi. rewrite E by auto. rewrite map2_length, map_length, firstn_length, L2 by auto.
    specialize (wide k (nth i cs 0%Z)). lia.
  - intros i a Hi Ha. rewrite E by auto. specialize (wide k (nth i cs 0%Z)).
    rewrite (map2_nth _ _ _ _ 0 0); [|rewrite L2; auto|rewrite map_length, firstn_length; lia].
    f_equal.
    rewrite (nth_indep _ 0 ((fun x => x * nth col (pm (nth i cs 0%Z)) 0) 0))
      by (rewrite map_length, firstn_length; lia).
    rewrite (map_nth (fun x => x * nth col (pm (nth i cs 0%Z)) 0)). f_equal.
    rewrite <- (firstn_skipn n_alts (pk k (nth i cs 0%Z))) at 2.
    rewrite app_nth1; auto. rewrite firstn_length. lia.
Qed.

Lemma add_classes_value K keys p : (forall k, In k keys -> (1 <= k <= Z.of_nat K)%Z) -> shaped p ->
  exists p', add_classes n_alts K keys (fun k => map (pk k) cs) (map pm cs) p = Ok p' /\ shaped p' /\
  forall i a, (i < length cs)%nat -> (a < n_alts)%nat ->
    nth a (nth i p' []) 0 = nth a (nth i p []) 0 + mixture keys pk pm (nth i cs 0%Z) a.
Proof.
  revert p. induction keys as [|k keys IH]; intros p Hk S; simpl.
  - exists p. split; auto. split; auto. intros. unfold mixture. simpl. lra.
  - rewrite column_ok by (apply Hk; left; auto).
    destruct (add_class_shaped (Z.to_nat (k - 1)) k p S) as [S' V].
    destruct (IH _ (fun k' H => Hk k' (or_intror H)) S') as (p' & E & S'' & V').
    exists p'. split; auto. split; auto. intros i a Hi Ha. rewrite V', V by auto.
    unfold mixture, share. simpl. lra.
Qed.

Lemma add_classes_bad K keys p k : In k keys -> ~ (1 <= k <= Z.of_nat K)%Z ->
  add_classes n_alts K keys (fun k => map (pk k) cs) (map pm cs) p = KeyError.
Proof.
  intros H B. revert p. induction keys as [|k' keys IH]; intros p; [destruct H|].
  simpl. destruct H as [ ->|H].
  - rewrite column_bad; auto.
  - destruct (column_of K k'); auto.
Qed.
End Mix.

Lemma shaped_zero n_alts cs : shaped n_alts cs (repeat (repeat 0 n_alts) (length cs)).
Proof.
  split; [apply repeat_length|]. intros i Hi.
  rewrite (nth_indep _ [] (repeat 0 n_alts)) by (rewrite repeat_length; auto).
  rewrite nth_repeat, repeat_length. reflexivity.
Qed.
Lemma nth_zero n_alts N i a : nth a (nth i (repeat (repeat 0 n_alts) N) []) 0 = 0.
Proof.
  destruct (Nat.lt_ge_cases i N) as [H|H].
  - rewrite (nth_indep _ [] (repeat 0 n_alts)) by (rewrite repeat_length; auto).
    rewrite nth_repeat. apply nth_repeat.
  - rewrite (nth_overflow (repeat (repeat 0 n_alts) N)) by (rewrite repeat_length; auto). destruct a; auto.
Qed.

Lemma lc_probability_value n n_alts keys pk pm start stop step :
  (forall k c, (n_alts <= length (pk k c))%nat) ->
  (forall k, In k keys -> (1 <= k <= Z.of_nat (length keys))%Z) ->
  valid_range n start (if (stop =? -1)%Z then n else stop) step ->
  let cs := case_range start (if (stop =? -1)%Z then n else stop) step in
  exists p, lc_probability n n_alts keys pk pm start stop step = Ok p /\ shaped n_alts cs p /\
  forall i a, (i < length cs)%nat -> (a < n_alts)%nat -> nth a (nth i p []) 0 = mixture keys pk pm (nth i cs 0%Z) a.
Proof.
  intros W Hk V cs. unfold lc_probability. rewrite resolve_ok by auto.
  set (stop' := if (stop =? -1)%Z then n else stop) in *. destruct V as (V1 & V2 & V3).
  rewrite persisted_rows by lia.
  assert (E : (fun k => persisted [] (pk k) start stop' step) = (fun k => map (pk k) cs)).
  { apply FunctionalExtensionality.functional_extensionality. intros k. rewrite persisted_rows by lia. reflexivity. }
  rewrite E. rewrite <- case_range_length by lia. fold cs.
  destruct (add_classes_value n_alts pk pm cs W (length keys) keys _ Hk (shaped_zero n_alts cs))
    as (p & E' & S & V).
  exists p. split; auto. split; auto. intros i a Hi Ha. rewrite V, nth_zero by auto. lra.
Qed.

(** * Log likelihood *)
Lemma oplus_fold_some {A} (f : A -> option R) (g : A -> R) l x :
  (forall a, In a l -> f a = Some (g a)) ->
  fold_left (fun s a => oplus s (f a)) l (Some x) = Some (x + Rsum g l).
Proof.
  revert x. induction l as [|a l IH]; simpl; intros x H.
  - f_equal. lra.
  - rewrite (H a) by auto. simpl. rewrite IH by auto. f_equal. lra.
Qed.

Lemma Rsum_combine_nth {A B} (f : A * B -> R) (l : list A) (m : list B) da db :
  length l = length m ->
  Rsum f (combine l m) = Rsum (fun i => f (nth i l da, nth i m db)) (seq 0 (length l)).
Proof.
  revert m. induction l as [|x l IH]; destruct m as [|y m]; simpl; intros H; try discriminate; auto.
  f_equal. rewrite (IH m) by lia. rewrite <- seq_shift, Rsum_map. reflexivity.
Qed.

Lemma in_combine_nth {A B} (l : list A) (m : list B) p da db : In p (combine l m) ->
  exists i, (i < length l)%nat /\ p = (nth i l da, nth i m db).
Proof.
  revert m. induction l as [|x l IH]; destruct m as [|y m]; simpl; intros H; try tauto.
  destruct H as [<-|H].
  - exists O. split; auto. lia.
  - destruct (IH m H) as (i & Hi & E). exists (S i). split; auto. lia.
Qed.

Lemma case_ll_value probs chs : length probs = length chs ->
  (forall a, (a < length probs)%nat -> nth a chs 0 <> 0 -> 0 < nth a probs 0) ->
  case_ll probs chs = Some (Rsum (fun a => nth a chs 0 * ln (nth a probs 0)) (seq 0 (length probs))).
Proof.
  intros L H. unfold case_ll.
  assert (G : forall l x, (forall p, In p l -> snd p <> 0 -> 0 < fst p) ->
    fold_left (fun ll (pc : R * R) => if Req_EM_T (snd pc) 0 then ll else oplus ll (oscale (snd pc) (flog (fst pc)))) l (Some x)
    = Some (x + Rsum (fun p => snd p * ln (fst p)) l)).
  { induction l as [|p l IH]; intros x Hp; cbn [fold_left Rsum fold_right].
    - f_equal. lra.
    - destruct (Req_EM_T (snd p) 0) as [Z|Z].
      + rewrite IH by (intros; apply Hp; simpl; auto). f_equal. rewrite Z. unfold Rsum. lra.
      + unfold flog. destruct (Rlt_dec 0 (fst p)) as [P|P]; [|exfalso; apply P; apply Hp; simpl; auto].
        cbn [oscale option_map oplus]. rewrite IH by (intros; apply Hp; simpl; auto). f_equal. unfold Rsum. lra. }
  rewrite G.
  - rewrite Rplus_0_l. rewrite (Rsum_combine_nth _ _ _ 0 0) by auto. reflexivity.
  - intros p Hp Hs. destruct (in_combine_nth _ _ _ 0 0 Hp) as (i & Hi & ->). simpl in *. auto.
Qed.

Lemma loglike_value probs chs wts n_alts :
  length chs = length probs -> length wts = length probs ->
  (forall i, (i < length probs)%nat -> length (nth i probs []) = n_alts /\ length (nth i chs []) = n_alts) ->
  (forall i a, (i < length probs)%nat -> (a < n_alts)%nat ->
     nth a (nth i chs []) 0 <> 0 -> 0 < nth a (nth i probs []) 0) ->
  loglike_from_probability probs chs wts =
  Some (log_likelihood (length probs) n_alts (fun i a => nth a (nth i probs []) 0)
         (fun i a => nth a (nth i chs []) 0) (fun i => nth i wts 0)).
Proof.
  intros L1 L2 S H. unfold loglike_from_probability.
  assert (Lc : length (combine probs chs) = length probs) by (rewrite combine_length; lia).
  rewrite (oplus_fold_some _ (fun pcw => snd pcw * Rsum (fun a => nth a (snd (fst pcw)) 0 * ln (nth a (fst (fst pcw)) 0)) (seq 0 n_alts))).
  - rewrite Rplus_0_l. rewrite (Rsum_combine_nth _ _ _ ([], []) 0) by lia.
    rewrite Lc. unfold log_likelihood. f_equal. apply Rsum_ext. intros i Hi. apply in_seq in Hi.
    rewrite combine_nth by auto. reflexivity.
  - intros pcw Hp. destruct (in_combine_nth _ _ _ ([], []) 0 Hp) as (i & Hi & ->).
    rewrite Lc in Hi. rewrite combine_nth by auto. cbn [fst snd].
    destruct (S i Hi) as [S1 S2].
    rewrite case_ll_value; [|lia|intros a Ha Hc; apply H; auto; lia].
    cbn [oscale option_map]. rewrite S1. f_equal. lra.
Qed.
