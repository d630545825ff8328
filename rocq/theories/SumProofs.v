(** Lemmas for the choice and availability summary. *)
From Coq Require Import ZArith Permutation FunctionalExtensionality.
From Verif Require Export SumSpec.
From Verif Require Import LogitProofs LogitRun LogitProps.

Lemma fold_plus {A} (f : A -> R) l : forall a, fold_left (fun acc x => acc + f x) l a = a + Rsum f l.
Proof. induction l as [|x l IH]; intros a; simpl; [lra|]. rewrite IH. lra. Qed.
Lemma sum0_gen rows k : forall acc, fold_left (fun acc (row : nat -> R) k => acc k + row k) rows acc k = acc k + Rsum (fun r : nat -> R => r k) rows.
Proof. induction rows as [|r rows IH]; intros acc; simpl; [lra|]. rewrite IH. lra. Qed.
Lemma sum0_spec rows k : sum0 rows k = Rsum (fun r : nat -> R => r k) rows.
Proof. unfold sum0. rewrite sum0_gen. lra. Qed.
Lemma sum_all_spec m rows : sum_all m rows = Rsum (sum0 rows) (seq 0 m).
Proof. unfold sum_all. rewrite (fold_plus (sum0 rows)). lra. Qed.
Lemma count_spec (f : (nat -> bool) -> bool) av : Rsum (fun r => b2r (f r)) av = INR (length (filter f av)).
Proof.
  induction av as [|a av IH]; auto. cbn [Rsum fold_right filter]. fold (Rsum (fun r => b2r (f r)) av). rewrite IH.
  destruct (f a); unfold b2r; [|lra]. cbn [length]. rewrite S_INR. lra.
Qed.
Lemma avail_spec av k : sum0 (map (fun (a : nat -> bool) k => b2r (a k)) av) k = cases_available av (k :: nil).
Proof.
  rewrite sum0_spec, Rsum_map, (count_spec (fun r => r k)). unfold cases_available. f_equal. f_equal.
  apply filter_ext. intros r. simpl. rewrite orb_false_r. auto.
Qed.
Lemma left_spec ch : forall av k, length ch = length av -> sum0 (blank_available ch av) k = chosen_unavailable ch av k.
Proof.
  intros av k. rewrite sum0_spec. revert av. induction ch as [|c ch IH]; intros av HL; destruct av as [|a av]; try discriminate; auto.
  unfold chosen_unavailable in *. simpl. rewrite IH by (simpl in HL; lia). auto.
Qed.
Lemma by_position_labels idx f : map fst (by_position idx f) = idx.
Proof.
  unfold by_position. rewrite map_map. simpl. generalize 0%nat. induction idx as [|c idx IH]; intros n; auto.
  simpl. f_equal. apply IH.
Qed.
Lemma by_position_in_gen (idx : list Z) (f : nat -> R) k c : forall n, nth_error idx k = Some c ->
  In (c, Some (f (n + k)%nat)) (map (fun p => (fst p, Some (f (snd p)))) (combine idx (seq n (length idx)))).
Proof.
  revert k. induction idx as [|d idx IH]; intros k n H; destruct k; try discriminate; simpl in *.
  - injection H as ->. left. rewrite Nat.add_0_r. auto.
  - right. replace (n + S k)%nat with (S n + k)%nat by lia. apply IH; auto.
Qed.
Lemma by_position_in idx f k c : nth_error idx k = Some c -> In (c, Some (f k)) (by_position idx f).
Proof. intros H. apply (by_position_in_gen idx f k c 0%nat H). Qed.
Lemma by_position_sum idx f : column_sum (by_position idx f) = Rsum f (seq 0 (length idx)).
Proof.
  unfold column_sum, by_position. generalize 0%nat. assert (H : forall idx n a,
    fold_left (fun acc p => match snd p with Some x => acc + x | None => acc end)
      (map (fun p => (fst p, Some (f (snd p)))) (combine idx (seq n (length idx)))) a = a + Rsum f (seq n (length (A:=Z) idx))).
  { clear. induction idx as [|c idx IH]; intros n a; cbn [length seq combine map fold_left]; [simpl; lra|].
    cbn [Rsum fold_right fst snd]. rewrite IH. fold (Rsum f (seq (S n) (length idx))). lra. }
  intros n. rewrite H. lra.
Qed.
Lemma nodup_nth_label (idx : list Z) i j c : NoDup idx -> nth_error idx i = Some c -> nth_error idx j = Some c -> i = j.
Proof.
  intros N Hi Hj. assert (i < length idx)%nat by (apply nth_error_Some; congruence).
  apply (proj1 (NoDup_nth_error idx) N); auto. congruence.
Qed.
Lemma lookup_in cells c v : NoDup (map fst cells) -> In (c, v) cells -> lookup_label c cells = v.
Proof.
  induction cells as [|[d w] cells IH]; intros N H; [destruct H|]. simpl in *. inversion N; subst.
  destruct H as [H|H].
  - injection H as -> ->. rewrite Z.eqb_refl. auto.
  - destruct (Z.eqb_spec d c) as [ ->|]; auto. exfalso. apply H2. apply in_map_iff. exists (c, v). auto.
Qed.
Lemma by_position_lookup idx f k c : NoDup idx -> nth_error idx k = Some c -> lookup_label c (by_position idx f) = Some (f k).
Proof. intros N H. apply lookup_in; [rewrite by_position_labels; auto|]. apply by_position_in; auto. Qed.
Lemma filter_labels (r : Z) (cells : list (Z * option R)) :
  map fst (filter (fun p => negb (fst p =? r)%Z) cells) = filter (fun c => negb (c =? r)%Z) (map fst cells).
Proof. induction cells as [|[d w] cells IH]; auto. simpl. destruct (d =? r)%Z; simpl; rewrite IH; auto. Qed.
Lemma drop_last (l : list Z) r : NoDup (l ++ r :: nil) -> filter (fun c => negb (c =? r)%Z) (l ++ r :: nil) = l.
Proof.
  intros N. rewrite filter_app. simpl. rewrite Z.eqb_refl. simpl. rewrite app_nil_r.
  assert (H : ~ In r l). { intros H. apply NoDup_remove_2 in N. rewrite app_nil_r in N. auto. }
  clear N. induction l as [|c l IH]; auto. simpl. destruct (Z.eqb_spec c r) as [ ->|]; [exfalso; apply H; simpl; auto|].
  simpl. f_equal. apply IH. intros Hr. apply H. simpl. auto.
Qed.
Lemma times_one ch k : times_chosen ch (k :: nil) = Rsum (fun r : nat -> R => r k) ch.
Proof. unfold times_chosen. apply Rsum_ext. intros r _. simpl. lra. Qed.
Lemma times_all ch alts : times_chosen ch alts = Rsum (fun k => Rsum (fun r : nat -> R => r k) ch) alts.
Proof. unfold times_chosen. apply (Rsum_swap (fun (r : nat -> R) k => r k)). Qed.

(** The choices left after blanking, cascaded. *)
Lemma chosen_unavailable_map st ch av k :
  chosen_unavailable (map (array_ch_cascade st) ch) (map (array_av_cascade st) av) k =
  Rsum (fun p => if array_av_cascade st (snd p) k then 0 else array_ch_cascade st (fst p) k) (combine ch av).
Proof.
  revert av. unfold chosen_unavailable. induction ch as [|c ch IH]; intros av; destruct av as [|a av]; auto.
  simpl in *. rewrite IH. auto.
Qed.
Lemma chosen_unavailable_nonneg ch av k : (forall c, In c ch -> 0 <= c k) -> 0 <= chosen_unavailable ch av k.
Proof.
  intros H. apply Rsum_nonneg. intros [c a] Hp. apply in_combine_l in Hp. simpl. destruct (a k); [lra|auto].
Qed.
Lemma Rsum_pos_ex {A} (f : A -> R) l : (forall x, In x l -> 0 <= f x) -> 0 < Rsum f l -> exists x, In x l /\ 0 < f x.
Proof.
  induction l as [|x l IH]; intros H Hp; simpl in Hp; [lra|]. destruct (Rlt_dec 0 (f x)) as [H1|H1].
  - exists x. simpl. auto.
  - assert (f x = 0) by (assert (0 <= f x) by (apply H; simpl; auto); lra).
    destruct IH as [y [Hy Hf]]; [intros y Hy; apply H; simpl; auto|lra|]. exists y. simpl. auto.
Qed.

(** The set below a node, for availability and for choices. *)
Lemma node_counts st kids k : tree_slots st kids -> (k < n_nodes st)%nat -> exists below,
  NoDup below /\ (forall a, In a below <-> (a < n_alts st)%nat /\ under kids k a) /\
  (forall ch, array_ch_cascade st ch k = Rsum ch below) /\
  (forall av, array_av_cascade st av k = existsb av below).
Proof.
  intros T Hk. destruct (C10_choice_cascade st kids (fun _ => 0) T) as [_ H].
  destruct (H k Hk) as [below [N [M _]]]. exists below. repeat split; auto; try (apply M; auto).
  - intros ch. destruct (C10_choice_cascade st kids ch T) as [_ H']. destruct (H' k Hk) as [b' [N' [M' E]]].
    rewrite E. apply Rsum_perm. apply NoDup_Permutation; auto. intros a. rewrite M, M'. tauto.
  - intros av. destruct (C10_availability_cascade st kids av T) as [_ H']. specialize (H' k Hk).
    destruct (existsb av below) eqn:E.
    + apply H'. apply existsb_exists in E. destruct E as [a [Ha Ea]]. apply M in Ha. exists a. tauto.
    + destruct (array_av_cascade st av k); auto. destruct (proj1 H' eq_refl) as [a [H1 [H2 H3]]].
      assert (existsb av below = true); [|congruence]. apply existsb_exists. exists a. split; auto. apply M. auto.
Qed.

