(** C47: splitting partitions the cases. *)
From Verif Require Import WtModel WtSpec WtProofs WtProps SplitModel SplitSpec SplitProofs.
Open Scope R_scope.

(** C47. Every case is in exactly one part, in any order of the cases. *)
Theorem C47_each_case_once splits useq n i : shares_ok splits -> shuffled n useq -> (i < n)%nat ->
  exists s, (s < length splits)%nat /\ in_part splits useq s i /\ forall t, in_part splits useq t i -> t = s.
Proof.
  intros H Hp Hi.
  assert (Hl : length useq = n) by (rewrite (Permutation_length Hp); apply uniform_length).
  assert (Hu : 0 <= nth i useq 0 < 1) by (apply (uniform_range n); apply (Permutation_in _ Hp), nth_In; lia).
  destruct (part_exists splits _ H Hu) as (s & Hs & Hb). exists s. split; [ easy | ]. split.
  - now apply (in_part_iff splits useq n).
  - intros t Ht. apply (in_part_iff splits useq n) in Ht as [_ Ht]; try easy.
    apply Nat.le_antisymm; eapply part_order; eauto; lra.
Qed.
Example C47_shares_met : shares_ok [3; 1] /\ shuffled 4 (uniform_seq 4).
Proof.
  split; [ split; [ repeat constructor; lra | unfold sum; cbn; lra ] | apply Permutation_refl ].
Qed.
(** Equal shares from a number of parts are such shares. *)
Theorem C47_equal_splits k : (0 < k)%nat -> shares_ok (equal_splits k) /\ forall s, (s < k)%nat -> share (equal_splits k) s = 1 / INR k.
Proof.
  intros Hk. assert (H0 : 0 < INR k) by (apply lt_0_INR; lia). assert (Hp : 0 < 1 / INR k) by (apply Rdiv_lt_0_compat; lra).
  assert (G : forall m, sum (repeat (1 / INR k) m) = INR m / INR k).
  { induction m as [|m IH]; [ unfold sum; cbn; unfold Rdiv; ring | ]. cbn [repeat]. rewrite sum_cons, IH, S_INR. field. lra. }
  assert (Es : sum (equal_splits k) = 1) by (unfold equal_splits; rewrite G; field; lra).
  split; [ split | ].
  - apply Forall_forall. intros x Hx. apply repeat_spec in Hx. subst. lra.
  - rewrite Es. lra.
  - intros s Hs. unfold share. rewrite Es. unfold equal_splits.
    rewrite (nth_indep _ 0 (1 / INR k)) by (now rewrite repeat_length). rewrite nth_repeat. field. lra.
Qed.
(** Sizes are the shares of the number of cases, to within one case. *)
Theorem C47_sizes splits useq n s : shares_ok splits -> shuffled n useq -> (0 < n)%nat -> (s < length splits)%nat ->
  share splits s * INR n - 1 < INR (part_size splits useq s) < share splits s * INR n + 1.
Proof. apply size_bounds. Qed.
(** Without shuffling the parts are contiguous: putting them together gives the data in its order; with
    shuffling, every row once. *)
Theorem C47_simple_in_order {A} splits n (rows : list A) : shares_ok splits -> length rows = n ->
  concat (map (fun s => select (these_positions splits (uniform_seq n) s) rows) (seq 0 (length splits))) = rows.
Proof. apply parts_order. Qed.
Theorem C47_shuffle_keeps_rows {A} splits useq n (rows : list A) : shares_ok splits -> shuffled n useq -> length rows = n ->
  Permutation (concat (map (fun s => select (these_positions splits useq s) rows) (seq 0 (length splits)))) rows.
Proof. apply parts_perm. Qed.
(** The rows of a frame that a part gets are those of its cases, in order. *)
Theorem C47_part_rows {A} splits useq s (rows : list A) d : length useq = length rows ->
  select (these_positions splits useq s) rows = map (fun i => nth i rows d) (where_ (these_positions splits useq s)) /\
  (forall i, In i (where_ (these_positions splits useq s)) <-> in_part splits useq s i).
Proof.
  intros E. split; [ | intros i; apply where_in ].
  apply select_where. now rewrite positions_length.
Qed.
(** Rows of idca and idce data whose case codes are the positions of the cases: a row is in a part exactly
    when its case is; and, after renumbering, its code is the position of the case in the part if every case
    has rows. *)
Theorem C47_alternatives_follow {A} splits useq s (rows : list (nat * A)) r : 
  In r (split_rows (these_positions splits useq s) rows) <-> In r rows /\ in_part splits useq s (fst r).
Proof. apply split_rows_in. Qed.
Theorem C47_renumbered {A} splits useq s (rows : list (nat * A)) r :
  (forall i, in_part splits useq s i -> exists r', In r' rows /\ fst r' = i) ->
  In r (renumber (split_rows (these_positions splits useq s) rows)) ->
  exists r', In r' rows /\ snd r' = snd r /\ in_part splits useq s (fst r') /\
    nth (fst r) (where_ (these_positions splits useq s)) 0%nat = fst r' /\
    (fst r < length (where_ (these_positions splits useq s)))%nat.
Proof.
  intros H Hr. destruct (renumber_code _ rows r H Hr) as (r' & H1 & H2 & H3 & H4).
  apply split_rows_in in H1 as [H1 H5]. exists r'. auto.
Qed.
(** The part of idca data keeps its old codes (only idce data are renumbered), so splitting a part again
    gives the wrong rows: here four cases, two halves, and the second half split in two. *)
Definition half (s : nat) : list bool := match s with O => [true; true; false; false] | _ => [false; false; true; true] end.
Lemma halves : these_positions [1; 1] (uniform_seq 4) 0 = half 0 /\ these_positions [1; 1] (uniform_seq 4) 1 = half 1.
Proof.
  assert (Hok : shares_ok [1; 1]) by (split; [ repeat constructor; lra | unfold sum; cbn; lra ]).
  assert (G : forall s i, (s < 2)%nat -> (i < 4)%nat ->
    nth i (these_positions [1; 1] (uniform_seq 4) s) false = true <-> cumf [1; 1] s <= INR i / 4 < cumf [1; 1] (S s)).
  { intros s i Hs Hi. rewrite positions_nth by (now rewrite uniform_length). rewrite uniform_nth by easy.
    change (INR 4) with (2 + 1 + 1). replace (2 + 1 + 1) with 4 by ring.
    apply member_true; [ easy | | easy ]. pose proof (pos_INR i). unfold Rdiv. lra. }
  assert (C0 : cumf [1; 1] 0 = 0) by apply cumf_0.
  assert (C1 : cumf [1; 1] 1 = 1 / 2) by (unfold cumf, sum; cbn; field).
  assert (C2 : cumf [1; 1] 2 = 1) by (unfold cumf, sum; cbn; field).
  assert (E : forall s, (s < 2)%nat -> these_positions [1; 1] (uniform_seq 4) s = half s).
  { intros s Hs. apply (nth_ext _ _ false false); [ rewrite positions_length, uniform_length; destruct s; reflexivity | ].
    rewrite positions_length, uniform_length. intros i Hi.
    specialize (G s i Hs Hi). apply eq_true_iff_eq. rewrite G.
    destruct s as [|[|s]]; [ rewrite C0, C1 | rewrite C1, C2 | lia ];
    destruct i as [|[|[|[|i]]]]; cbn [half nth]; try lia; cbn [INR]; split; intros; try easy; lra. }
  split; [ apply E; lia | apply E; lia ].
Qed.
Theorem C47_nested_idca_refuted :
  let rows := [(0, 10); (1, 11); (2, 12); (3, 13)]%nat in
  let second := split_rows (these_positions [1; 1] (uniform_seq 4) 1) rows in
  second = [(2, 12); (3, 13)]%nat /\
  forall mask, length mask = 2%nat -> split_rows mask second = [].
Proof.
  destruct halves as (_ & E). cbn [half] in E. intros rows second. unfold second. rewrite E.
  split; [ reflexivity | ]. intros [|a [|b [|]]] Hm; try discriminate. now destruct a, b.
Qed.

(** The log likelihoods of the parts add up to that of the whole divided by its normalization... *)
Theorem C47_loglike_adds d splits useq parts f v : shares_ok splits -> shuffled (d_n d) useq ->
  length (d_ch d) = d_n d -> (forall wt, d_wt d = Some wt -> length wt = d_n d) ->
  split d splits useq = Some parts -> loglike d f = Some v ->
  exists vs, Forall2 (fun s x => loglike (nth s parts d) (fun c => f (nth c (where_ (these_positions splits useq s)) 0%nat)) = Some x)
               (seq 0 (length splits)) vs /\ length parts = length splits /\ d_norm d * sum vs = v.
Proof.
  intros H Hp Hch Hwt Hs Hv.
  assert (Hu : length useq = d_n d) by (rewrite (Permutation_length Hp); apply uniform_length).
  unfold split in Hs. destruct (Nat.leb (length splits) 1); [ discriminate | ]. injection Hs as <-.
  set (k := length splits). set (terms := map (case_term d f) (seq 0 (d_n d))).
  assert (Et : total (map (fun s => total (select (these_positions splits useq s) terms)) (seq 0 k)) = total terms).
  { rewrite <- (map_map (fun s => select (these_positions splits useq s) terms) total), <- total_concat.
    apply total_perm. apply (parts_perm splits useq (d_n d)); [ easy | easy | ]. unfold terms. now rewrite map_length, seq_length. }
  unfold loglike in Hv. rewrite weighted_total in Hv. fold terms in Hv.
  destruct (total terms) as [t|] eqn:Ett; cbn in Hv; [ injection Hv as <- | discriminate ].
  assert (Ex : forall l t, total l = Some t -> exists vs, l = map Some vs /\ sum vs = t).
  { induction l as [|x l IH]; cbn [total fold_right]; intros t' E.
    - injection E as <-. exists []. split; [ easy | reflexivity ].
    - fold (total l) in E. destruct x as [x|], (total l) as [tl|]; cbn in E; try discriminate.
      injection E as <-. destruct (IH tl eq_refl) as (vs & -> & <-). exists (x :: vs). split; [ easy | now rewrite sum_cons ]. }
  destruct (Ex _ _ Et) as (vs & Evs & Esum). exists vs. split; [ | split; [ now rewrite map_length, seq_length | rewrite Esum; ring ] ].
  assert (Hnth : forall s, (s < k)%nat -> nth s (map (split_part d splits useq) (seq 0 k)) d = split_part d splits useq s).
  { intros s Hs. rewrite (nth_indep _ d (split_part d splits useq 0)) by (now rewrite map_length, seq_length).
    now rewrite map_nth, seq_nth. }
  assert (Hpart : forall s, loglike (split_part d splits useq s) (fun c => f (nth c (where_ (these_positions splits useq s)) 0%nat)) =
    total (select (these_positions splits useq s) terms)).
  { intros s. unfold loglike. rewrite (part_weighted d splits useq s f) by easy. fold terms.
    change (d_norm (split_part d splits useq s)) with 1.
    destruct (total (select (these_positions splits useq s) terms)); cbn [omul option_map]; [ now rewrite Rmult_1_r | easy ]. }
  clear Et Esum Ett Ex. assert (Hin : forall s, In s (seq 0 k) -> (s < k)%nat) by (intros s Hs; apply in_seq in Hs; lia).
  revert vs Evs Hin. generalize (seq 0 k) at 1 2 4. induction l as [|s l IH]; intros [|x vs] E Hin; cbn in E; try discriminate; constructor.
  - injection E as E _. rewrite Hnth by (apply Hin; now left). now rewrite Hpart.
  - apply IH; [ now injection E | intros; apply Hin; now right ].
Qed.
(** ... so they do not add up to it when the weights had been scaled: the normalization is not passed on. *)
Theorem C47_normalization_lost_refuted d splits useq parts p : split d splits useq = Some parts -> In p parts -> d_norm p = 1.
Proof.
  unfold split. destruct (Nat.leb (length splits) 1); [ discriminate | ]. intros E. injection E as <-.
  intros H. apply in_map_iff in H as (s & <- & _). reflexivity.
Qed.
Example C47_normalization_lost_met :
  let d := mkD 2 [[1]; [1]] (Some [Some 1; Some 1]) 3 in
  loglike d (fun _ => [1]) = Some 6 /\
  forall parts p, split d [1; 1] (uniform_seq 2) = Some parts -> In p parts -> d_norm p = 1.
Proof.
  intros d. split; [ unfold loglike, case_term, case_weight, dotl, sum; cbn; f_equal; ring | ].
  intros parts p. apply C47_normalization_lost_refuted.
Qed.
(** Asking for a single part is an error. *)
Theorem C47_single_part_raises d x useq : split d [x] useq = None. Proof. reflexivity. Qed.
