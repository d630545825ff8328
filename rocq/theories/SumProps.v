(** C71: the choice and availability summary says how often each alternative and nest was
    chosen and was available. *)
From Coq Require Import ZArith Permutation.
From Verif Require Import SumProofs LogitProofs LogitRun LogitProps.

Definition plain_data (codes : list Z) (ch : list (nat -> R)) (av : list (nat -> bool)) : sum_data :=
  mkSumData codes (Some ch) (Some av) None.

(** Multinomial models. *)
Theorem C71_multinomial : forall codes ch av g,
  exists t, model_summary true (plain_data codes ch av) g = Some t /\
    labels_of t Chosen = codes /\ labels_of t Available = codes /\
    (forall k c, nth_error codes k = Some c ->
       shows t Chosen c (times_chosen ch (k :: nil)) /\ shows t Available c (cases_available av (k :: nil))) /\
    total_shows t Chosen (times_chosen ch (seq 0 (length codes))).
Proof.
  intros codes ch av g. unfold model_summary, choice_avail_summary, plain_data. cbn [sd_ch sd_av sd_codes sd_wt].
  unfold summarize. rewrite Nat.eqb_refl. cbn [negb]. eexists. split; [reflexivity|].
  unfold labels_of, shows, total_shows, column_of, finish. cbn [sm_columns sm_total find sc_name].
  split; [apply by_position_labels|]. split; [apply by_position_labels|]. split.
  - intros k c Hk. split; (eexists; split; [reflexivity|]).
    + cbn [sc_cells]. rewrite times_one, <- sum0_spec. apply by_position_in. auto.
    + cbn [sc_cells]. rewrite <- avail_spec. apply (by_position_in codes _ k c Hk).
  - left. cbn [sc_name sc_cells has_total]. rewrite by_position_sum, times_all.
    do 2 f_equal. apply Rsum_ext. intros k _. apply sum0_spec.
Qed.
(** With exactly one unit of choice per case the total is the number of cases. *)
Theorem C71_total_is_cases : forall codes ch av g t,
  (forall c, In c ch -> Rsum c (seq 0 (length codes)) = 1) ->
  model_summary true (plain_data codes ch av) g = Some t -> total_shows t Chosen (INR (length ch)).
Proof.
  intros codes ch av g t H1 Ht. destruct (C71_multinomial codes ch av g) as [t' [E [_ [_ [_ HT]]]]].
  assert (t = t') by congruence. subst t'.
  replace (INR (length ch)) with (times_chosen ch (seq 0 (length codes))); auto. unfold times_chosen. clear - H1.
  induction ch as [|c ch IH]; auto. cbn [Rsum fold_right length]. rewrite S_INR.
  rewrite (H1 c) by (simpl; auto). fold (Rsum (fun row : nat -> R => Rsum row (seq 0 (length codes))) ch).
  rewrite IH; [lra|]. intros c' Hc'. apply H1. simpl. auto.
Qed.
(** Choices of unavailable alternatives: the column is there exactly when there are any. *)
Theorem C71_chosen_but_not_available : forall codes ch av g t,
  length ch = length av ->
  (forall c k, In c ch -> 0 <= c k) ->
  model_summary true (plain_data codes ch av) g = Some t ->
  ((exists col, column_of t But = Some col) <->
   exists c a k, In (c, a) (combine ch av) /\ (k < length codes)%nat /\ a k = false /\ 0 < c k) /\
  ((exists col, column_of t But = Some col) ->
   labels_of t But = codes /\
   (forall k c, nth_error codes k = Some c -> shows t But c (chosen_unavailable ch av k)) /\
   total_shows t But (Rsum (chosen_unavailable ch av) (seq 0 (length codes)))).
Proof.
  intros codes ch av g t HL Hpos. unfold model_summary, choice_avail_summary, plain_data. cbn [sd_ch sd_av sd_codes sd_wt].
  unfold summarize. rewrite Nat.eqb_refl. cbn [negb].
  assert (Esum : sum_all (length codes) (blank_available ch av) = Rsum (chosen_unavailable ch av) (seq 0 (length codes))).
  { rewrite sum_all_spec. apply Rsum_ext. intros k _. apply left_spec; auto. }
  assert (Hiff : 0 < sum_all (length codes) (blank_available ch av) <->
    exists c a k, In (c, a) (combine ch av) /\ (k < length codes)%nat /\ a k = false /\ 0 < c k).
  { rewrite Esum. split.
    - intros Hp. apply Rsum_pos_ex in Hp; [|intros k _; apply chosen_unavailable_nonneg; intros; auto].
      destruct Hp as [k [Hk Hp]]. apply in_seq in Hk. unfold chosen_unavailable in Hp.
      apply Rsum_pos_ex in Hp.
      + destruct Hp as [[c a] [Hin Hp]]. simpl in Hp. exists c, a, k. destruct (a k); [lra|]. repeat split; auto; lia.
      + intros [c a] Hin. apply in_combine_l in Hin. simpl. destruct (a k); [lra|auto].
    - intros [c [a [k [Hin [Hk [Ha Hc]]]]]].
      apply Rsum_pos with (x := k); [intros; apply chosen_unavailable_nonneg; intros; auto|apply in_seq; lia|].
      unfold chosen_unavailable. apply Rsum_pos with (x := (c, a)); auto.
      + intros [c' a'] H'. apply in_combine_l in H'. simpl. destruct (a' k); [lra|auto].
      + simpl. rewrite Ha. auto. }
  destruct (Rlt_dec 0 (sum_all (length codes) (blank_available ch av))) as [Hd|Hd]; intros [= <-].
  - split; [split; [intros _; apply Hiff; auto|]|].
    + intros _. eexists. reflexivity.
    + intros _. unfold labels_of, shows, total_shows, column_of, finish. cbn [sm_columns sm_total find sc_name sc_cells].
      split; [apply by_position_labels|]. split.
      * intros k c Hk. eexists. split; [reflexivity|]. cbn [sc_cells].
        rewrite <- left_spec by auto. apply by_position_in. auto.
      * right. right. left. cbn [sc_name sc_cells has_total]. rewrite by_position_sum. do 2 f_equal.
        apply Rsum_ext. intros k _. apply left_spec. auto.
  - split; [split; [intros [col Hc]; discriminate Hc|intros H; apply Hiff in H; contradiction]|].
    intros [col Hc]. discriminate Hc.
Qed.

(** Nested models.  The codes of the graph's nodes are in slot order and the alternatives'
    data stand in the order of the graph's alternatives. *)
Record summary_graph (g : sum_graph) (kids : nat -> list nat) (nodes : list Z) : Prop := {
  sgr_tree : tree_slots (sg_slots g) kids;
  sgr_sort : sg_sort g = nodes ++ sg_root g :: nil;
  sgr_count : length (sg_sort g) = n_nodes (sg_slots g);
  sgr_nodup : NoDup (sg_sort g)
}.
Lemma nested_unfold g kids nodes codes ch av : summary_graph g kids nodes -> length codes = n_alts (sg_slots g) ->
  model_summary false (plain_data codes ch av) g =
  let st := sg_slots g in
  let chx := map (array_ch_cascade st) ch in let avx := map (array_av_cascade st) av in
  Some (finish (Some (sg_root g)) (mkSumColumn Chosen (by_position (sg_sort g) (sum0 chx)) ::
    mkSumColumn Available (by_position (sg_sort g) (sum0 (map (fun (a : nat -> bool) k => b2r (a k)) avx))) ::
    (if (if Rlt_dec 0 (sum_all (n_nodes st) (blank_available chx avx)) then true else false)
     then mkSumColumn But (by_position (sg_sort g) (sum0 (blank_available chx avx))) :: nil else nil))).
Proof.
  intros G HL. unfold model_summary, choice_avail_summary, plain_data. cbn [sd_ch sd_av sd_codes sd_wt].
  cbv zeta. unfold widen. rewrite HL, Nat.eqb_refl. unfold summarize.
  rewrite (sgr_count _ _ _ G), Nat.eqb_refl. cbn [negb]. reflexivity.
Qed.
Lemma nodes_slot g kids nodes k c : summary_graph g kids nodes -> nth_error nodes k = Some c ->
  (k < n_nodes (sg_slots g) - 1)%nat /\ nth_error (sg_sort g) k = Some c /\ c <> sg_root g /\ length nodes = (n_nodes (sg_slots g) - 1)%nat.
Proof.
  intros G Hk. assert (k < length nodes)%nat by (apply nth_error_Some; congruence).
  assert (Hc := sgr_count _ _ _ G). rewrite (sgr_sort _ _ _ G), app_length in Hc. simpl in Hc.
  split; [lia|]. split; [rewrite (sgr_sort _ _ _ G), nth_error_app1; auto|]. split; [|lia].
  intros ->. assert (N := sgr_nodup _ _ _ G). rewrite (sgr_sort _ _ _ G) in N. apply NoDup_remove_2 in N.
  rewrite app_nil_r in N. apply N. eapply nth_error_In; eauto.
Qed.
Lemma root_slot g kids nodes : summary_graph g kids nodes ->
  (n_nodes (sg_slots g) - 1 < n_nodes (sg_slots g))%nat /\ nth_error (sg_sort g) (n_nodes (sg_slots g) - 1) = Some (sg_root g).
Proof.
  intros G. assert (Hc := sgr_count _ _ _ G). rewrite (sgr_sort _ _ _ G) in *. rewrite app_length in Hc. simpl in Hc.
  split; [lia|]. rewrite nth_error_app2 by lia. replace (n_nodes (sg_slots g) - 1 - length nodes)%nat with 0%nat by lia. auto.
Qed.
Lemma kept_row g kids nodes (f : nat -> R) k c : summary_graph g kids nodes -> nth_error nodes k = Some c ->
  In (c, Some (f k)) (filter (fun p => negb (fst p =? sg_root g)%Z) (by_position (sg_sort g) f)).
Proof.
  intros G Hk. destruct (nodes_slot g kids nodes k c G Hk) as [_ [H1 [H2 _]]]. apply filter_In. split.
  - apply by_position_in. auto.
  - simpl. destruct (Z.eqb_spec c (sg_root g)); auto; contradiction.
Qed.
Lemma kept_labels g kids nodes (f : nat -> R) : summary_graph g kids nodes ->
  map fst (filter (fun p => negb (fst p =? sg_root g)%Z) (by_position (sg_sort g) f)) = nodes.
Proof.
  intros G. rewrite filter_labels, by_position_labels, (sgr_sort _ _ _ G). apply drop_last.
  rewrite <- (sgr_sort _ _ _ G). apply (sgr_nodup _ _ _ G).
Qed.
(** Every node but the root has a row: a nest counts the choices of the alternatives below
    it and the cases in which one of them was available; the total counts every choice. *)
Theorem C71_nested : forall g kids nodes codes ch av,
  summary_graph g kids nodes -> length codes = n_alts (sg_slots g) ->
  exists t, model_summary false (plain_data codes ch av) g = Some t /\
    labels_of t Chosen = nodes /\ labels_of t Available = nodes /\
    (forall k c, nth_error nodes k = Some c -> exists below,
       NoDup below /\ (forall a, In a below <-> (a < n_alts (sg_slots g))%nat /\ under kids k a) /\
       shows t Chosen c (times_chosen ch below) /\ shows t Available c (cases_available av below)) /\
    total_shows t Chosen (times_chosen ch (seq 0 (length codes))).
Proof.
  intros g kids nodes codes ch av G HL. rewrite (nested_unfold g kids nodes codes ch av G HL). cbv zeta.
  set (st := sg_slots g) in *. assert (T := sgr_tree _ _ _ G). fold st in T.
  eexists. split; [reflexivity|].
  unfold labels_of, shows, total_shows, column_of, finish. cbn [sm_columns sm_total map find sc_name sc_cells].
  split; [apply (kept_labels g kids nodes _ G)|]. split; [apply (kept_labels g kids nodes _ G)|].
  assert (HC : forall k below, (forall c, array_ch_cascade st c k = Rsum c below) ->
    times_chosen ch below = sum0 (map (array_ch_cascade st) ch) k).
  { intros k below Hb. rewrite sum0_spec, Rsum_map. unfold times_chosen. apply Rsum_ext. intros c _. auto. }
  split.
  - intros k c Hk. destruct (nodes_slot g kids nodes k c G Hk) as [Hlt _]. fold st in Hlt.
    destruct (node_counts st kids k T) as [below [N [M [B1 B2]]]]; [lia|].
    exists below. split; auto. split; auto. split; (eexists; split; [reflexivity|]); cbn [sc_cells].
    + rewrite (HC k below B1). apply (kept_row g kids nodes _ k c G Hk).
    + replace (cases_available av below) with (sum0 (map (fun (a : nat -> bool) k => b2r (a k)) (map (array_av_cascade st) av)) k).
      * apply (kept_row g kids nodes _ k c G Hk).
      * rewrite sum0_spec, !Rsum_map. rewrite (count_spec (fun r => array_av_cascade st r k)). unfold cases_available.
        f_equal. f_equal. apply filter_ext. intros r. apply B2.
  - left. cbn [sc_name sc_cells has_total]. destruct (root_slot g kids nodes G) as [Hr1 Hr2]. fold st in Hr1, Hr2.
    rewrite (by_position_lookup _ _ _ _ (sgr_nodup _ _ _ G) Hr2).
    destruct (node_counts st kids (n_nodes st - 1) T Hr1) as [below [N [M [B1 B2]]]].
    rewrite <- (HC _ below B1). do 2 f_equal. unfold times_chosen. apply Rsum_ext. intros c _. apply Rsum_perm.
    apply NoDup_Permutation; auto; [apply seq_NoDup|]. intros a. rewrite M, in_seq, HL. fold st. split; [lia|].
    intros Ha. split; [lia|]. apply (all_under_root st kids T). assert (Hx := ts_root _ _ T). lia.
Qed.
(** The alternatives' own rows of "chosen but not available" are right; a nest's row counts
    only the cases in which nothing below it was available ... *)
Theorem C71_nested_not_available : forall g kids nodes codes ch av t,
  summary_graph g kids nodes -> length codes = n_alts (sg_slots g) -> length ch = length av ->
  (forall c k, In c ch -> 0 <= c k) ->
  model_summary false (plain_data codes ch av) g = Some t ->
  (forall a c, (a < n_alts (sg_slots g))%nat -> nth_error nodes a = Some c ->
    (0 < chosen_unavailable ch av a \/ exists col, column_of t But = Some col) ->
    shows t But c (chosen_unavailable ch av a)) /\
  (forall k c col, column_of t But = Some col -> nth_error nodes k = Some c -> exists below,
    NoDup below /\ (forall a, In a below <-> (a < n_alts (sg_slots g))%nat /\ under kids k a) /\
    shows t But c (Rsum (fun p => if existsb (snd p) below then 0 else Rsum (fst p) below) (combine ch av))).
Proof.
  intros g kids nodes codes ch av t G HL HN Hpos. rewrite (nested_unfold g kids nodes codes ch av G HL). cbv zeta.
  set (st := sg_slots g) in *. assert (T := sgr_tree _ _ _ G). fold st in T.
  set (chx := map (array_ch_cascade st) ch). set (avx := map (array_av_cascade st) av).
  assert (HX : length chx = length avx) by (unfold chx, avx; rewrite !map_length; auto).
  assert (Hnode : forall k, (k < n_nodes st)%nat -> exists below, NoDup below /\ (forall a, In a below <-> (a < n_alts st)%nat /\ under kids k a) /\
     sum0 (blank_available chx avx) k = Rsum (fun p => if existsb (snd p) below then 0 else Rsum (fst p) below) (combine ch av)).
  { intros k Hk. destruct (node_counts st kids k T Hk) as [below [N [M [B1 B2]]]]. exists below. split; auto. split; auto.
    rewrite left_spec by auto. unfold chx, avx. rewrite chosen_unavailable_map. apply Rsum_ext. intros [c a] _. simpl.
    rewrite B1, B2. auto. }
  assert (Halt : forall a, (a < n_alts st)%nat -> sum0 (blank_available chx avx) a = chosen_unavailable ch av a).
  { intros a Ha. rewrite left_spec by auto. unfold chx, avx. rewrite chosen_unavailable_map. unfold chosen_unavailable.
    apply Rsum_ext. intros [c v] _. simpl.
    rewrite (ch_cascade_alt st kids T), (av_cascade_alt st kids T) by auto. auto. }
  destruct (Rlt_dec 0 (sum_all (n_nodes st) (blank_available chx avx))) as [Hd|Hd]; intros [= <-].
  - unfold shows, column_of, finish. cbn [sm_columns map find sc_name sc_cells]. split.
    + intros a c Ha Hc _. eexists. split; [reflexivity|]. cbn [sc_cells]. rewrite <- Halt by auto.
      apply (kept_row g kids nodes _ a c G Hc).
    + intros k c col _ Hk. destruct (nodes_slot g kids nodes k c G Hk) as [Hlt _]. fold st in Hlt.
      destruct (Hnode k) as [below [N [M E]]]; [lia|]. exists below. split; auto. split; auto.
      eexists. split; [reflexivity|]. cbn [sc_cells]. rewrite <- E. apply (kept_row g kids nodes _ k c G Hk).
  - split.
    + intros a c Ha Hc [Hp|[col Hcol]]; [|discriminate Hcol]. exfalso. apply Hd. rewrite sum_all_spec.
      assert (Hr := ts_root _ _ T).
      apply Rsum_pos with (x := a); [|apply in_seq; lia|rewrite Halt; auto].
      intros k Hk. apply in_seq in Hk. destruct (Hnode k) as [below [N [M E]]]; [lia|]. rewrite E.
      apply Rsum_nonneg. intros [c' v] Hin. apply in_combine_l in Hin. simpl. destruct (existsb v below); [lra|].
      apply Rsum_nonneg. intros x _. apply (Hpos c' x Hin).
    + intros k c col Hcol. discriminate Hcol.
Qed.

(** ---- Refuted ---- *)
(** A small tree: alternatives 1 and 2 (slots 0, 1), root 9 (slot 2). *)
Definition small_slots : slots := mkSlots 2 3 ((2, 0) :: (2, 1) :: nil)%nat (fun _ => 0%nat) (fun _ => 2%nat) (fun _ => None).
Definition small_kids (k : nat) : list nat := if (k =? 2)%nat then (0 :: 1 :: nil)%nat else nil.
Definition small_graph : sum_graph := mkSumGraph small_slots (1 :: 2 :: 9 :: nil)%Z 9%Z.
Lemma small_tree : summary_graph small_graph small_kids (1 :: 2 :: nil)%Z.
Proof.
  constructor; try reflexivity.
  - constructor; [constructor|].
    + simpl. lia.
    + intros k Hk. simpl in Hk. unfold small_kids. destruct (Nat.eqb_spec k 2); auto. lia.
    + intros k j. unfold small_kids. destruct (Nat.eqb_spec k 2); simpl; [|tauto]. lia.
    + reflexivity.
    + intros k Hk. simpl in Hk. assert (k = 2)%nat by lia. subst k. reflexivity.
    + apply Permutation_refl.
  - simpl. repeat constructor; simpl; intuition congruence.
Qed.
(** ... so the total row does not add up the alternatives' rows: with a tree, alternative 2
    chosen when only alternative 1 is available is shown once, and the total is zero. *)
Theorem C71_not_available_total_refuted : exists g kids nodes codes ch av t,
  summary_graph g kids nodes /\ length codes = n_alts (sg_slots g) /\
  model_summary false (plain_data codes ch av) g = Some t /\
  shows t But 2%Z 1 /\ total_shows t But 0 /\
  (exists t', model_summary true (plain_data codes ch av) g = Some t' /\ total_shows t' But 1).
Proof.
  exists small_graph, small_kids, (1 :: 2 :: nil)%Z, (1 :: 2 :: nil)%Z.
  set (c := fun k : nat => if (k =? 1)%nat then 1 else 0). set (a := fun k : nat => (k =? 0)%nat).
  exists (c :: nil), (a :: nil).
  destruct (model_summary false (plain_data (1 :: 2 :: nil)%Z (c :: nil) (a :: nil)) small_graph) as [t|] eqn:E.
  2:{ rewrite (nested_unfold _ _ _ (1 :: 2 :: nil)%Z (c :: nil) (a :: nil) small_tree eq_refl) in E. discriminate E. }
  exists t. split; [apply small_tree|]. split; [reflexivity|]. split; [reflexivity|].
  assert (Hcu : chosen_unavailable (c :: nil) (a :: nil) 1 = 1).
  { unfold chosen_unavailable, c, a. simpl. lra. }
  assert (Hpos : forall c' k, In c' (c :: nil) -> 0 <= c' k).
  { intros c' k [ <-|[]]. unfold c. destruct (k =? 1)%nat; lra. }
  split; [|split].
  - destruct (C71_nested_not_available small_graph small_kids (1 :: 2 :: nil)%Z (1 :: 2 :: nil)%Z (c :: nil) (a :: nil) t small_tree eq_refl eq_refl Hpos E) as [H _].
    rewrite <- Hcu. apply (H 1%nat 2%Z); [simpl; lia|reflexivity|]. left. rewrite Hcu. lra.
  - rewrite (nested_unfold _ _ _ (1 :: 2 :: nil)%Z (c :: nil) (a :: nil) small_tree eq_refl) in E. cbv zeta in E.
    set (chx := map (array_ch_cascade (sg_slots small_graph)) (c :: nil)) in *.
    set (avx := map (array_av_cascade (sg_slots small_graph)) (a :: nil)) in *.
    assert (Hb : forall k, sum0 (blank_available chx avx) k = (if array_av_cascade (sg_slots small_graph) a k then 0 else array_ch_cascade (sg_slots small_graph) c k)).
    { intros k. unfold chx, avx. rewrite left_spec by reflexivity. unfold chosen_unavailable. cbn [map combine Rsum fold_right fst snd].
      apply Rplus_0_r. }
    destruct (Rlt_dec 0 (sum_all (n_nodes (sg_slots small_graph)) (blank_available chx avx))) as [Hd|Hd].
    + injection E as <-. unfold total_shows, finish. cbn [sm_total map]. right. right. left. cbn [sc_name sc_cells has_total].
      assert (Hl : lookup_label (sg_root small_graph) (by_position (sg_sort small_graph) (sum0 (blank_available chx avx))) = Some 0); [|exact (f_equal (fun x => (But, x)) Hl)].
      rewrite (by_position_lookup (sg_sort small_graph) _ 2%nat 9%Z (sgr_nodup _ _ _ small_tree) eq_refl).
      rewrite Hb. reflexivity.
    + exfalso. apply Hd. rewrite sum_all_spec. change (n_nodes (sg_slots small_graph)) with 3%nat.
      cbn [seq Rsum fold_right]. rewrite !Hb.
      change (array_av_cascade (sg_slots small_graph) a 0) with true. change (array_av_cascade (sg_slots small_graph) a 1) with false.
      change (array_av_cascade (sg_slots small_graph) a 2) with true. cbv iota.
      rewrite (ch_cascade_alt (sg_slots small_graph) small_kids (sgr_tree _ _ _ small_tree)) by (simpl; lia).
      unfold c. cbn [Nat.eqb]. lra.
  - destruct (model_summary true (plain_data (1 :: 2 :: nil)%Z (c :: nil) (a :: nil)) small_graph) as [t'|] eqn:E'; [|discriminate E'].
    exists t'. split; auto.
    destruct (C71_chosen_but_not_available (1 :: 2 :: nil)%Z (c :: nil) (a :: nil) small_graph t' eq_refl Hpos E') as [H1 H2].
    destruct H2 as [_ [_ HT]].
    + apply H1. exists c, a, 1%nat. simpl. repeat split; auto; try lia. unfold c. simpl. lra.
    + replace 1 with (Rsum (chosen_unavailable (c :: nil) (a :: nil)) (seq 0 (length (1 :: 2 :: nil)%Z))); auto.
      unfold chosen_unavailable, c, a. simpl. lra.
Qed.

(** A summary needs both choices and availability. *)
Theorem C71_incomplete_data_refuted : forall d g is_mnl,
  sd_ch d = None \/ sd_av d = None -> model_summary is_mnl d g = None.
Proof.
  intros d g b H. unfold model_summary, choice_avail_summary. destruct (sd_ch d); auto.
  destruct (sd_av d); auto. destruct H; discriminate.
Qed.

(** Weights are lined up with the alternatives, not with the cases: unless there is one case
    or as many cases as columns the summary raises ... *)
Theorem C71_weights_raise_refuted : forall codes ch av w g,
  length w <> 1%nat -> length w <> length codes ->
  model_summary true (mkSumData codes (Some ch) (Some av) (Some w)) g = None.
Proof.
  intros codes ch av w g H1 H2. unfold model_summary, choice_avail_summary, summarize. cbn [sd_ch sd_av sd_codes sd_wt].
  rewrite Nat.eqb_refl. cbn [negb]. unfold weighted_sum.
  destruct (Nat.eqb_spec (length w) 1); [contradiction|]. destruct (Nat.eqb_spec (length w) (length codes)); [contradiction|]. auto.
Qed.
(** ... it raises when an unavailable alternative is chosen in weighted data ... *)
Theorem C71_weighted_not_available_raises_refuted : forall codes ch av w g k c a,
  length ch = length av -> (forall c k, In c ch -> 0 <= c k) ->
  In (c, a) (combine ch av) -> (k < length codes)%nat -> a k = false -> 0 < c k ->
  model_summary true (mkSumData codes (Some ch) (Some av) (Some w)) g = None.
Proof.
  intros codes ch av w g k c a HL Hpos Hin Hk Ha Hc.
  unfold model_summary, choice_avail_summary, summarize. cbn [sd_ch sd_av sd_codes sd_wt].
  rewrite Nat.eqb_refl. cbn [negb]. destruct (weighted_sum _ ch w); auto. destruct (weighted_sum _ _ w); auto.
  destruct (Rlt_dec 0 (sum_all (length codes) (blank_available ch av))) as [Hd|Hd]; auto.
  exfalso. apply Hd. rewrite sum_all_spec.
  assert (Esum : forall j, sum0 (blank_available ch av) j = chosen_unavailable ch av j) by (intros; apply left_spec; auto).
  apply Rsum_pos with (x := k).
  - intros j _. rewrite Esum. apply chosen_unavailable_nonneg. intros; auto.
  - apply in_seq. lia.
  - rewrite Esum. unfold chosen_unavailable. apply Rsum_pos with (x := (c, a)); auto.
    + intros [c' a'] H'. apply in_combine_l in H'. simpl. destruct (a' k); [lra|auto].
    + simpl. rewrite Ha. auto.
Qed.
(** ... and where it does not, the weighted counts are shown against the wrong weights and
    the wrong labels: with as many cases as alternatives, the row of code [c] shows the
    choices of the alternative in column [c], times the weight of CASE [c]. *)
Theorem C71_weights_misplaced_refuted : forall codes ch av w g t,
  length w <> 1%nat -> length w = length codes ->
  model_summary true (mkSumData codes (Some ch) (Some av) (Some w)) g = Some t ->
  (exists col, column_of t ChosenW = Some col) ->
  labels_of t ChosenW = codes /\
  forall c col, In c codes -> column_of t ChosenW = Some col ->
    ((0 <= c < Z.of_nat (length codes))%Z ->
      shows t ChosenW c (times_chosen ch (Z.to_nat c :: nil) * nth (Z.to_nat c) w 0)) /\
    (~ (0 <= c < Z.of_nat (length codes))%Z -> In (c, None) (sc_cells col)).
Proof.
  intros codes ch av w g t H1 H2. unfold model_summary, choice_avail_summary, summarize. cbn [sd_ch sd_av sd_codes sd_wt].
  rewrite Nat.eqb_refl. cbn [negb]. unfold weighted_sum.
  destruct (Nat.eqb_spec (length w) 1); [contradiction|].
  destruct (Nat.eqb_spec (length w) (length codes)); [|contradiction].
  destruct (Rlt_dec 0 (sum_all (length codes) (blank_available ch av))); [discriminate|].
  set (D := any_differs _ _ _). destruct D; intros [= <-]; [|intros [col Hc]; discriminate Hc].
  intros _. unfold labels_of, shows, column_of, finish. cbn [sm_columns find sc_name sc_cells]. split.
  - unfold by_label. rewrite map_map. simpl. apply map_id.
  - intros c col Hin [= <-]. split; intros Hc.
    + eexists. split; [reflexivity|]. cbn [sc_cells]. unfold by_label. apply in_map_iff. exists c. split; auto.
      replace ((0 <=? c) && (c <? Z.of_nat (length codes)))%Z with true
        by (symmetry; apply andb_true_iff; split; [apply Z.leb_le|apply Z.ltb_lt]; lia).
      do 2 f_equal. rewrite sum0_spec, Rsum_map, times_one. apply (Rsum_scal_r (nth (Z.to_nat c) w 0) (fun r : nat -> R => r (Z.to_nat c))).
    + cbn [sc_cells]. unfold by_label. apply in_map_iff. exists c. split; auto.
      replace ((0 <=? c) && (c <? Z.of_nat (length codes)))%Z with false; auto. symmetry. apply not_true_is_false.
      intros H. apply andb_true_iff in H. destruct H as [A B]. apply Z.leb_le in A. apply Z.ltb_lt in B. lia.
Qed.
(** Two cases, alternatives 1 and 2: case 0 (weight 2) chose alternative 1, case 1 (weight 5)
    chose alternative 2.  Alternative 1's weighted row says 5, alternative 2's is missing. *)
Example C71_misplaced_case : exists t,
  model_summary true (mkSumData (1 :: 2 :: nil)%Z (Some ((fun k => if (k =? 0)%nat then 1 else 0) :: (fun k => if (k =? 1)%nat then 1 else 0) :: nil))
    (Some ((fun _ => true) :: (fun _ => true) :: nil)) (Some (2 :: 5 :: nil))) small_graph = Some t /\
  shows t ChosenW 1%Z 5 /\ (exists col, column_of t ChosenW = Some col /\ In (2%Z, None) (sc_cells col)) /\ shows t ChosenU 1%Z 1.
Proof.
  set (c0 := fun k : nat => if (k =? 0)%nat then 1 else 0). set (c1 := fun k : nat => if (k =? 1)%nat then 1 else 0).
  unfold model_summary, choice_avail_summary, summarize. cbn [sd_ch sd_av sd_codes sd_wt length Nat.eqb negb].
  unfold weighted_sum. cbn [length Nat.eqb].
  destruct (Rlt_dec _ _) as [Hd|_].
  { exfalso. unfold sum_all, sum0 in Hd. simpl in Hd. lra. }
  unfold any_differs. cbn [seq existsb]. rewrite !sum0_spec. cbn [map Rsum fold_right nth].
  unfold c0 at 1 2, c1 at 1 2. cbn [Nat.eqb].
  destruct (Req_EM_T _ _) as [He|_]; [exfalso; lra|]. cbn [orb]. eexists. split; [reflexivity|].
  unfold shows, column_of, finish. cbn [sm_columns find sc_name sc_cells]. split; [|split].
  - eexists. split; [reflexivity|]. cbn [sc_cells]. left. cbn. do 2 f_equal. unfold c0, c1. simpl. lra.
  - eexists. split; [reflexivity|]. cbn [sc_cells]. right. left. reflexivity.
  - eexists. split; [reflexivity|]. cbn [sc_cells]. left. cbn. do 2 f_equal. unfold c0, c1. simpl. lra.
Qed.
(** With a tree, the numbers go to the nodes by position, whatever codes the data carries. *)
Theorem C71_labels_by_position_refuted : forall g kids nodes codes codes' ch av,
  summary_graph g kids nodes -> length codes = n_alts (sg_slots g) -> length codes' = length codes ->
  model_summary false (plain_data codes ch av) g = model_summary false (plain_data codes' ch av) g.
Proof.
  intros g kids nodes codes codes' ch av G H1 H2.
  rewrite (nested_unfold g kids nodes codes ch av G H1), (nested_unfold g kids nodes codes' ch av G) by congruence. auto.
Qed.

(** Non-vacuity: a nested summary of two cases, one of which has only alternative 1. *)
Example C71_nested_case : exists t,
  model_summary false (plain_data (1 :: 2 :: nil)%Z ((fun k => if (k =? 0)%nat then 1 else 0) :: (fun k => if (k =? 1)%nat then 1 else 0) :: nil)
    ((fun k => (k =? 0)%nat) :: (fun _ => true) :: nil)) small_graph = Some t /\
  labels_of t Chosen = (1 :: 2 :: nil)%Z /\ total_shows t Chosen 2.
Proof.
  match goal with |- exists t, model_summary false (plain_data _ ?ch ?av) _ = _ /\ _ =>
    destruct (C71_nested small_graph small_kids (1 :: 2 :: nil)%Z (1 :: 2 :: nil)%Z ch av small_tree eq_refl) as [t [H1 [H2 [_ [_ H3]]]]] end.
  exists t. split; auto. split; auto. match type of H3 with total_shows _ _ ?x => replace 2 with x; auto end.
  unfold times_chosen. simpl. lra.
Qed.
