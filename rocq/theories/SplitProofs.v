(** Proofs about splitting. *)
From Verif Require Import WtModel WtSpec WtProofs SplitModel SplitSpec.
Open Scope R_scope.

Lemma Rltb_lt a b : Rltb a b = true <-> a < b.
Proof. unfold Rltb. destruct (Rlt_dec a b); split; auto; discriminate. Qed.

(** ** Cumulative shares *)
Definition cumf (splits : list R) (s : nat) : R := sum (firstn s splits) / sum splits.
Lemma sum_app l m : sum (l ++ m) = sum l + sum m.
Proof. induction l as [|x l IH]; cbn [app]; [ unfold sum at 2; cbn; ring | ]. rewrite !sum_cons, IH. ring. Qed.
Lemma cumsum_nth a l s : (s < length l)%nat -> nth s (cumsum a l) 0 = a + sum (firstn (S s) l).
Proof.
  revert a s. induction l as [|x l IH]; intros a s Hs; cbn [length] in Hs; [ lia | ].
  cbn [cumsum]. destruct s as [|s].
  - cbn [nth firstn]. rewrite sum_cons. unfold sum; cbn; ring.
  - cbn [nth]. rewrite IH by lia. rewrite (firstn_cons (S s) x l), sum_cons. ring.
Qed.
Lemma cumsum_length a l : length (cumsum a l) = length l.
Proof. revert a. induction l; intros; cbn; auto. Qed.
Lemma cum_nth splits s : (s < length splits)%nat -> nth s (cum_splits splits) 0 = cumf splits (S s).
Proof.
  intros Hs. unfold cum_splits, cumf. rewrite cumsum_nth by (now rewrite map_length).
  rewrite firstn_map, sum_div. ring.
Qed.
Lemma cumf_0 splits : cumf splits 0 = 0.
Proof. unfold cumf, sum. cbn. unfold Rdiv. ring. Qed.
Lemma cumf_all splits : shares_ok splits -> cumf splits (length splits) = 1.
Proof. intros [_ H]. unfold cumf. rewrite firstn_all. field. lra. Qed.
Lemma nth_nonneg splits s : Forall (fun x => 0 <= x) splits -> 0 <= nth s splits 0.
Proof.
  intros H. destruct (Nat.lt_ge_cases s (length splits)) as [Hs|Hs].
  - rewrite Forall_forall in H. apply H, nth_In, Hs.
  - rewrite nth_overflow by easy. lra.
Qed.
Lemma sum_firstn_S l s : sum (firstn (S s) l) = sum (firstn s l) + nth s l 0.
Proof.
  revert s. induction l as [|x l IH]; intros s; [ destruct s; unfold sum; cbn; ring | ].
  rewrite firstn_cons, sum_cons. destruct s as [|s]; [ unfold sum; cbn; ring | ].
  rewrite IH, (firstn_cons s x l), sum_cons. cbn [nth]. ring.
Qed.
Lemma cumf_S splits s : cumf splits (S s) = cumf splits s + share splits s.
Proof. unfold cumf, share. rewrite sum_firstn_S. unfold Rdiv. ring. Qed.
Lemma share_nonneg splits s : shares_ok splits -> 0 <= share splits s.
Proof.
  intros [H1 H2]. unfold share. apply Rmult_le_pos; [ now apply nth_nonneg | ].
  left. now apply Rinv_0_lt_compat.
Qed.
Lemma cumf_mono splits s t : shares_ok splits -> (s <= t)%nat -> cumf splits s <= cumf splits t.
Proof.
  intros H Hst. induction Hst as [|t _ IH]; [ lra | ]. rewrite cumf_S. pose proof (share_nonneg splits t H). lra.
Qed.
Lemma cumf_range splits s : shares_ok splits -> (s <= length splits)%nat -> 0 <= cumf splits s <= 1.
Proof.
  intros H Hs. split.
  - rewrite <- (cumf_0 splits). apply cumf_mono; [ easy | lia ].
  - rewrite <- (cumf_all splits H). apply cumf_mono; [ easy | lia ].
Qed.

(** ** Membership *)
Lemma xor_prev_nth p l s : (s < length l)%nat ->
  nth s (xor_prev p l) false = xorb (nth s l false) (match s with O => p | S k => nth k l false end).
Proof.
  revert p s. induction l as [|x l IH]; intros p s Hs; cbn [length] in Hs; [ lia | ].
  cbn [xor_prev]. destruct s as [|s]; [ reflexivity | ]. cbn [nth]. rewrite IH by lia.
  destruct s; reflexivity.
Qed.
Lemma xor_prev_length p l : length (xor_prev p l) = length l.
Proof. revert p. induction l; intros; cbn; auto. Qed.
Lemma lt_nth splits u s : (s < length splits)%nat ->
  nth s (map (Rltb u) (cum_splits splits)) false = Rltb u (cumf splits (S s)).
Proof.
  intros Hs. assert (Hl : (s < length (cum_splits splits))%nat) by (unfold cum_splits; now rewrite cumsum_length, map_length).
  rewrite (nth_indep _ false (Rltb u 0)) by (now rewrite map_length).
  rewrite map_nth, cum_nth by easy. reflexivity.
Qed.
Lemma member_nth splits u s : shares_ok splits -> 0 <= u -> (s < length splits)%nat ->
  nth s (member_row splits u) false = xorb (Rltb u (cumf splits (S s))) (Rltb u (cumf splits s)).
Proof.
  intros H Hu Hs. unfold member_row.
  rewrite xor_prev_nth by (rewrite map_length; unfold cum_splits; now rewrite cumsum_length, map_length).
  rewrite lt_nth by easy. destruct s as [|s].
  - rewrite cumf_0. f_equal. symmetry. apply not_true_iff_false. rewrite Rltb_lt. lra.
  - now rewrite lt_nth by lia.
Qed.
Lemma member_true splits u s : shares_ok splits -> 0 <= u -> (s < length splits)%nat ->
  (nth s (member_row splits u) false = true <-> cumf splits s <= u < cumf splits (S s)).
Proof.
  intros H Hu Hs. rewrite member_nth by easy. pose proof (cumf_mono splits s (S s) H ltac:(lia)).
  unfold Rltb. destruct (Rlt_dec u (cumf splits (S s))), (Rlt_dec u (cumf splits s)); cbn; split; try easy; lra.
Qed.
Lemma member_out splits u s : (length splits <= s)%nat -> nth s (member_row splits u) false = false.
Proof.
  intros Hs. apply nth_overflow. unfold member_row.
  rewrite xor_prev_length, map_length. unfold cum_splits. now rewrite cumsum_length, map_length.
Qed.
Lemma part_exists splits u : shares_ok splits -> 0 <= u < 1 ->
  exists s, (s < length splits)%nat /\ cumf splits s <= u < cumf splits (S s).
Proof.
  intros H [H0 H1].
  assert (G : forall k, u < cumf splits k -> exists s, (s < k)%nat /\ cumf splits s <= u < cumf splits (S s)).
  { induction k as [|k IH]; intros Hk; [ rewrite cumf_0 in Hk; lra | ].
    destruct (Rlt_le_dec u (cumf splits k)) as [Hlt|Hle].
    - destruct (IH Hlt) as (s & Hs & Hb). exists s. split; [ lia | easy ].
    - exists k. split; [ lia | lra ]. }
  apply G. now rewrite cumf_all.
Qed.
Lemma part_order splits u v s t : shares_ok splits -> u <= v ->
  cumf splits s <= u < cumf splits (S s) -> cumf splits t <= v < cumf splits (S t) -> (s <= t)%nat.
Proof.
  intros H Huv Hs Ht. destruct (Nat.le_gt_cases s t) as [|Hgt]; [ easy | ].
  pose proof (cumf_mono splits (S t) s H ltac:(lia)). lra.
Qed.
Lemma uniform_length n : length (uniform_seq n) = n.
Proof. unfold uniform_seq. now rewrite map_length, seq_length. Qed.
Lemma uniform_range n u : In u (uniform_seq n) -> 0 <= u < 1.
Proof.
  unfold uniform_seq. intros H. apply in_map_iff in H as (i & <- & Hi). apply in_seq in Hi.
  assert (0 < INR n) by (apply lt_0_INR; lia). pose proof (pos_INR i).
  assert (INR i < INR n) by (apply lt_INR; lia). split.
  - apply Rmult_le_pos; [ easy | left; now apply Rinv_0_lt_compat ].
  - apply Rmult_lt_reg_r with (INR n); [ easy | ]. unfold Rdiv. rewrite Rmult_assoc, Rinv_l by lra. lra.
Qed.
Lemma uniform_nth n i : (i < n)%nat -> nth i (uniform_seq n) 0 = INR i / INR n.
Proof.
  intros Hi. unfold uniform_seq.
  rewrite (nth_indep _ 0 (INR 0 / INR n)) by (now rewrite map_length, seq_length).
  rewrite (map_nth (fun i => INR i / INR n)). now rewrite seq_nth.
Qed.
Lemma positions_nth splits useq s i : (i < length useq)%nat ->
  nth i (these_positions splits useq s) false = nth s (member_row splits (nth i useq 0)) false.
Proof.
  intros Hi. unfold these_positions, membership. rewrite map_map.
  rewrite (nth_indep _ false ((fun u => nth s (member_row splits u) false) 0)) by (now rewrite map_length).
  now rewrite (map_nth (fun u => nth s (member_row splits u) false)).
Qed.
Lemma positions_length splits useq s : length (these_positions splits useq s) = length useq.
Proof. unfold these_positions, membership. now rewrite !map_length. Qed.
Lemma in_part_iff splits useq n s i : shares_ok splits -> shuffled n useq -> (i < n)%nat ->
  (in_part splits useq s i <-> (s < length splits)%nat /\ cumf splits s <= nth i useq 0 < cumf splits (S s)).
Proof.
  intros H Hp Hi. assert (Hl : length useq = n) by (rewrite (Permutation_length Hp); apply uniform_length).
  unfold in_part. rewrite positions_nth by lia.
  assert (Hu : 0 <= nth i useq 0) by (apply (uniform_range n); apply (Permutation_in _ Hp), nth_In; lia).
  destruct (Nat.lt_ge_cases s (length splits)) as [Hs|Hs].
  - rewrite member_true by easy. tauto.
  - rewrite member_out by easy. split; [ discriminate | lia ].
Qed.

(** ** Sizes *)
Lemma count_below n x : 0 <= x <= INR n ->
  x <= INR (length (filter (fun i => Rltb (INR i) x) (seq 0 n))) < x + 1.
Proof.
  induction n as [|n IH]; intros Hx; [ cbn in *; lra | ].
  rewrite seq_S, filter_app, app_length. cbn [filter Nat.add]. rewrite S_INR in Hx.
  destruct (Rle_lt_dec x (INR n)) as [Hle|Hgt].
  - destruct (Rltb (INR n) x) eqn:E; [ apply Rltb_lt in E; lra | ].
    cbn [length]. rewrite Nat.add_0_r. apply IH. lra.
  - assert (E : filter (fun i => Rltb (INR i) x) (seq 0 n) = seq 0 n).
    { assert (G : forall l, (forall i, In i l -> (i < n)%nat) -> filter (fun i => Rltb (INR i) x) l = l).
      { induction l as [|a l IHl]; intros Hl; [ easy | ]. cbn.
        assert (Ha : Rltb (INR a) x = true).
        { apply Rltb_lt. apply Rlt_trans with (INR n); [ apply lt_INR, Hl; now left | easy ]. }
        rewrite Ha. f_equal. apply IHl. intros i Hi. apply Hl. now right. }
      apply G. intros i Hi. apply in_seq in Hi. lia. }
    rewrite E, seq_length. assert (Ha : Rltb (INR n) x = true) by (now apply Rltb_lt). rewrite Ha.
    cbn [length]. replace (n + 1)%nat with (S n) by lia. rewrite S_INR. lra.
Qed.
Lemma count_fraction n x : (0 < n)%nat -> 0 <= x <= 1 ->
  x * INR n <= INR (length (filter (fun u => Rltb u x) (uniform_seq n))) < x * INR n + 1.
Proof.
  intros Hn Hx. assert (H0 : 0 < INR n) by (apply lt_0_INR; lia).
  assert (E : length (filter (fun u => Rltb u x) (uniform_seq n)) = length (filter (fun i => Rltb (INR i) (x * INR n)) (seq 0 n))).
  { unfold uniform_seq. induction (seq 0 n) as [|a l IH]; [ easy | ]. cbn [map filter].
    assert (Eb : Rltb (INR a / INR n) x = Rltb (INR a) (x * INR n)).
    { apply eq_true_iff_eq. rewrite !Rltb_lt. split; intros H.
      - apply Rmult_lt_compat_r with (r := INR n) in H; [ | easy ]. unfold Rdiv in H.
        rewrite Rmult_assoc, Rinv_l in H by lra. lra.
      - apply Rmult_lt_reg_r with (INR n); [ easy | ]. unfold Rdiv. rewrite Rmult_assoc, Rinv_l by lra. lra. }
    rewrite Eb. destruct (Rltb (INR a) (x * INR n)); cbn [length]; now rewrite IH. }
  rewrite E. apply count_below. split; [ apply Rmult_le_pos; lra | ].
  rewrite <- (Rmult_1_l (INR n)) at 2. apply Rmult_le_compat_r; lra.
Qed.
Lemma count_diff {A} (P Q : A -> bool) l : (forall x, In x l -> Q x = true -> P x = true) ->
  (length (filter (fun x => xorb (P x) (Q x)) l) + length (filter Q l) = length (filter P l))%nat.
Proof.
  induction l as [|x l IH]; intros H; [ easy | ]. cbn [filter].
  specialize (IH (fun y Hy => H y (or_intror Hy))). pose proof (H x (or_introl eq_refl)) as Hx.
  destruct (P x), (Q x); cbn [xorb length]; try lia.
Qed.
Lemma filter_perm_length {A} (f : A -> bool) l m : Permutation l m -> length (filter f l) = length (filter f m).
Proof.
  induction 1; cbn; [ easy | destruct (f x); cbn; now rewrite IHPermutation | destruct (f x), (f y); reflexivity | congruence ].
Qed.
Lemma size_count splits useq s :
  part_size splits useq s = length (filter (fun u => nth s (member_row splits u) false) useq).
Proof.
  unfold part_size, these_positions, membership. rewrite map_map.
  induction useq as [|u l IH]; [ easy | ]. cbn [map filter].
  destruct (nth s (member_row splits u) false); cbn [length]; now rewrite IH.
Qed.
Lemma size_bounds splits useq n s : shares_ok splits -> shuffled n useq -> (0 < n)%nat -> (s < length splits)%nat ->
  share splits s * INR n - 1 < INR (part_size splits useq s) < share splits s * INR n + 1.
Proof.
  intros H Hp Hn Hs. rewrite size_count, (filter_perm_length _ _ _ Hp).
  rewrite (filter_ext_in _ (fun u => xorb (Rltb u (cumf splits (S s))) (Rltb u (cumf splits s)))).
  2: { intros u Hu. apply member_nth; [ easy | apply (uniform_range n u Hu) | easy ]. }
  pose proof (count_diff (fun u => Rltb u (cumf splits (S s))) (fun u => Rltb u (cumf splits s)) (uniform_seq n)) as Hd.
  assert (Hm : cumf splits s <= cumf splits (S s)) by (apply cumf_mono; [ easy | lia ]).
  assert (Hi : forall u, In u (uniform_seq n) -> Rltb u (cumf splits s) = true -> Rltb u (cumf splits (S s)) = true).
  { intros u _. rewrite !Rltb_lt. lra. }
  specialize (Hd Hi). apply (f_equal INR) in Hd. rewrite plus_INR in Hd.
  pose proof (count_fraction n _ Hn (cumf_range splits s H ltac:(lia))).
  pose proof (count_fraction n _ Hn (cumf_range splits (S s) H ltac:(lia))).
  rewrite cumf_S in *. lra.
Qed.

(** ** What goes where *)
Lemma select_length {A} mask (l : list A) : length mask = length l ->
  length (select mask l) = length (filter (fun b => b) mask).
Proof.
  revert l. induction mask as [|b mask IH]; intros [|x l] E; cbn in *; try easy.
  destruct b; cbn; rewrite IH by lia; reflexivity.
Qed.
Lemma select_map {A B} (g : A -> B) mask l : select mask (map g l) = map g (select mask l).
Proof.
  revert l. induction mask as [|b mask IH]; intros [|x l]; cbn; try easy. destruct b; cbn; now rewrite IH.
Qed.
Lemma select_in {A} mask (l : list A) x : In x (select mask l) -> In x l.
Proof.
  revert l. induction mask as [|b mask IH]; intros [|y l]; cbn; try easy.
  destruct b; cbn; intros H; [ destruct H; auto | auto ].
Qed.
Lemma where_in mask i : In i (where_ mask) <-> nth i mask false = true.
Proof.
  unfold where_. assert (G : forall k, In i (select mask (seq k (length mask))) <-> (k <= i)%nat /\ nth (i - k) mask false = true).
  { induction mask as [|b mask IH]; intros k; cbn [length seq select].
    - cbn. split; [ easy | ]. intros [_ H]. now destruct (i - k)%nat.
    - assert (Hrec : forall k, In i (select mask (seq (S k) (length mask))) <-> (S k <= i)%nat /\ nth (i - S k) mask false = true) by (intros; apply IH).
      destruct b.
      + cbn [In]. rewrite Hrec. split.
        * intros [ -> |[H1 H2] ]; [ split; [ lia | now rewrite Nat.sub_diag ] | ].
          split; [ lia | ]. replace (i - k)%nat with (S (i - S k)) by lia. easy.
        * intros [H1 H2]. destruct (Nat.eq_dec k i) as [E|E]; [ now left | right ].
          split; [ lia | ]. replace (i - k)%nat with (S (i - S k)) in H2 by lia. easy.
      + rewrite Hrec. split.
        * intros [H1 H2]. split; [ lia | ]. replace (i - k)%nat with (S (i - S k)) by lia. easy.
        * intros [H1 H2]. destruct (Nat.eq_dec k i) as [E|E]; [ subst; rewrite Nat.sub_diag in H2; discriminate | ].
          split; [ lia | ]. replace (i - k)%nat with (S (i - S k)) in H2 by lia. easy. }
  rewrite G. rewrite Nat.sub_0_r. intuition lia.
Qed.
Lemma list_as_nth {A} (l : list A) d : l = map (fun i => nth i l d) (seq 0 (length l)).
Proof.
  induction l as [|x l IH]; [ easy | ]. cbn [length seq map nth]. f_equal.
  rewrite <- seq_shift, map_map. exact IH.
Qed.
Lemma select_where {A} mask (l : list A) d : length mask = length l ->
  select mask l = map (fun i => nth i l d) (where_ mask).
Proof.
  intros E. unfold where_. rewrite E, <- select_map, <- (list_as_nth l d). reflexivity.
Qed.
Lemma where_length mask : length (where_ mask) = length (filter (fun b => b) mask).
Proof. unfold where_. apply select_length. now rewrite seq_length. Qed.

(** Every row of [mem] has its only true at some column below [k]. *)
Definition one_true (k : nat) (m : list bool) (s0 : nat) : Prop :=
  (s0 < k)%nat /\ forall s, (s < k)%nat -> nth s m false = Nat.eqb s s0.
Definition col (mem : list (list bool)) (s : nat) : list bool := map (fun m => nth s m false) mem.
Lemma concat_map_empty {A B} (F : A -> list B) l : (forall a, In a l -> F a = []) -> concat (map F l) = [].
Proof.
  induction l as [|a l IH]; intros H; [ easy | ]. cbn. rewrite (H a (or_introl eq_refl)), IH; [ easy | ].
  intros b Hb. apply H. now right.
Qed.
Lemma seq_split_at k s0 : (s0 < k)%nat -> seq 0 k = seq 0 s0 ++ s0 :: seq (S s0) (k - S s0).
Proof. intros H. replace k with (s0 + S (k - S s0))%nat at 1 by lia. now rewrite seq_app. Qed.
Lemma concat_select_perm {A} k mem (l : list A) : length mem = length l ->
  (forall m, In m mem -> exists s0, one_true k m s0) ->
  Permutation (concat (map (fun s => select (col mem s) l) (seq 0 k))) l.
Proof.
  revert l. induction mem as [|m mem IH]; intros [|x l] E H; cbn in E; try easy.
  - rewrite concat_map_empty; [ constructor | easy ].
  - destruct (H m (or_introl eq_refl)) as (s0 & Hs & Hm). unfold col. cbn [map select].
    specialize (IH l ltac:(lia) (fun m' Hm' => H m' (or_intror Hm'))).
    rewrite (seq_split_at k s0 Hs) in *. rewrite map_app, concat_app in *. cbn [map concat] in *.
    rewrite (Hm s0 Hs), Nat.eqb_refl. cbn [app].
    rewrite (map_ext_in _ (fun s => select (col mem s) l) (seq 0 s0)).
    2: { intros s Hin. apply in_seq in Hin. rewrite Hm by lia. destruct (Nat.eqb_spec s s0); [ lia | easy ]. }
    rewrite (map_ext_in _ (fun s => select (col mem s) l) (seq (S s0) (k - S s0))).
    2: { intros s Hin. apply in_seq in Hin. rewrite Hm by lia. destruct (Nat.eqb_spec s s0); [ lia | easy ]. }
    apply Permutation_sym, Permutation_cons_app, Permutation_sym. exact IH.
Qed.
Lemma select_none {A} k mem (l : list A) s s0 : (s < s0)%nat -> (s < k)%nat ->
  (forall m, In m mem -> exists t, one_true k m t /\ (s0 <= t)%nat) -> select (col mem s) l = [].
Proof.
  intros Hs Hk. revert l. induction mem as [|m mem IH]; intros [|x l] H; cbn; try easy.
  destruct (H m (or_introl eq_refl)) as (t & [_ Ht] & Hle). rewrite Ht by easy.
  destruct (Nat.eqb_spec s t); [ lia | ]. apply IH. intros m' Hm'. apply H. now right.
Qed.
(** Columns that go from left to right: the parts follow each other. *)
Lemma concat_select_order {A} k mem (l : list A) : length mem = length l ->
  (forall m, In m mem -> exists s0, one_true k m s0) ->
  (forall i j s t, (i < j < length mem)%nat -> one_true k (nth i mem []) s -> one_true k (nth j mem []) t -> (s <= t)%nat) ->
  concat (map (fun s => select (col mem s) l) (seq 0 k)) = l.
Proof.
  revert l. induction mem as [|m mem IH]; intros [|x l] E H Ho; cbn in E; try easy.
  - now rewrite concat_map_empty.
  - destruct (H m (or_introl eq_refl)) as (s0 & Hs & Hm). unfold col. cbn [map select].
    specialize (IH l ltac:(lia) (fun m' Hm' => H m' (or_intror Hm'))).
    specialize (IH (fun i j s t Hij => Ho (S i) (S j) s t ltac:(cbn; lia))).
    assert (Hge : forall m', In m' mem -> exists t, one_true k m' t /\ (s0 <= t)%nat).
    { intros m' Hm'. destruct (H m' (or_intror Hm')) as (t & Ht). exists t. split; [ easy | ].
      apply (In_nth _ _ []) in Hm' as (j & Hj & <-). apply (Ho 0%nat (S j)); [ cbn; lia | split; easy | easy ]. }
    rewrite (seq_split_at k s0 Hs) in *. rewrite map_app, concat_app in *. cbn [map concat] in *.
    rewrite (Hm s0 Hs), Nat.eqb_refl. cbn [app].
    rewrite concat_map_empty.
    2: { intros s Hin. apply in_seq in Hin. rewrite Hm by lia. destruct (Nat.eqb_spec s s0); [ lia | ].
         apply (select_none k mem l s s0); [ lia | lia | easy ]. }
    rewrite concat_map_empty in IH.
    2: { intros s Hin. apply in_seq in Hin. apply (select_none k mem l s s0); [ lia | lia | easy ]. }
    cbn [app] in *.
    rewrite (map_ext_in _ (fun s => select (col mem s) l) (seq (S s0) (k - S s0))).
    2: { intros s Hin. apply in_seq in Hin. rewrite Hm by lia. destruct (Nat.eqb_spec s s0); [ lia | easy ]. }
    f_equal. exact IH.
Qed.
Lemma member_one_true splits u : shares_ok splits -> 0 <= u < 1 ->
  exists s0, one_true (length splits) (member_row splits u) s0 /\ cumf splits s0 <= u < cumf splits (S s0).
Proof.
  intros H Hu. destruct (part_exists splits u H Hu) as (s0 & Hs & Hb). exists s0. split; [ | easy ].
  split; [ easy | ]. intros s Hk. destruct (Nat.eqb_spec s s0) as [ -> |Hne ].
  - apply member_true; [ easy | lra | easy | easy ].
  - apply not_true_iff_false. intros E. apply member_true in E; [ | easy | lra | easy ].
    apply Hne. apply Nat.le_antisymm; eapply part_order; eauto; lra.
Qed.
Lemma one_true_unique k m s t : one_true k m s -> one_true k m t -> s = t.
Proof. intros [H1 H2] [H3 H4]. specialize (H4 s H1). rewrite (H2 s H1), Nat.eqb_refl in H4. symmetry in H4. now apply Nat.eqb_eq. Qed.
Lemma membership_one_true splits useq n : shares_ok splits -> shuffled n useq ->
  forall m, In m (membership splits useq) -> exists s0, one_true (length splits) m s0.
Proof.
  intros H Hp m Hm. unfold membership in Hm. apply in_map_iff in Hm as (u & <- & Hu).
  destruct (member_one_true splits u H (uniform_range n u (Permutation_in _ Hp Hu))) as (s & Hs & _). eauto.
Qed.
Lemma parts_perm {A} splits useq n (l : list A) : shares_ok splits -> shuffled n useq -> length l = n ->
  Permutation (concat (map (fun s => select (these_positions splits useq s) l) (seq 0 (length splits)))) l.
Proof.
  intros H Hp Hl. apply (concat_select_perm (length splits) (membership splits useq)).
  - unfold membership. rewrite map_length, (Permutation_length Hp), uniform_length. easy.
  - now apply (membership_one_true splits useq n).
Qed.
Lemma parts_order {A} splits n (l : list A) : shares_ok splits -> length l = n ->
  concat (map (fun s => select (these_positions splits (uniform_seq n) s) l) (seq 0 (length splits))) = l.
Proof.
  intros H Hl. apply (concat_select_order (length splits) (membership splits (uniform_seq n))).
  - unfold membership. now rewrite map_length, uniform_length.
  - apply (membership_one_true splits (uniform_seq n) n); [ easy | apply Permutation_refl ].
  - unfold membership. rewrite map_length, uniform_length. intros i j s t Hij Hs Ht.
    assert (E : forall c, (c < n)%nat -> nth c (map (member_row splits) (uniform_seq n)) [] = member_row splits (INR c / INR n)).
    { intros c Hc. rewrite (nth_indep _ [] (member_row splits 0)) by (now rewrite map_length, uniform_length).
      rewrite map_nth, uniform_nth by easy. reflexivity. }
    rewrite E in Hs, Ht by lia.
    assert (Hr : forall c, (c < n)%nat -> 0 <= INR c / INR n < 1).
    { intros c Hc. apply (uniform_range n). rewrite <- uniform_nth by easy. apply nth_In. now rewrite uniform_length. }
    destruct (member_one_true splits _ H (Hr i ltac:(lia))) as (s' & Hs' & Bs).
    destruct (member_one_true splits _ H (Hr j ltac:(lia))) as (t' & Ht' & Bt).
    rewrite (one_true_unique _ _ _ _ Hs Hs'), (one_true_unique _ _ _ _ Ht Ht').
    eapply part_order; [ exact H | | exact Bs | exact Bt ].
    apply Rmult_le_compat_r; [ left; apply Rinv_0_lt_compat, lt_0_INR; lia | ]. apply le_INR. lia.
Qed.

(** ** Totals *)
Definition oadd (a b : option R) : option R := match a, b with Some x, Some y => Some (x + y) | _, _ => None end.
Definition total (l : list (option R)) : option R := fold_right oadd (Some 0) l.
Lemma oadd_assoc a b c : oadd a (oadd b c) = oadd (oadd a b) c.
Proof. destruct a, b, c; cbn; try easy. f_equal; ring. Qed.
Lemma oadd_comm a b : oadd a b = oadd b a.
Proof. destruct a, b; cbn; try easy. f_equal; ring. Qed.
Lemma oadd_0 a : oadd (Some 0) a = a.
Proof. destruct a; cbn; [ f_equal; ring | easy ]. Qed.
Lemma total_app l m : total (l ++ m) = oadd (total l) (total m).
Proof.
  induction l as [|x l IH]; cbn [app total fold_right]; [ now rewrite oadd_0 | ].
  fold (total (l ++ m)). fold (total l). now rewrite IH, oadd_assoc.
Qed.
Lemma total_perm l m : Permutation l m -> total l = total m.
Proof.
  induction 1; cbn [total fold_right]; [ easy | unfold total in *; now rewrite IHPermutation | | congruence ].
  fold (total l). now rewrite !oadd_assoc, (oadd_comm x y).
Qed.
Lemma total_concat ls : total (concat ls) = total (map total ls).
Proof. induction ls as [|l ls IH]; [ easy | ]. cbn [concat map]. rewrite total_app, IH. reflexivity. Qed.
Lemma weighted_total d f n : weighted_sum d f n = total (map (case_term d f) (seq 0 n)).
Proof.
  induction n as [|n IH]; [ easy | ]. rewrite seq_S, map_app, total_app, <- IH. cbn [weighted_sum Nat.add map total fold_right].
  destruct (weighted_sum d f n), (case_term d f n); cbn; try easy. f_equal; ring.
Qed.
(** What a part contributes. *)
Lemma part_weighted d splits useq s f : length (d_ch d) = d_n d -> length useq = d_n d ->
  (forall wt, d_wt d = Some wt -> length wt = d_n d) ->
  let mask := these_positions splits useq s in
  weighted_sum (split_part d splits useq s) (fun c => f (nth c (where_ mask) 0%nat)) (d_n (split_part d splits useq s)) =
  total (select mask (map (case_term d f) (seq 0 (d_n d)))).
Proof.
  intros Hch Hu Hwt mask. rewrite weighted_total. unfold split_part. fold mask. cbn [d_n].
  assert (Hm : length mask = d_n d) by (unfold mask; now rewrite positions_length).
  rewrite select_map. rewrite (list_as_nth (select mask (seq 0 (d_n d))) 0%nat).
  assert (Ew : select mask (seq 0 (d_n d)) = where_ mask) by (unfold where_; now rewrite Hm).
  rewrite Ew, map_map. f_equal. apply map_ext_in. intros c Hc. apply in_seq in Hc.
  unfold case_term, case_weight. cbn [d_wt d_ch].
  rewrite (select_where mask (d_ch d) []) by lia.
  assert (G : forall {A} (l : list A) dflt, nth c (map (fun i => nth i l dflt) (where_ mask)) dflt = nth (nth c (where_ mask) 0%nat) l dflt).
  { intros A l dflt. rewrite (nth_indep _ dflt ((fun i => nth i l dflt) 0%nat)) by (rewrite map_length; lia).
    now rewrite (map_nth (fun i => nth i l dflt)). }
  rewrite G. destruct (d_wt d) as [wt|] eqn:Ed; cbn [option_map]; [ | easy ].
  rewrite (select_where mask wt None) by (rewrite Hm; symmetry; now apply Hwt). now rewrite G.
Qed.

(** ** Rows of idca and idce data *)
Lemma existsb_where mask i : existsb (Nat.eqb i) (where_ mask) = nth i mask false.
Proof.
  apply eq_true_iff_eq. rewrite existsb_exists, <- where_in. split.
  - intros (x & Hx & E). apply Nat.eqb_eq in E. now subst.
  - intros H. exists i. split; [ easy | apply Nat.eqb_refl ].
Qed.
Lemma split_rows_in {A} mask (rows : list (nat * A)) r :
  In r (split_rows mask rows) <-> In r rows /\ nth (fst r) mask false = true.
Proof. unfold split_rows. now rewrite filter_In, existsb_where. Qed.
Lemma where_below mask : forall k, (k < length (where_ mask))%nat ->
  length (filter (fun c => Nat.ltb c (nth k (where_ mask) 0%nat)) (where_ mask)) = k.
Proof.
  assert (G : forall mask a k, (k < length (select mask (seq a (length mask))))%nat ->
    (a <= nth k (select mask (seq a (length mask))) 0)%nat /\
    length (filter (fun c => Nat.ltb c (nth k (select mask (seq a (length mask))) 0%nat)) (select mask (seq a (length mask)))) = k).
  { clear mask. induction mask as [|b mask IH]; intros a k Hk; cbn [length seq select] in *; [ cbn in Hk; lia | ].
    destruct b.
    - destruct k as [|k].
      + cbn [nth]. split; [ lia | ]. cbn [filter]. rewrite Nat.ltb_irrefl.
        assert (E : forall l, (forall x, In x l -> (a < x)%nat) -> filter (fun c => Nat.ltb c a) l = []).
        { induction l as [|y l IHl]; intros H; [ easy | ]. cbn [filter]. pose proof (H y (or_introl eq_refl)).
          destruct (Nat.ltb_spec y a); [ lia | ]. apply IHl. intros x Hx. apply H. now right. }
        rewrite E; [ easy | ]. intros x Hx. apply select_in, in_seq in Hx. lia.
      + cbn [nth length] in *. destruct (IH (S a) k ltac:(lia)) as [H1 H2]. split; [ lia | ].
        cbn [filter]. destruct (Nat.ltb_spec a (nth k (select mask (seq (S a) (length mask))) 0%nat)); [ | lia ].
        cbn [length]. now rewrite H2.
    - destruct (IH (S a) k Hk) as [H1 H2]. split; [ lia | easy ]. }
  intros k Hk. now apply (G mask 0%nat k).
Qed.
Lemma where_nodup mask : NoDup (where_ mask).
Proof.
  unfold where_. generalize 0%nat. induction mask as [|b mask IH]; intros a; cbn [length seq select]; [ constructor | ].
  destruct b; [ | apply IH ]. constructor; [ | apply IH ]. intros H. apply select_in, in_seq in H. lia.
Qed.
Lemma nat_filter_perm (f : nat -> bool) l m : Permutation l m -> length (filter f l) = length (filter f m).
Proof. apply filter_perm_length. Qed.
Lemma renumber_code {A} mask (rows : list (nat * A)) r :
  (forall i, nth i mask false = true -> exists r', In r' rows /\ fst r' = i) ->
  In r (renumber (split_rows mask rows)) -> exists r', In r' (split_rows mask rows) /\ snd r' = snd r /\
    nth (fst r) (where_ mask) 0%nat = fst r' /\ (fst r < length (where_ mask))%nat.
Proof.
  intros Hall Hr. unfold renumber in Hr. apply in_map_iff in Hr as (r' & <- & Hr'). exists r'.
  split; [ easy | ]. split; [ reflexivity | ]. cbn [fst].
  set (codes := nodup Nat.eq_dec (map fst (split_rows mask rows))).
  assert (Hp : Permutation codes (where_ mask)).
  { apply NoDup_Permutation; [ apply NoDup_nodup | apply where_nodup | ]. intros i. unfold codes.
    rewrite nodup_In, in_map_iff, where_in. split.
    - intros (x & <- & Hx). now apply split_rows_in in Hx as [_ Hx].
    - intros Hi. destruct (Hall i Hi) as (x & Hx & Ex). exists x. split; [ easy | ].
      apply split_rows_in. split; [ easy | now rewrite Ex ]. }
  rewrite (nat_filter_perm _ _ _ Hp).
  apply split_rows_in in Hr' as [_ Hm]. apply where_in in Hm.
  apply (In_nth _ _ 0%nat) in Hm as (k & Hk & <-). now rewrite where_below.
Qed.
