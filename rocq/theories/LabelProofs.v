(** Proofs about label lookup and one-hot columns. *)
From Coq Require Import Sorting.Sorted Sorting.Permutation.
From Verif Require Import LabelModel LabelSpec.
Open Scope Z_scope.

(** ** Sorted lists and counting *)
Lemma uinsert_in x l y : In y (uinsert x l) <-> y = x \/ In y l.
Proof.
  induction l as [|z l IH]; cbn [uinsert]; [ cbn; intuition | ].
  destruct (Z.ltb_spec x z); [ cbn; intuition | ].
  destruct (Z.eqb_spec x z); [ subst; cbn; intuition | ].
  cbn [In]. rewrite IH. intuition.
Qed.
Lemma lunique_in l y : In y (unique l) <-> In y l.
Proof. induction l as [|a l IH]; cbn; [ tauto | ]. rewrite uinsert_in, IH. intuition. Qed.
Lemma uinsert_sorted x l : StronglySorted Z.lt l -> StronglySorted Z.lt (uinsert x l).
Proof.
  induction 1 as [|y l Hs IH Hf]; cbn [uinsert]; [ repeat constructor | ].
  destruct (Z.ltb_spec x y).
  - constructor; [ now constructor | ]. constructor; [ easy | ].
    eapply Forall_impl; [ | exact Hf ]. cbn. lia.
  - destruct (Z.eqb_spec x y); [ subst; now constructor | ].
    constructor; [ easy | ]. apply Forall_forall. intros z Hz. apply uinsert_in in Hz as [ -> | Hz ]; [ lia | ].
    rewrite Forall_forall in Hf. now apply Hf.
Qed.
Lemma unique_sorted l : StronglySorted Z.lt (unique l).
Proof. induction l; cbn; [ constructor | now apply uinsert_sorted ]. Qed.
Lemma sorted_nodup l : StronglySorted Z.lt l -> NoDup l.
Proof.
  induction 1 as [|y l Hs IH Hf]; constructor; [ | easy ].
  intros Hi. rewrite Forall_forall in Hf. specialize (Hf y Hi). lia.
Qed.
Lemma unique_perm l : NoDup l -> Permutation (unique l) l.
Proof.
  intros H. apply NoDup_Permutation; [ apply sorted_nodup, unique_sorted | easy | ].
  intros x. apply lunique_in.
Qed.
Lemma isu_sorted l : is_sorted_and_unique l = true <-> StronglySorted Z.lt l.
Proof.
  induction l as [|a [|b l] IH]; [ split; [ constructor | easy ] | split; [ repeat constructor | easy ] | ].
  change (is_sorted_and_unique (a :: b :: l)) with ((a <? b) && is_sorted_and_unique (b :: l)).
  rewrite andb_true_iff, IH, Z.ltb_lt. split.
  - intros [Hab Hs]. constructor; [ easy | ]. constructor; [ easy | ].
    inversion Hs as [|? ? ? Hf]; subst. eapply Forall_impl; [ | exact Hf ]. cbn; lia.
  - intros Hs. inversion Hs as [|? ? Hs' Hf]; subst. split; [ | easy ]. now inversion Hf.
Qed.
Lemma sorted_increasing l : StronglySorted Z.lt l <-> strictly_increasing l.
Proof.
  split.
  - induction 1 as [|y l Hs IH Hf]; intros i j Hij; cbn [length] in Hij; [ lia | ].
    destruct i as [|i], j as [|j]; [ lia | | lia | ]; cbn [nth].
    + rewrite Forall_forall in Hf. apply Hf, nth_In. lia.
    + apply IH. lia.
  - induction l as [|y l IH]; intros H; [ constructor | ]. constructor.
    + apply IH. intros i j Hij. apply (H (S i) (S j)). cbn. lia.
    + apply Forall_forall. intros z Hz. apply (In_nth _ _ 0) in Hz as (i & Hi & <-).
      apply (H 0%nat (S i)). cbn. lia.
Qed.
Lemma isu_spec l : is_sorted_and_unique l = true <-> strictly_increasing l.
Proof. rewrite isu_sorted. apply sorted_increasing. Qed.

Lemma filter_length_le {A} (f : A -> bool) l : (length (filter f l) <= length l)%nat.
Proof. induction l as [|a l IH]; cbn; [ lia | ]. destruct (f a); cbn; lia. Qed.
Lemma digitize_le bins v : (digitize bins v <= length bins)%nat.
Proof. apply filter_length_le. Qed.
Lemma digitize_perm a b v : Permutation a b -> digitize a v = digitize b v.
Proof.
  unfold digitize. intros H. induction H; cbn; auto.
  - destruct (x <? v); cbn; now rewrite ?IHPermutation.
  - destruct (x <? v), (y <? v); reflexivity.
  - congruence.
Qed.
Lemma digitize_split l v : StronglySorted Z.lt l ->
  forall j, (j < length l)%nat -> ((j < digitize l v)%nat <-> nth j l 0 < v).
Proof.
  unfold digitize. induction 1 as [|y l Hs IH Hf]; intros j Hj; cbn [length] in Hj; [ lia | ].
  cbn [filter]. destruct (Z.ltb_spec y v) as [Hy|Hy].
  - cbn [length]. destruct j as [|j]; cbn [nth]; [ lia | ].
    rewrite <- (IH j ltac:(lia)). lia.
  - assert (E : filter (fun b => b <? v) l = []).
    { clear IH Hs Hj. rewrite Forall_forall in Hf.
      induction l as [|a l IH]; [ easy | ]. cbn. destruct (Z.ltb_spec a v).
      - specialize (Hf a (or_introl eq_refl)). lia.
      - apply IH. intros x Hx. apply Hf. now right. }
    rewrite E. cbn [length]. split; [ lia | ]. intros Hlt.
    destruct j as [|j]; cbn [nth] in Hlt; [ lia | ].
    assert (Hin : In (nth j l 0) l) by (apply nth_In; lia).
    rewrite Forall_forall in Hf. specialize (Hf _ Hin). lia.
Qed.
Lemma digitize_nth l i : StronglySorted Z.lt l -> (i < length l)%nat -> digitize l (nth i l 0) = i.
Proof.
  intros Hs Hi. pose proof (digitize_split l (nth i l 0) Hs) as H.
  pose proof (digitize_le l (nth i l 0)) as Hle.
  assert (~ (i < digitize l (nth i l 0%Z))%nat) by (rewrite H by easy; lia).
  destruct (Nat.eq_dec (digitize l (nth i l 0)) i) as [|Hne]; [ easy | ].
  set (d := digitize l (nth i l 0)) in *.
  assert (Hlt : nth d l 0 < nth i l 0) by (apply sorted_increasing; [ easy | lia ]).
  apply H in Hlt; [ lia | lia ].
Qed.
Lemma digitize_found l v : StronglySorted Z.lt l -> In v l ->
  (digitize l v < length l)%nat /\ nth (digitize l v) l 0 = v.
Proof.
  intros Hs Hv. apply (In_nth _ _ 0) in Hv as (i & Hi & <-). now rewrite digitize_nth.
Qed.
Lemma digitize_lt l v : StronglySorted Z.lt l -> (exists x, In x l /\ v <= x) -> (digitize l v < length l)%nat.
Proof.
  intros Hs (x & Hx & Hv). apply (In_nth _ _ 0) in Hx as (i & Hi & <-).
  pose proof (digitize_split l v Hs i Hi). lia.
Qed.
Lemma digitize_position l v : StronglySorted Z.lt l -> (exists x, In x l /\ v <= x) ->
  position_of l v (digitize l v).
Proof.
  intros Hs He. pose proof (digitize_lt l v Hs He) as Hd. split; [ easy | ].
  destruct (in_dec Z.eq_dec v l) as [Hv|Hv].
  - left. now apply digitize_found.
  - right. split; [ easy | ].
    assert (Hge : ~ nth (digitize l v) l 0 < v) by (rewrite <- digitize_split by easy; lia).
    assert (nth (digitize l v) l 0 <> v) by (intros E; apply Hv; rewrite <- E; now apply nth_In).
    split; [ lia | ]. intros j Hj Hlt.
    assert (~ (j < digitize l v)%nat) by (rewrite digitize_split by easy; lia).
    destruct (Nat.eq_dec j (digitize l v)) as [ -> |Hne ]; [ lia | ].
    apply Z.lt_le_incl, sorted_increasing; [ easy | lia ].
Qed.
Lemma digitize_above l v : (forall x, In x l -> x < v) -> digitize l v = length l.
Proof.
  unfold digitize. induction l as [|a l IH]; intros H; [ easy | ]. cbn [filter].
  destruct (Z.ltb_spec a v); [ | specialize (H a (or_introl eq_refl)); lia ].
  cbn [length]. rewrite IH; [ easy | ]. intros x Hx. apply H. now right.
Qed.

(** ** Unsorted labels *)
Lemma take_all_ok idx at_ : Forall (fun i => (i < length idx)%nat) at_ ->
  take_all idx at_ = Ret (map (fun i => nth i idx 0%nat) at_).
Proof.
  induction 1 as [|i r Hi _ IH]; [ easy | ]. cbn [take_all map].
  rewrite (nth_error_nth' idx 0%nat Hi), IH. reflexivity.
Qed.
Lemma take_all_bad idx at_ : Exists (fun i => (length idx <= i)%nat) at_ -> take_all idx at_ = IndexError.
Proof.
  induction 1 as [i r Hi|i r _ IH]; cbn [take_all].
  - now rewrite (proj2 (nth_error_None idx i) Hi).
  - rewrite IH. now destruct (nth_error idx i).
Qed.
Lemma unique_length l : NoDup l -> length (unique l) = length l.
Proof. intros H. apply Permutation_length, unique_perm, H. Qed.
Lemma unique_length_dup l : ~ NoDup l -> length (unique l) <> length l.
Proof.
  intros H E. apply H. apply (@NoDup_incl_NoDup _ (unique l)).
  - apply sorted_nodup, unique_sorted.
  - lia.
  - intros x. apply lunique_in.
Qed.
Lemma lti_unsorted labels arr : NoDup labels -> ~ strictly_increasing labels ->
  label_to_index labels arr =
  take_all (map (digitize labels) labels) (map (digitize labels) arr).
Proof.
  intros Hn Hs. unfold label_to_index. destruct labels as [|a r]; [ exfalso; apply Hs; intros i j; cbn; lia | ].
  set (l := a :: r) in *. destruct (is_sorted_and_unique l) eqn:E; [ now apply isu_spec in E | ].
  cbv zeta. rewrite unique_length, Nat.eqb_refl by easy. cbn [negb].
  f_equal; apply map_ext; intros v; apply digitize_perm, unique_perm, Hn.
Qed.
Lemma lti_dup labels arr : ~ NoDup labels -> label_to_index labels arr = NameError.
Proof.
  intros Hn. unfold label_to_index. destruct labels as [|a r]; [ exfalso; apply Hn; constructor | ].
  set (l := a :: r) in *. destruct (is_sorted_and_unique l) eqn:E.
  - apply isu_sorted, sorted_nodup in E. contradiction.
  - cbv zeta. destruct (Nat.eqb_spec (length (unique l)) (length l)) as [H|H]; [ | easy ].
    now apply unique_length_dup in Hn.
Qed.
Lemma rank_lt labels k : (k < length labels)%nat -> (rank labels k < length labels)%nat.
Proof.
  intros Hk. unfold rank.
  assert (H : forall (l : list Z) v, In v l -> (length (filter (fun b => (b <? v)%Z) l) < length l)%nat).
  { clear. induction l as [|a l IH]; intros v Hv; [ easy | ]. cbn [filter length].
    destruct Hv as [ -> |Hv ].
    - destruct (Z.ltb_spec v v); [ lia | ]. pose proof (filter_length_le (fun b => (b <? v)%Z) l). lia.
    - specialize (IH v Hv). destruct (a <? v); cbn [length]; lia. }
  apply H, nth_In, Hk.
Qed.
Lemma lti_unsorted_found labels ks : NoDup labels -> ~ strictly_increasing labels ->
  Forall (fun k => (k < length labels)%nat) ks ->
  label_to_index labels (map (fun k => nth k labels 0) ks) = Ret (map (fun k => rank labels (rank labels k)) ks).
Proof.
  intros Hn Hs Hk. rewrite lti_unsorted by easy. rewrite map_map.
  rewrite take_all_ok.
  - f_equal. rewrite map_map. apply map_ext_Forall. eapply Forall_impl; [ | exact Hk ].
    intros k Hlt. cbv beta. change (digitize labels (nth k labels 0)) with (rank labels k).
    rewrite (nth_indep _ 0%nat (digitize labels 0)) by (rewrite map_length; now apply rank_lt).
    rewrite map_nth. reflexivity.
  - apply Forall_map. eapply Forall_impl; [ | exact Hk ]. intros k Hlt. cbv beta.
    rewrite map_length. now apply rank_lt.
Qed.
Lemma lti_unsorted_above labels arr v : NoDup labels -> ~ strictly_increasing labels ->
  In v arr -> (forall x, In x labels -> x < v) -> label_to_index labels arr = IndexError.
Proof.
  intros Hn Hs Hv Ha. rewrite lti_unsorted by easy. apply take_all_bad. apply Exists_exists.
  exists (digitize labels v). split; [ now apply in_map | ]. rewrite map_length, digitize_above by easy. lia.
Qed.

(** ** One-hot columns *)
Lemma maxn_ge l x : In x l -> (x <= maxn l)%nat.
Proof. unfold maxn. induction l as [|a l IH]; cbn; [ easy | ]. intros [ -> |H ]; [ lia | specialize (IH H); lia ]. Qed.
Lemma maxn_le l b : Forall (fun x => (x <= b)%nat) l -> (maxn l <= b)%nat.
Proof. unfold maxn. induction 1; cbn; lia. Qed.
Lemma num_classes arr : arr <> [] -> S (maxn (map (digitize (unique arr)) arr)) = length (unique arr).
Proof.
  intros Hne. set (u := unique arr).
  assert (Hu : u <> []).
  { destruct arr as [|a r]; [ easy | ]. intros E.
    assert (H : In a u) by (apply lunique_in; now left). now rewrite E in H. }
  assert (Hlen : (0 < length u)%nat) by (destruct u; [ easy | cbn; lia ]).
  assert (H1 : (maxn (map (digitize u) arr) <= length u - 1)%nat).
  { apply maxn_le, Forall_map, Forall_forall. intros v Hv.
    pose proof (digitize_found u v (unique_sorted arr) (proj2 (lunique_in arr v) Hv)). lia. }
  assert (H2 : (length u - 1 <= maxn (map (digitize u) arr))%nat).
  { apply maxn_ge. apply in_map_iff. exists (nth (length u - 1) u 0). split.
    - apply digitize_nth; [ apply unique_sorted | lia ].
    - apply lunique_in, nth_In. fold u. lia. }
  lia.
Qed.
Lemma to_categorical_eq arr : arr <> [] ->
  to_categorical arr =
  Some (unique arr, map (fun v => unit_row (length (unique arr)) (digitize (unique arr) v)) arr).
Proof.
  intros Hne. unfold to_categorical. destruct arr as [|a r]; [ easy | ]. cbv zeta.
  rewrite num_classes by easy. now rewrite map_map.
Qed.
Lemma unit_row_length n i : length (unit_row n i) = n.
Proof. unfold unit_row. now rewrite map_length, seq_length. Qed.
Lemma unit_row_nth n i k : (k < n)%nat -> nth k (unit_row n i) 0 = if Nat.eqb k i then 1 else 0.
Proof.
  intros Hk. unfold unit_row.
  rewrite (nth_indep _ 0 ((fun k => if Nat.eqb k i then 1 else 0) 0%nat)) by (rewrite map_length, seq_length; easy).
  rewrite (map_nth (fun k => if Nat.eqb k i then 1 else 0)). rewrite seq_nth by easy. reflexivity.
Qed.
Lemma unit_row_one_hot n i : (i < n)%nat -> one_hot (unit_row n i) i.
Proof.
  intros Hi. split; [ now rewrite unit_row_nth, Nat.eqb_refl | ].
  intros k Hk. destruct (Nat.lt_ge_cases k n) as [H|H].
  - rewrite unit_row_nth by easy. now rewrite (proj2 (Nat.eqb_neq k i) Hk).
  - apply nth_overflow. now rewrite unit_row_length.
Qed.
Lemma compress_zero codes row acc : (forall k, nth k row 0 = 0) -> compress_row codes row acc = acc.
Proof.
  revert row acc. induction codes as [|c codes IH]; intros [|v row] acc H; cbn; try easy.
  rewrite (H 0%nat : v = 0). cbn. apply IH. intros k. apply (H (S k)).
Qed.
Lemma compress_one_hot codes row acc i : one_hot row i -> (i < length codes)%nat -> (i < length row)%nat ->
  compress_row codes row acc = Some (nth i codes 0).
Proof.
  revert row acc i. induction codes as [|c codes IH]; intros [|v row] acc i [H1 H2] Hi Hr; cbn [length] in *; try lia.
  cbn [compress_row]. destruct i as [|i].
  - cbn in H1. subst v. cbn. apply compress_zero. intros k. apply (H2 (S k)). lia.
  - rewrite (H2 0%nat ltac:(lia) : v = 0). cbn [Z.eqb nth].
    apply IH; [ | lia | lia ]. split; [ exact H1 | ]. intros k Hk. apply (H2 (S k)). lia.
Qed.
Lemma compression_inverts arr t : to_categorical arr = Some t -> categorical_compression t = map Some arr.
Proof.
  destruct (list_eq_dec Z.eq_dec arr []) as [ -> |Hne ]; [ discriminate | ].
  rewrite to_categorical_eq by easy. intros E. injection E as <-. unfold categorical_compression. cbn [fst snd].
  rewrite map_map. apply map_ext_in. intros v Hv.
  destruct (digitize_found (unique arr) v (unique_sorted arr) (proj2 (lunique_in arr v) Hv)) as [Hl Hn].
  rewrite (compress_one_hot _ _ _ (digitize (unique arr) v)).
  - now rewrite Hn.
  - now apply unit_row_one_hot.
  - easy.
  - now rewrite unit_row_length.
Qed.
Lemma ids_roundtrip labels lowest ordered ids : labels_to_unique_ids labels lowest = (ordered, ids) ->
  map (fun i => nth (Z.to_nat (i - lowest)) ordered 0) ids = labels.
Proof.
  unfold labels_to_unique_ids. intros E. injection E as <- <-. rewrite map_map.
  transitivity (map (fun v => v) labels); [ | apply map_id ]. apply map_ext_in. intros v Hv.
  replace (Z.to_nat _) with (digitize (unique labels) v) by lia.
  apply digitize_found; [ apply unique_sorted | now apply lunique_in ].
Qed.
Lemma ids_range labels lowest ordered ids : labels_to_unique_ids labels lowest = (ordered, ids) ->
  length ids = length labels /\ forall i, In i ids <-> lowest <= i < lowest + Z.of_nat (length ordered).
Proof.
  unfold labels_to_unique_ids. intros E. injection E as <- <-. split; [ apply map_length | ].
  intros i. rewrite in_map_iff. split.
  - intros (v & <- & Hv).
    destruct (digitize_found (unique labels) v (unique_sorted labels) (proj2 (lunique_in labels v) Hv)). lia.
  - intros Hi. exists (nth (Z.to_nat (i - lowest)) (unique labels) 0). split.
    + rewrite digitize_nth; [ lia | apply unique_sorted | lia ].
    + apply lunique_in, nth_In. lia.
Qed.
