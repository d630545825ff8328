(** C54, C57: label lookup and category recodings. *)
From Coq Require Import Sorting.Permutation.
From Verif Require Import LabelModel LabelSpec LabelProofs.
Open Scope Z_scope.

(** C54. Labels in increasing order: every value not above them all gets the documented position. *)
Theorem C54_sorted labels arr : labels <> [] -> strictly_increasing labels ->
  Forall (fun v => exists x, In x labels /\ v <= x) arr ->
  exists out, label_to_index labels arr = Ret out /\ Forall2 (position_of labels) arr out.
Proof.
  intros Hne Hs Ha. exists (map (digitize labels) arr). split.
  - unfold label_to_index. destruct labels; [ easy | ]. now rewrite (proj2 (isu_spec _) Hs).
  - apply sorted_increasing in Hs. induction Ha as [|v arr Hv _ IH]; cbn [map]; constructor; [ | easy ].
    now apply digitize_position.
Qed.
Example C54_sorted_met :
  strictly_increasing [10; 20; 30] /\ label_to_index [10; 20; 30] [20; 25; 5; 30] = Ret [1; 2; 0; 2]%nat.
Proof. split; [ apply isu_spec; reflexivity | reflexivity ]. Qed.

(** The documentation promises the maximum label for a value above them all; the result is one past it. *)
Theorem C54_above_all_refuted labels v : labels <> [] -> strictly_increasing labels ->
  (forall x, In x labels -> x < v) -> label_to_index labels [v] = Ret [length labels].
Proof.
  intros Hne Hs Ha. unfold label_to_index. destruct labels; [ easy | ].
  rewrite (proj2 (isu_spec _) Hs). cbn [map]. now rewrite digitize_above.
Qed.
Example C54_above_all_met : label_to_index [10; 20; 30] [31] = Ret [3%nat]. Proof. reflexivity. Qed.

(** Distinct labels in another order: the [k]-th label is sent to the rank of the label at position rank
    of [k], not to [k]. *)
Theorem C54_unsorted labels ks : NoDup labels -> ~ strictly_increasing labels ->
  Forall (fun k => (k < length labels)%nat) ks ->
  label_to_index labels (map (fun k => nth k labels 0) ks) = Ret (map (fun k => rank labels (rank labels k)) ks).
Proof. apply lti_unsorted_found. Qed.
(** So the lookup is right for every label exactly when sorting the labels is its own inverse. *)
Theorem C54_unsorted_right_iff labels : NoDup labels -> ~ strictly_increasing labels ->
  (label_to_index labels labels = Ret (seq 0 (length labels)) <->
   forall k, (k < length labels)%nat -> rank labels (rank labels k) = k).
Proof.
  intros Hn Hs.
  assert (E : map (fun k => nth k labels 0) (seq 0 (length labels)) = labels).
  { apply nth_ext with (d := 0) (d' := 0); [ now rewrite map_length, seq_length | ].
    intros k Hk. rewrite map_length, seq_length in Hk.
    rewrite (nth_indep _ 0 (nth 0 labels 0)) by (now rewrite map_length, seq_length).
    rewrite (map_nth (fun k => nth k labels 0)). now rewrite seq_nth. }
  rewrite <- E at 2. rewrite C54_unsorted; [ | easy | easy | apply Forall_forall; intros k; rewrite in_seq; lia ].
  split.
  - intros H k Hk. injection H as H.
    apply (f_equal (fun l => nth k l 0%nat)) in H. rewrite seq_nth in H by easy.
    rewrite (nth_indep _ 0%nat (rank labels (rank labels 0))) in H by (now rewrite map_length, seq_length).
    rewrite (map_nth (fun k => rank labels (rank labels k))), seq_nth in H by easy. exact H.
  - intros H. f_equal. transitivity (map (fun k => k) (seq 0 (length labels))); [ | apply map_id ].
    apply map_ext_in. intros k Hk. apply H. apply in_seq in Hk. lia.
Qed.
Example C54_swap_right : label_to_index [20; 10; 30] [20; 10; 30] = Ret [0; 1; 2]%nat. Proof. reflexivity. Qed.
(** Three labels in a cycle: each is sent to the position of another. *)
Theorem C54_unsorted_refuted :
  NoDup [2; 3; 1] /\ label_to_index [2; 3; 1] [2; 3; 1] = Ret [2; 0; 1]%nat /\
  ~ position_of [2; 3; 1] 2 2.
Proof.
  split; [ repeat constructor; cbn; lia | split; [ reflexivity | ] ].
  intros [_ [H|[H _]]]; cbn in H; [ lia | apply H; now left ].
Qed.
(** In unsorted labels a value above them all raises instead. *)
Theorem C54_unsorted_above_refuted labels arr v : NoDup labels -> ~ strictly_increasing labels ->
  In v arr -> (forall x, In x labels -> x < v) -> label_to_index labels arr = IndexError.
Proof. apply lti_unsorted_above. Qed.
Example C54_unsorted_above_met : label_to_index [3; 1] [1; 4] = IndexError. Proof. reflexivity. Qed.
(** Repeated labels raise always, but a NameError rather than the documented exception. *)
Theorem C54_duplicates_raise labels arr : ~ NoDup labels -> label_to_index labels arr = NameError.
Proof. apply lti_dup. Qed.
Example C54_duplicates_met : label_to_index [1; 1] [1] = NameError. Proof. reflexivity. Qed.

(** C57. One row per value, one column per distinct value in increasing order; each row is one at the
    column of its value and zero elsewhere. *)
Theorem C57_one_hot arr : arr <> [] -> exists codes rows, to_categorical arr = Some (codes, rows) /\
  strictly_increasing codes /\ (forall v, In v codes <-> In v arr) /\ length rows = length arr /\
  forall i, (i < length arr)%nat -> exists j, (j < length codes)%nat /\
    nth j codes 0 = nth i arr 0 /\ one_hot (nth i rows []) j /\ length (nth i rows []) = length codes.
Proof.
  intros Hne. eexists _, _. split; [ apply to_categorical_eq, Hne | ].
  split; [ apply sorted_increasing, unique_sorted | ]. split; [ intros v; apply lunique_in | ].
  split; [ apply map_length | ]. intros i Hi.
  destruct (digitize_found (unique arr) (nth i arr 0) (unique_sorted arr)) as [Hl Hv].
  { apply lunique_in, nth_In, Hi. }
  exists (digitize (unique arr) (nth i arr 0)). split; [ easy | ]. split; [ easy | ].
  rewrite (nth_indep _ [] (unit_row (length (unique arr)) (digitize (unique arr) 0))) by (now rewrite map_length).
  rewrite (map_nth (fun v => unit_row (length (unique arr)) (digitize (unique arr) v))).
  split; [ now apply unit_row_one_hot | apply unit_row_length ].
Qed.
Example C57_one_hot_met :
  to_categorical [7; 3; 7; 5] = Some ([3; 5; 7], [[0; 0; 1]; [1; 0; 0]; [0; 0; 1]; [0; 1; 0]]).
Proof. reflexivity. Qed.
Theorem C57_empty_raises : to_categorical [] = None. Proof. reflexivity. Qed.

(** Compressing the expansion gives the column back. *)
Theorem C57_compress_expand arr t : to_categorical arr = Some t -> categorical_compression t = map Some arr.
Proof. apply compression_inverts. Qed.

(** Ids run without gaps from the lowest number and the labels can be read back from them. *)
Theorem C57_ids labels lowest ordered ids : labels_to_unique_ids labels lowest = (ordered, ids) ->
  strictly_increasing ordered /\ length ids = length labels /\
  (forall i, In i ids <-> lowest <= i < lowest + Z.of_nat (length ordered)) /\
  map (fun i => nth (Z.to_nat (i - lowest)) ordered 0) ids = labels.
Proof.
  intros H. destruct (ids_range _ _ _ _ H). split; [ | split; [ easy | split; [ easy | now apply ids_roundtrip ] ] ].
  unfold labels_to_unique_ids in H. injection H as <- _. apply sorted_increasing, unique_sorted.
Qed.
Example C57_ids_met : labels_to_unique_ids [7; 3; 7; 5] 1 = ([3; 5; 7], [3; 1; 3; 2]). Proof. reflexivity. Qed.

(** Expanding a column of a frame in place keeps every column there was and appends, for each distinct
    value, the indicator of that value... *)
Theorem C57_expansion_inplace df name drop df' v : column_of df name = Some v ->
  categorical_expansion_inplace df name drop = Some df' ->
  exists new, df' = df ++ new /\
    map fst new = map (fun c => (name, Some c)) (unique v) /\
    forall k, (k < length (unique v))%nat ->
      snd (nth k new ((name, None), [])) = map (fun x => if x =? nth k (unique v) 0 then 1 else 0) v.
Proof.
  intros Hc H. unfold categorical_expansion_inplace in H. rewrite Hc in H.
  destruct (Nat.eqb (length df) 1); [ discriminate | ].
  destruct (list_eq_dec Z.eq_dec v []) as [ -> |Hne ]; [ discriminate | ].
  rewrite to_categorical_eq in H by easy. injection H as <-. eexists. split; [ reflexivity | ].
  set (u := unique v). set (rows := map _ v).
  assert (El : length (map (fun c : Z => (name, Some c)) u) = length (transpose (length u) rows)).
  { unfold transpose. now rewrite !map_length, seq_length. }
  split.
  - revert El. generalize (transpose (length u) rows) as b. generalize (map (fun c : Z => (name, Some c)) u) as a.
    induction a as [|x a IH]; intros [|y b]; cbn; intros E; try easy. f_equal. apply IH. lia.
  - intros k Hk. rewrite combine_nth by exact El. cbn [snd]. unfold transpose.
    rewrite (nth_indep _ [] ((fun j => map (fun r => nth j r 0) rows) 0%nat)) by (now rewrite map_length, seq_length).
    rewrite (map_nth (fun j => map (fun r => nth j r 0) rows)). rewrite seq_nth by easy. cbn [Nat.add].
    unfold rows. rewrite map_map. apply map_ext_in. intros x Hx.
    rewrite unit_row_nth by easy.
    destruct (digitize_found u x (unique_sorted v) (proj2 (lunique_in v x) Hx)) as [Hl Hn].
    destruct (Nat.eqb_spec k (digitize u x)) as [ -> |Hd ].
    + rewrite Hn, Z.eqb_refl. reflexivity.
    + destruct (Z.eqb_spec x (nth k u 0)) as [ -> |E ]; [ | reflexivity ].
      exfalso. apply Hd. symmetry. apply digitize_nth; [ apply unique_sorted | easy ].
Qed.
Open Scope string_scope.
Example C57_expansion_met :
  categorical_expansion_inplace [(("a", None), [7; 3; 7]); (("b", None), [0; 0; 1])] "a" false =
  Some [(("a", None), [7; 3; 7]); (("b", None), [0; 0; 1]); (("a", Some 3), [0; 1; 0]); (("a", Some 7), [1; 0; 1])].
Proof. reflexivity. Qed.
(** ... also when asked to drop the column; and a frame of one column always fails. *)
Theorem C57_drop_keeps_column_refuted df name : categorical_expansion_inplace df name true = categorical_expansion_inplace df name false.
Proof. reflexivity. Qed.
Theorem C57_single_column_refuted n v drop : categorical_expansion_inplace [((n, None), v)] n drop = None.
Proof. unfold categorical_expansion_inplace, column_of. cbn. now rewrite String.eqb_refl. Qed.
