(** Proofs about the parameter frame. *)
From Verif Require Export ParamSpec.

Lemma mem_In n l : mem n l = true <-> In n l.
Proof.
  unfold mem. rewrite existsb_exists. split.
  - intros (x & Hx & E). apply String.eqb_eq in E. subst; auto.
  - intros H. exists n. split; auto. apply String.eqb_refl.
Qed.
Lemma mem_false n l : mem n l = false <-> ~ In n l.
Proof. rewrite <- mem_In. destruct (mem n l); split; congruence. Qed.
Lemma has_dup_false l : has_dup l = false <-> NoDup l.
Proof.
  induction l as [|n l IH]; simpl; [split; [constructor|auto]|].
  rewrite orb_false_iff, mem_false, IH. split.
  - intros [H1 H2]. constructor; auto.
  - intros H. inversion H; auto.
Qed.
Lemma is_free_free r : is_free r = true <-> free r.
Proof.
  unfold is_free, free. destruct (r_hold r) as [z|]; [|split; congruence].
  rewrite Z.eqb_eq. split; congruence.
Qed.
Lemma is_nan_true v : is_nan v = true <-> v = NaN.
Proof. destruct v; simpl; split; congruence. Qed.

(** *** set_values *)
Lemma assign_length l mk vs : length (assign l mk vs) = length l.
Proof. revert mk vs; induction l as [|r l IH]; intros [|b mk] [|v vs]; simpl; auto. Qed.
Lemma assign_nth l (p : row -> bool) vs i r : nth_error l i = Some r -> length vs = length l ->
  exists v, nth_error vs i = Some v /\
  nth_error (assign l (map p l) vs) i = Some (if p r then with_value v r else r).
Proof.
  revert vs i. induction l as [|x l IH]; intros [|v vs] [|i] Hi Hl; simpl in *; try discriminate.
  - injection Hi as <-. exists v. auto.
  - apply IH; auto; lia.
Qed.
Lemma any_nan_false (p : row -> bool) l vs : length vs = length l ->
  (any_nan (map p l) vs = false <-> no_nan_at (fun r => p r = true) vs l).
Proof.
  revert vs. induction l as [|x l IH]; intros [|v vs] Hl; simpl in *; try discriminate.
  - split; auto. intros _ i r Hi. destruct i; discriminate.
  - rewrite orb_false_iff, andb_false_iff, (IH vs) by lia. split.
    + intros [H1 H2] [|i] r Hi Hp; simpl in *.
      * injection Hi as <-. destruct H1 as [H1|H1]; [congruence|]. intros [= ->]. discriminate.
      * eapply H2; eauto.
    + intros H. split.
      * destruct (p x) eqn:E; auto. right. destruct (is_nan v) eqn:En; auto.
        apply is_nan_true in En. subst. exfalso. apply (H 0%nat x); auto.
      * intros i r Hi Hp. apply (H (S i) r); auto.
Qed.
Lemma same_but_value_refl r : same_but_value r r.
Proof. repeat split. Qed.
Lemma same_but_value_with v r : same_but_value r (with_value v r).
Proof. repeat split. Qed.
Lemma assign_replaced (p : row -> bool) (sel : row -> Prop) vs l :
  (forall r, p r = true <-> sel r) -> length vs = length l ->
  values_replaced sel vs l (assign l (map p l) vs).
Proof.
  intros Hp Hl. split; [apply assign_length|]. intros i r Hi.
  destruct (assign_nth l p vs i r Hi Hl) as (v & Hv & E). exists (if p r then with_value v r else r).
  split; auto. destruct (p r) eqn:Ep.
  - split; [apply same_but_value_with|]. split; [intros _; simpl; auto|].
    intros H. exfalso. apply H, Hp; auto.
  - split; [apply same_but_value_refl|]. split; auto. intros H. apply Hp in H. congruence.
Qed.
Definition chosen_rows (respect : bool) (r : row) : Prop := if respect then free r else True.
Lemma mask_map respect l : exists p, mask respect l = map p l /\ forall r, p r = true <-> chosen_rows respect r.
Proof.
  destruct respect; simpl.
  - exists is_free. split; auto. intros r. apply is_free_free.
  - exists (fun _ => true). split; auto. intros r. simpl. tauto.
Qed.
Lemma no_nan_iff P Q vs l : (forall r, P r <-> Q r) -> no_nan_at P vs l <-> no_nan_at Q vs l.
Proof. intros H. split; intros Hn i r Hi Hs; apply (Hn i r Hi); apply H; auto. Qed.

Lemma set_array_ok respect vs f : length vs = length (rows f) ->
  no_nan_at (chosen_rows respect) vs (rows f) ->
  exists l, set_array (VArray vs) respect f = Some (mkFrame l (has_best f)) /\
            values_replaced (chosen_rows respect) vs (rows f) l.
Proof.
  intros Hl Hn. simpl. rewrite Hl, Nat.eqb_refl.
  destruct (mask_map respect (rows f)) as (p & Ep & Hp). rewrite Ep.
  assert (E : any_nan (map p (rows f)) vs = false).
  { apply any_nan_false; auto. apply (no_nan_iff _ _ _ _ Hp). auto. }
  rewrite E. eexists. split; [reflexivity|]. apply assign_replaced; auto.
Qed.
Lemma set_array_bad respect vs f :
  length vs <> length (rows f) \/ ~ no_nan_at (chosen_rows respect) vs (rows f) ->
  set_array (VArray vs) respect f = None.
Proof.
  intros H. simpl. destruct (Nat.eqb_spec (length vs) (length (rows f))) as [Hl|Hl]; auto.
  destruct (any_nan _ _) eqn:E; auto. exfalso. destruct H as [H|H]; [auto|]. apply H.
  destruct (mask_map respect (rows f)) as (p & Ep & Hp). rewrite Ep in E.
  apply any_nan_false in E; auto. apply (no_nan_iff _ _ _ _ Hp) in E. auto.
Qed.

Lemma set_values_array m vs respect :
  set_values (VArray vs) respect [] m =
  match set_array (VArray vs) respect (m_frame m) with
  | Some f => Ret tt (with_frame f m) | None => Exn m end.
Proof. reflexivity. Qed.

Lemma frame_only_with l m : frame_only m (with_frame (mkFrame l (has_best (m_frame m))) m).
Proof. repeat split. Qed.

Lemma set_values_ok m vs respect : length vs = length (rows (m_frame m)) ->
  no_nan_at (chosen_rows respect) vs (rows (m_frame m)) ->
  exists m', set_values (VArray vs) respect [] m = Ret tt m' /\ frame_only m m' /\
             values_replaced (chosen_rows respect) vs (rows (m_frame m)) (rows (m_frame m')).
Proof.
  intros Hl Hn. destruct (set_array_ok respect vs (m_frame m) Hl Hn) as (l & E & H).
  rewrite set_values_array, E. eexists. split; [reflexivity|]. split; [apply frame_only_with|]. auto.
Qed.
Lemma set_values_bad m vs respect :
  length vs <> length (rows (m_frame m)) \/ ~ no_nan_at (chosen_rows respect) vs (rows (m_frame m)) ->
  set_values (VArray vs) respect [] m = Exn m.
Proof. intros H. rewrite set_values_array, set_array_bad; auto. Qed.

Lemma scalar_ok m v respect :
  exists m', set_values (VScalar v) respect [] m = Ret tt m' /\ frame_only m m' /\
    values_replaced (chosen_rows respect) (map (fun _ => v) (rows (m_frame m)))
      (rows (m_frame m)) (rows (m_frame m')).
Proof.
  unfold set_values. simpl. eexists. split; [reflexivity|]. split; [apply frame_only_with|]. simpl.
  destruct (mask_map respect (rows (m_frame m))) as (p & -> & Hp). apply assign_replaced; auto.
  apply map_length.
Qed.

(** Keyword arguments. *)
Definition kw_row (kw : list (string * num)) (r : row) : row :=
  fold_left (fun r kv => if String.eqb (r_name r) (fst kv) && is_free r then with_value (snd kv) r else r) kw r.
Lemma fold_set_kw kw f : fold_left set_kw kw f = mkFrame (map (kw_row kw) (rows f)) (has_best f).
Proof.
  revert f. induction kw as [|kv kw IH]; intros [l b]; simpl.
  - unfold kw_row. simpl. rewrite map_id. auto.
  - rewrite IH. simpl. rewrite map_map. reflexivity.
Qed.
Lemma kw_row_same kw r : same_but_value r (kw_row kw r).
Proof.
  revert r. induction kw as [|kv kw IH]; intros r; [apply same_but_value_refl|].
  change (kw_row (kv :: kw) r) with (kw_row kw (if String.eqb (r_name r) (fst kv) && is_free r then with_value (snd kv) r else r)).
  destruct (_ && _); auto. destruct (IH (with_value (snd kv) r)) as (?&?&?&?&?&?&?). repeat split; auto.
Qed.
Lemma kw_row_held kw r : ~ free r -> kw_row kw r = r.
Proof.
  intros Hf. assert (Hf' : is_free r = false) by (destruct (is_free r) eqn:E; auto; apply is_free_free in E; easy).
  induction kw as [|kv kw IH]; auto.
  change (kw_row (kv :: kw) r) with (kw_row kw (if String.eqb (r_name r) (fst kv) && is_free r then with_value (snd kv) r else r)).
  rewrite Hf', andb_false_r. auto.
Qed.
Lemma kw_row_other kw r : ~ In (r_name r) (map fst kw) -> kw_row kw r = r.
Proof.
  induction kw as [|kv kw IH]; intros H; auto.
  change (kw_row (kv :: kw) r) with (kw_row kw (if String.eqb (r_name r) (fst kv) && is_free r then with_value (snd kv) r else r)).
  simpl in H. destruct (String.eqb_spec (r_name r) (fst kv)) as [E|E]; [exfalso; auto|]. simpl. auto.
Qed.
Lemma kw_row_given kw r v : NoDup (map fst kw) -> In (r_name r, v) kw -> free r -> r_value (kw_row kw r) = v.
Proof.
  revert r. induction kw as [|[k w] kw IH]; intros r Hn Hi Hf; [easy|]. simpl in Hn. inversion Hn as [|? ? Hk Hn']; subst.
  change (kw_row ((k, w) :: kw) r) with (kw_row kw (if String.eqb (r_name r) k && is_free r then with_value w r else r)).
  assert (E := Hf). apply is_free_free in E. rewrite E, andb_true_r.
  destruct (String.eqb_spec (r_name r) k) as [Ek|Ek].
  - rewrite kw_row_other by (simpl; rewrite Ek; auto). simpl. destruct Hi as [H|H]; [congruence|].
    exfalso. apply Hk. rewrite <- Ek. apply (in_map fst) in H. auto.
  - destruct Hi as [H|H]; [congruence|]. apply IH; auto.
Qed.

(** *** Sorting and scanning names *)
Lemma name_leb_le a b : name_leb a b = true <-> name_le a b.
Proof. unfold name_leb, name_le. destruct (String.compare a b); split; congruence. Qed.
Lemma ascii_cmp_antisym a b : Ascii.compare a b = CompOpp (Ascii.compare b a).
Proof. unfold Ascii.compare. apply N.compare_antisym. Qed.
Lemma string_cmp_sym a b : String.compare a b = CompOpp (String.compare b a).
Proof.
  revert b. induction a as [|x a IH]; intros [|y b]; simpl; auto.
  rewrite (ascii_cmp_antisym x y). destruct (Ascii.compare y x) eqn:E; simpl; auto.
Qed.
Lemma string_cmp_eq a b : String.compare a b = Eq -> a = b.
Proof.
  revert b. induction a as [|x a IH]; intros [|y b]; simpl; try discriminate; auto.
  destruct (Ascii.compare x y) eqn:E; try discriminate. intros H. f_equal; auto.
  unfold Ascii.compare in E. apply N.compare_eq in E.
  rewrite <- (Ascii.ascii_N_embedding x), <- (Ascii.ascii_N_embedding y). congruence.
Qed.
Lemma name_le_antisym a b : name_le a b -> name_le b a -> a = b.
Proof.
  unfold name_le. rewrite (string_cmp_sym b a). destruct (String.compare a b) eqn:E; simpl; try congruence.
  intros _ _. apply string_cmp_eq; auto.
Qed.
Lemma name_le_total a b : name_leb a b = false -> name_le b a.
Proof. unfold name_leb, name_le. rewrite (string_cmp_sym b a). destruct (String.compare a b); simpl; congruence. Qed.
Lemma name_le_trans a b c : name_le a b -> name_le b c -> name_le a c.
Proof.
  unfold name_le. revert b c. induction a as [|x a IH]; intros [|y b] [|z c]; simpl; try congruence.
  unfold Ascii.compare.
  destruct (N.compare_spec (Ascii.N_of_ascii x) (Ascii.N_of_ascii y)) as [E1|E1|E1];
  destruct (N.compare_spec (Ascii.N_of_ascii y) (Ascii.N_of_ascii z)) as [E2|E2|E2]; try congruence; intros H1 H2;
  destruct (N.compare_spec (Ascii.N_of_ascii x) (Ascii.N_of_ascii z)) as [E3|E3|E3]; try congruence; try lia.
  eapply IH; eauto.
Qed.
Inductive sorted_rows : list row -> Prop :=
| sr_nil : sorted_rows []
| sr_cons r l : (forall x, In x l -> name_le (r_name r) (r_name x)) -> sorted_rows l -> sorted_rows (r :: l).
Lemma insert_perm r l : Permutation (r :: l) (insert_row r l).
Proof.
  induction l as [|x l IH]; simpl; auto. destruct (name_leb _ _); auto.
  eapply perm_trans; [apply perm_swap|]. constructor. auto.
Qed.
Lemma sort_perm l : Permutation l (sort_rows l).
Proof. induction l as [|r l IH]; simpl; auto. eapply perm_trans; [|apply insert_perm]. constructor. auto. Qed.
Lemma insert_sorted r l : sorted_rows l -> sorted_rows (insert_row r l).
Proof.
  induction 1 as [|x l Hx Hs IH]; simpl; [constructor; [easy|constructor]|].
  destruct (name_leb _ _) eqn:E.
  - constructor; [|constructor; auto]. apply name_leb_le in E. intros y [ <-|Hy]; auto.
    eapply name_le_trans; eauto.
  - constructor; auto. intros y Hy. apply (Permutation_in y (Permutation_sym (insert_perm r l))) in Hy.
    destruct Hy as [ <-|Hy]; auto. apply name_le_total; auto.
Qed.
Lemma sort_sorted l : sorted_rows (sort_rows l).
Proof. induction l; simpl; [constructor|]. apply insert_sorted; auto. Qed.
Lemma sorted_unique l l' : Permutation l l' -> sorted_rows l -> sorted_rows l' -> NoDup (map r_name l) -> l = l'.
Proof.
  intros Hp Hs. revert l' Hp. induction Hs as [|r l Hr Hs IH]; intros l' Hp Hs' Hn.
  - apply Permutation_nil in Hp. auto.
  - destruct Hs' as [|r' l' Hr' Hs']; [apply Permutation_sym, Permutation_nil in Hp; discriminate|].
    assert (E : r = r').
    { assert (H1 : In r' (r :: l)) by (apply (Permutation_in r' (Permutation_sym Hp)); simpl; auto).
      assert (H2 : In r (r' :: l')) by (apply (Permutation_in r Hp); simpl; auto).
      destruct H1 as [H1|H1]; auto. destruct H2 as [H2|H2]; auto.
      assert (En : r_name r = r_name r') by (apply name_le_antisym; auto).
      simpl in Hn. inversion Hn as [|? ? Hni _]; subst. exfalso. apply Hni. rewrite En. apply in_map. auto. }
    subst r'. f_equal. apply IH; auto.
    + apply Permutation_cons_inv in Hp. auto.
    + simpl in Hn. inversion Hn; auto.
Qed.
Lemma perm_nodup_names l l' : Permutation l l' -> NoDup (map r_name l) -> NoDup (map r_name l').
Proof. intros Hp. apply Permutation_NoDup, Permutation_map; auto. Qed.
Lemma sort_rows_eq l l' : Permutation l l' -> NoDup (map r_name l) -> sort_rows l = sort_rows l'.
Proof.
  intros Hp Hn. apply sorted_unique; try apply sort_sorted.
  - eapply perm_trans; [apply Permutation_sym, sort_perm|]. eapply perm_trans; [exact Hp|apply sort_perm].
  - eapply perm_nodup_names; [apply sort_perm|auto].
Qed.
Lemma sort_of_sorted l : sorted_rows l -> NoDup (map r_name l) -> sort_rows l = l.
Proof.
  intros Hs Hn. symmetry. apply sorted_unique; auto; [apply sort_perm|apply sort_sorted].
Qed.

Definition missing_of (ns : list string) (f : frame) : list string :=
  filter (fun n => negb (mem n (names (rows f)))) ns.
Lemma missing_In n ns f : In n (missing_of ns f) <-> In n ns /\ ~ In n (map r_name (rows f)).
Proof.
  unfold missing_of. rewrite filter_In, negb_true_iff, mem_false. unfold names. tauto.
Qed.
Lemma ensure_names_eq ns d f : wf f -> NoDup ns ->
  ensure_names ns d f = Some (mkFrame (rows f ++ map (new_row d) (missing_of ns f)) (has_best f)) /\
  wf (mkFrame (rows f ++ map (new_row d) (missing_of ns f)) (has_best f)).
Proof.
  intros Hw Hn.
  assert (Hnd : NoDup (names (rows f ++ map (new_row d) (missing_of ns f)))).
  { unfold names. rewrite map_app, map_map. simpl. rewrite map_id.
    assert (Hm : NoDup (missing_of ns f)) by (apply NoDup_filter; auto).
    assert (Hd : forall n, In n (map r_name (rows f)) -> ~ In n (missing_of ns f)).
    { intros n H1 H2. apply missing_In in H2. tauto. }
    unfold wf in Hw. revert Hw Hm Hd. generalize (map r_name (rows f)) as a. generalize (missing_of ns f) as b.
    induction a as [|x a IH]; intros Ha Hb Hd; simpl; auto. inversion Ha; subst. constructor.
    - rewrite in_app_iff. intros [H|H]; auto. eapply Hd; simpl; eauto.
    - apply IH; auto. intros n H. apply Hd; simpl; auto. }
  split; [|exact Hnd].
  unfold ensure_names. fold (missing_of ns f). destruct (missing_of ns f) eqn:E.
  - simpl. rewrite app_nil_r. destruct f; auto.
  - apply has_dup_false in Hnd. rewrite Hnd. auto.
Qed.

(** The rows of a full scan before sorting. *)
Definition scanned (m : modelnames) (f : frame) : list row :=
  let l1 := rows f ++ map (new_row plain_defaults) (missing_of (n_util m) f) in
  let f1 := mkFrame l1 (has_best f) in
  let l2 := l1 ++ map (new_row plain_defaults) (missing_of (n_quant m) f1) in
  let f2 := mkFrame l2 (has_best f) in
  l2 ++ map (new_row logsum_defaults) (missing_of (n_logsum m) f2).
Definition names_ok (m : modelnames) : Prop := NoDup (n_util m) /\ NoDup (n_quant m) /\ NoDup (n_logsum m).
Lemma scan_all_eq m f : wf f -> names_ok m ->
  scan_all m f = Some (mkFrame (sort_rows (scanned m f)) (has_best f)) /\
  NoDup (map r_name (scanned m f)).
Proof.
  intros Hw (H1 & H2 & H3). unfold scan_all, scanned.
  destruct (ensure_names_eq (n_util m) plain_defaults f Hw H1) as [E1 W1]. rewrite E1. cbn [obind].
  destruct (ensure_names_eq (n_quant m) plain_defaults _ W1 H2) as [E2 W2]. rewrite E2. cbn [obind].
  destruct (ensure_names_eq (n_logsum m) logsum_defaults _ W2 H3) as [E3 W3]. rewrite E3. cbn [obind].
  split; [reflexivity|]. exact W3.
Qed.
Lemma scan_wf m f f' : wf f -> names_ok m -> scan_all m f = Some f' -> wf f'.
Proof.
  intros Hw Hm E. destruct (scan_all_eq m f Hw Hm) as [E' Hn]. rewrite E in E'. injection E' as ->.
  unfold wf. simpl. eapply perm_nodup_names; [apply sort_perm|auto].
Qed.
Lemma scanned_old m f : exists extra, scanned m f = rows f ++ extra /\
  (forall r, In r extra -> exists n,
      (r = new_row plain_defaults n /\ (In n (n_util m) \/ In n (n_quant m)) \/
       r = new_row logsum_defaults n /\ In n (n_logsum m) /\ ~ In n (n_util m) /\ ~ In n (n_quant m)) /\
      ~ In n (map r_name (rows f))).
Proof.
  unfold scanned. set (f1 := mkFrame (rows f ++ _) _). set (f2 := mkFrame (_ ++ _) (has_best f)).
  eexists. split; [rewrite <- !app_assoc; reflexivity|].
  assert (S1 : forall n, In n (map r_name (rows f)) -> In n (map r_name (rows f1))).
  { intros n H. simpl. rewrite map_app, in_app_iff. auto. }
  assert (S2 : forall n, In n (map r_name (rows f1)) -> In n (map r_name (rows f2))).
  { intros n H. simpl. rewrite map_app, in_app_iff. auto. }
  assert (U1 : forall n, In n (n_util m) -> In n (map r_name (rows f1))).
  { intros n H. simpl. rewrite map_app, in_app_iff, map_map. simpl. rewrite map_id.
    destruct (in_dec string_dec n (map r_name (rows f))); auto. right. apply missing_In. auto. }
  assert (U2 : forall n, In n (n_quant m) -> In n (map r_name (rows f2))).
  { intros n H. simpl. rewrite map_app, in_app_iff, map_map. simpl. rewrite map_id.
    destruct (in_dec string_dec n (map r_name (rows f1))) as [Hi|Hi]; auto. right. apply missing_In. auto. }
  intros r. rewrite !in_app_iff, !in_map_iff. intros [(n & <- & H)|[(n & <- & H)|(n & <- & H)]];
    exists n; apply missing_In in H; destruct H as [Ha Hb]; split; auto 10.
Qed.
Lemma scanned_all_names m f n : In n (n_util m) \/ In n (n_quant m) \/ In n (n_logsum m) ->
  In n (map r_name (scanned m f)).
Proof.
  unfold scanned. set (f1 := mkFrame (rows f ++ _) _). set (f2 := mkFrame (_ ++ _) (has_best f)). intros H.
  change (In n (map r_name (rows f2 ++ map (new_row logsum_defaults) (missing_of (n_logsum m) f2)))).
  rewrite map_app, in_app_iff, map_map. simpl map. rewrite map_id.
  destruct (in_dec string_dec n (map r_name (rows f2))) as [Hi|Hi]; auto.
  destruct H as [H|[H|H]].
  - exfalso. apply Hi. simpl. rewrite !map_app, !in_app_iff. left.
    destruct (in_dec string_dec n (map r_name (rows f))); auto. right. rewrite map_map. simpl. rewrite map_id. apply missing_In. auto.
  - exfalso. apply Hi. change (In n (map r_name (rows f1 ++ map (new_row plain_defaults) (missing_of (n_quant m) f1)))).
    rewrite map_app, in_app_iff, map_map. simpl map. rewrite map_id.
    destruct (in_dec string_dec n (map r_name (rows f1))) as [Hj|Hj]; auto. right. apply missing_In. auto.
  - right. apply missing_In. auto.
Qed.

Lemma missing_nil ns f : (forall n, In n ns -> In n (map r_name (rows f))) -> missing_of ns f = [].
Proof.
  intros H. destruct (missing_of ns f) as [|n l] eqn:E; auto.
  assert (Hn : In n (missing_of ns f)) by (rewrite E; simpl; auto). apply missing_In in Hn.
  exfalso. apply Hn, H, Hn.
Qed.
Lemma scanned_complete m f : (forall n, In n (n_util m) \/ In n (n_quant m) \/ In n (n_logsum m) -> In n (map r_name (rows f))) ->
  scanned m f = rows f.
Proof.
  intros H. unfold scanned. rewrite (missing_nil (n_util m) f) by auto. simpl. rewrite app_nil_r.
  rewrite (missing_nil (n_quant m)) by (simpl; auto). simpl. rewrite app_nil_r.
  rewrite (missing_nil (n_logsum m)) by (simpl; auto). simpl. rewrite app_nil_r. auto.
Qed.
Lemma scan_idem m f f' : wf f -> names_ok m -> scan_all m f = Some f' -> scan_all m f' = Some f'.
Proof.
  intros Hw Hm E. assert (W' := scan_wf _ _ _ Hw Hm E). destruct (scan_all_eq m f Hw Hm) as [E1 Hn].
  rewrite E in E1. injection E1 as ->. destruct (scan_all_eq m _ W' Hm) as [E2 _]. rewrite E2. f_equal.
  rewrite scanned_complete.
  - simpl. f_equal. apply sort_of_sorted; [apply sort_sorted|exact W'].
  - intros n H. simpl. apply (Permutation_in n (Permutation_map r_name (sort_perm (scanned m f)))).
    apply scanned_all_names; auto.
Qed.
Lemma missing_perm ns ns' f : Permutation ns ns' -> Permutation (missing_of ns f) (missing_of ns' f).
Proof.
  unfold missing_of. induction 1; simpl; auto.
  - destruct (negb _); auto.
  - destruct (negb _), (negb _); auto. apply perm_swap.
  - eapply perm_trans; eauto.
Qed.
Lemma missing_perm_f ns f f' : Permutation (rows f) (rows f') -> missing_of ns f = missing_of ns f'.
Proof.
  intros Hp. unfold missing_of. apply filter_ext. intros n. f_equal.
  destruct (mem n (names (rows f))) eqn:E.
  - symmetry. apply mem_In. apply mem_In in E. eapply Permutation_in; [apply Permutation_map, Hp|auto].
  - symmetry. apply mem_false. apply mem_false in E. intros H. apply E.
    eapply Permutation_in; [apply Permutation_sym, Permutation_map, Hp|auto].
Qed.
Lemma scan_order_free m m' f f' : wf f -> names_ok m -> Permutation (rows f) (rows f') -> has_best f = has_best f' ->
  Permutation (n_util m) (n_util m') -> Permutation (n_quant m) (n_quant m') -> Permutation (n_logsum m) (n_logsum m') ->
  scan_all m f = scan_all m' f'.
Proof.
  intros Hw Hm Hp Hb P1 P2 P3.
  assert (Hm' : names_ok m').
  { destruct Hm as (A & B & C). split; [|split]; eapply Permutation_NoDup; eauto. }
  assert (Hw' : wf f') by (eapply perm_nodup_names; eauto).
  destruct (scan_all_eq m f Hw Hm) as [E1 Hn]. destruct (scan_all_eq m' f' Hw' Hm') as [E2 _].
  rewrite E1, E2. do 2 f_equal; auto. apply sort_rows_eq; auto. unfold scanned.
  assert (Q1 : Permutation (rows f ++ map (new_row plain_defaults) (missing_of (n_util m) f))
                           (rows f' ++ map (new_row plain_defaults) (missing_of (n_util m') f'))).
  { apply Permutation_app; auto. apply Permutation_map. rewrite (missing_perm_f _ f f' Hp). apply missing_perm; auto. }
  set (f1 := mkFrame (rows f ++ _) _). set (f1' := mkFrame (rows f' ++ _) _).
  assert (Q2 : Permutation (rows f1 ++ map (new_row plain_defaults) (missing_of (n_quant m) f1))
                           (rows f1' ++ map (new_row plain_defaults) (missing_of (n_quant m') f1'))).
  { apply Permutation_app; auto. apply Permutation_map. rewrite (missing_perm_f _ f1 f1' Q1). apply missing_perm; auto. }
  apply Permutation_app; [exact Q2|]. apply Permutation_map.
  eapply perm_trans; [apply missing_perm; exact P3|].
  match goal with |- Permutation (missing_of _ ?a) (missing_of _ ?b) =>
    rewrite (missing_perm_f (n_logsum m') a b Q2) end. auto.
Qed.

(** *** Preservation of a frame invariant: rows survive every operation, up to what the
    operation may write. *)
Lemma unmangle_false_cases m : wf (m_frame m) -> names_ok (m_names m) ->
  exists m', unmangle false m = Ret tt m' /\ m_mangled m' = false /\ m_names m' = m_names m /\
    m_null_ll m' = m_null_ll m /\ m_best_ll m' = m_best_ll m /\ m_log m' = m_log m /\
    has_best (m_frame m') = has_best (m_frame m) /\ wf (m_frame m') /\
    (m_mangled m = false /\ m' = m \/
     m_mangled m = true /\ rows (m_frame m') = sort_rows (scanned (m_names m) (m_frame m))).
Proof.
  intros Hw Hn. unfold unmangle. destruct (m_mangled m) eqn:E.
  - destruct (scan_all_eq (m_names m) (m_frame m) Hw Hn) as [E1 Hd]. rewrite E1. eexists. split; [reflexivity|].
    simpl. repeat split; auto. eapply perm_nodup_names; [apply sort_perm|auto].
  - exists m. repeat split; auto.
Qed.
Lemma in_scanned r m f : In r (rows f) -> In r (sort_rows (scanned m f)).
Proof.
  intros H. apply (Permutation_in r (sort_perm _)). destruct (scanned_old m f) as (x & -> & _).
  apply in_app_iff. auto.
Qed.
