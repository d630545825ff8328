(** Proofs about the doctor. *)
From Verif Require Import WtModel WtSpec WtProofs.
From Verif Require Import DocModel DocSpec.
Open Scope R_scope.

Lemma Rltb_lt a b : Rltb a b = true <-> a < b.
Proof. unfold Rltb. destruct (Rlt_dec a b); split; easy. Qed.
Lemma Req0_eq a : Req0 a = true <-> a = 0.
Proof. unfold Req0. destruct (Req_EM_T a 0); split; easy. Qed.

(** ** Arrays and masks *)
Lemma nth_row_len {A} n w (a : list (list A)) i : shape n w a -> (i < n)%nat -> length (nth i a []) = w.
Proof. intros [H1 H2] Hi. apply H2, nth_In. lia. Qed.
Lemma nth_combine {A B} (a : list A) (b : list B) i da db : (i < length a)%nat -> (i < length b)%nat ->
  nth i (combine a b) (da, db) = (nth i a da, nth i b db).
Proof.
  revert b i. induction a as [|x a IH]; intros [|y b] i Ha Hb; cbn in *; try lia. destruct i as [|i]; [ easy | ]. apply IH; lia.
Qed.
Lemma map_combine_nth {A B C} (f : A * B -> C) (a : list A) (b : list B) i da db dc : (i < length a)%nat -> (i < length b)%nat ->
  nth i (map f (combine a b)) dc = f (nth i a da, nth i b db).
Proof.
  intros Ha Hb. rewrite (nth_indep _ dc (f (da, db))) by (rewrite map_length, combine_length; lia).
  rewrite map_nth. now rewrite nth_combine.
Qed.
Lemma zip_rows_shape {A B} (f : A -> B -> bool) a b n w : shape n w a -> shape n w b -> shape n w (zip_rows f a b).
Proof.
  intros [Ha1 Ha2] [Hb1 Hb2]. split; [ unfold zip_rows; rewrite map_length, combine_length; lia | ].
  intros r Hr. apply in_map_iff in Hr as ([x y] & <- & Hp). rewrite map_length, combine_length. cbn.
  rewrite (Ha2 x (in_combine_l _ _ _ _ Hp)), (Hb2 y (in_combine_r _ _ _ _ Hp)). lia.
Qed.
Lemma zip_rows_cell {A B} (f : A -> B -> bool) a b n w da db i j : shape n w a -> shape n w b -> (i < n)%nat -> (j < w)%nat ->
  cell (zip_rows f a b) i j = f (at_ da a i j) (at_ db b i j).
Proof.
  intros Ha Hb Hi Hj. unfold cell, zip_rows, at_. pose proof Ha as [Ha1 _]. pose proof Hb as [Hb1 _].
  rewrite (map_combine_nth _ a b i [] [] []) by lia. cbn [fst snd].
  pose proof (nth_row_len n w a i Ha Hi). pose proof (nth_row_len n w b i Hb Hi).
  rewrite (map_combine_nth _ _ _ j da db false) by lia. easy.
Qed.
Lemma cell_out n w m i j : shape n w m -> ~ ((i < n)%nat /\ (j < w)%nat) -> cell m i j = false.
Proof.
  intros H Hn. unfold cell. destruct (Nat.lt_ge_cases i n) as [Hi|Hi].
  - apply nth_overflow. rewrite (nth_row_len n w m i H Hi). lia.
  - destruct H as [H _]. rewrite (nth_overflow m) by lia. now destruct j.
Qed.
Lemma same_shape_true {A} n w (m : mask) (arr : list (list A)) : shape n w m -> shape n w arr -> same_shape m arr = true.
Proof.
  revert n arr. induction m as [|x m IH]; intros n arr [H1 H2] [H3 H4]; destruct arr as [|r arr]; cbn in *; try lia; try easy.
  rewrite (H2 x (or_introl eq_refl)), (H4 r (or_introl eq_refl)), Nat.eqb_refl. cbn. apply (IH (length m)).
  - split; [ easy | intros; apply H2; now right ].
  - split; [ lia | intros; apply H4; now right ].
Qed.
Lemma assign_spec {A} n w m (v : A) arr dft : shape n w m -> shape n w arr ->
  exists out, assign m v arr = Some out /\ shape n w out /\
    forall i j, at_ dft out i j = if cell m i j then v else at_ dft arr i j.
Proof.
  intros Hm Ha. unfold assign. rewrite (same_shape_true n w m arr Hm Ha). eexists. split; [ reflexivity | ].
  pose proof Hm as [Hm1 Hm2]. pose proof Ha as [Ha1 Ha2].
  assert (Hs : shape n w (map (fun p => assign_row v (fst p) (snd p)) (combine m arr))).
  { split; [ rewrite map_length, combine_length; lia | ]. intros r Hr. apply in_map_iff in Hr as ([x y] & <- & Hp).
    unfold assign_row. rewrite map_length, combine_length. cbn.
    rewrite (Hm2 x (in_combine_l _ _ _ _ Hp)), (Ha2 y (in_combine_r _ _ _ _ Hp)). lia. }
  split; [ easy | ]. intros i j.
  destruct (Nat.lt_ge_cases i n) as [Hi|Hi]; [ destruct (Nat.lt_ge_cases j w) as [Hj|Hj] | ].
  - unfold at_, cell. rewrite (map_combine_nth _ m arr i [] [] []) by lia. cbn [fst snd]. unfold assign_row.
    pose proof (nth_row_len n w m i Hm Hi). pose proof (nth_row_len n w arr i Ha Hi).
    rewrite (map_combine_nth _ _ _ j false dft dft) by lia. easy.
  - rewrite (cell_out n w m i j Hm) by lia. unfold at_. rewrite !nth_overflow; [ easy | rewrite (nth_row_len n w arr i Ha Hi); lia | ].
    rewrite (nth_row_len n w _ i Hs Hi). lia.
  - rewrite (cell_out n w m i j Hm) by lia. unfold at_. destruct Hs as [Hs1 _]. rewrite !(nth_overflow (_ : list (list A))) by lia. easy.
Qed.

(** ** The diagnosis *)
Lemma filter_nil_iff {A} (f : A -> bool) l : filter f l = [] <-> forall x, In x l -> f x = false.
Proof.
  split.
  - intros H x Hx. destruct (f x) eqn:E; [ | easy ]. assert (Hi : In x (filter f l)) by (apply filter_In; auto). now rewrite H in Hi.
  - intros H. destruct (filter f l) as [|y r] eqn:E; [ easy | ]. assert (Hi : In y (filter f l)) by (rewrite E; now left).
    apply filter_In in Hi as [Hi Hf]. rewrite (H y Hi) in Hf. discriminate.
Qed.
Lemma flagged_in n w m j i : shape n w m -> (In i (flagged m j) <-> (i < n)%nat /\ cell m i j = true).
Proof. intros [H _]. unfold flagged. rewrite filter_In, in_seq. rewrite H. split; intros [H1 H2]; split; try easy; lia. Qed.
Lemma filter_seq_sorted (f : nat -> bool) s n a b : (a < b < length (filter f (seq s n)))%nat ->
  (nth a (filter f (seq s n)) 0 < nth b (filter f (seq s n)) 0)%nat.
Proof.
  revert s a b. induction n as [|n IH]; intros s a b H; [ cbn in H; lia | ].
  change (seq s (S n)) with (s :: seq (S s) n) in *. cbn [filter] in *. destruct (f s).
  - cbn [length] in H. destruct b as [|b]; [ lia | ]. destruct a as [|a].
    + cbn [nth]. assert (Hb : In (nth b (filter f (seq (S s) n)) 0%nat) (filter f (seq (S s) n))) by (apply nth_In; lia).
      apply filter_In in Hb as [Hb _]. apply in_seq in Hb. lia.
    + cbn [nth]. apply IH. lia.
  - now apply IH.
Qed.
Lemma sorted_rows_unique (l m : list nat) :
  (forall a b, (a < b < length l)%nat -> (nth a l 0 < nth b l 0)%nat) ->
  (forall a b, (a < b < length m)%nat -> (nth a m 0 < nth b m 0)%nat) ->
  (forall x, In x l <-> In x m) -> l = m.
Proof.
  revert m. induction l as [|x l IH]; intros m Hl Hm He.
  - destruct m as [|y m]; [ easy | ]. exfalso. now apply (He y); left.
  - destruct m as [|y m]; [ exfalso; now apply (He x); left | ].
    assert (Hgl : forall z, In z l -> (x < z)%nat).
    { intros z Hz. destruct (In_nth l z 0%nat Hz) as (k & Hk & <-). apply (Hl 0%nat (S k)). cbn. lia. }
    assert (Hgm : forall z, In z m -> (y < z)%nat).
    { intros z Hz. destruct (In_nth m z 0%nat Hz) as (k & Hk & <-). apply (Hm 0%nat (S k)). cbn. lia. }
    assert (Exy : x = y).
    { destruct (proj1 (He x) (or_introl eq_refl)) as [E|Hx]; [ easy | ]. destruct (proj2 (He y) (or_introl eq_refl)) as [E|Hy]; [ easy | ].
      apply Hgm in Hx. apply Hgl in Hy. lia. }
    subst y. f_equal. apply IH.
    + intros a b H. apply (Hl (S a) (S b)). cbn. lia.
    + intros a b H. apply (Hm (S a) (S b)). cbn. lia.
    + intros z. split; intros Hz.
      * destruct (proj1 (He z) (or_intror Hz)) as [ <- |H ]; [ apply Hgl in Hz; lia | easy ].
      * destruct (proj2 (He z) (or_intror Hz)) as [ <- |H ]; [ apply Hgm in Hz; lia | easy ].
Qed.
Lemma filter_seq_nodup (f : nat -> bool) s n : NoDup (filter f (seq s n)).
Proof. apply NoDup_filter, seq_NoDup. Qed.
Lemma ncols_shape n w m : shape n w m -> (0 < n)%nat -> ncols m = w.
Proof. intros [H1 H2] Hn. destruct m as [|r m]; [ cbn in H1; lia | ]. apply H2. now left. Qed.
Lemma diagnose_spec n w m verbose (bad : nat -> nat -> Prop) : shape n w m ->
  (forall i j, cell m i j = true <-> bad i j) -> lists_problems verbose w n bad (diagnose verbose m).
Proof.
  intros Hs Hb. unfold diagnose, lists_problems.
  assert (Hbad : forall i j, bad i j -> (i < n)%nat /\ (j < w)%nat).
  { intros i j H. apply Hb in H. destruct (Nat.lt_ge_cases i n), (Nat.lt_ge_cases j w); try easy; exfalso;
      rewrite (cell_out n w m i j Hs) in H by lia; discriminate. }
  assert (Hin : forall j, In j (filter (fun j => negb (Nat.eqb (length (flagged m j)) 0)) (seq 0 (ncols m))) <-> exists i, bad i j).
  { intros j. rewrite filter_In, in_seq, negb_true_iff, Nat.eqb_neq. split.
    - intros [_ H]. destruct (flagged m j) as [|i r] eqn:E; [ easy | ].
      assert (Hi : In i (flagged m j)) by (rewrite E; now left). apply (flagged_in n w) in Hi as [_ Hi]; [ | easy ]. exists i. now apply Hb.
    - intros (i & Hi). destruct (Hbad i j Hi) as [H1 H2]. rewrite (ncols_shape n w m Hs) by lia. split; [ lia | ].
      assert (Hf : In i (flagged m j)) by (apply (flagged_in n w); [ easy | split; [ easy | now apply Hb ] ]).
      destruct (flagged m j); [ easy | cbn; lia ]. }
  destruct (filter _ (seq 0 (ncols m))) as [|j0 js] eqn:E.
  - intros i j H. now apply (Hin j); exists i.
  - rewrite <- E in Hin |- *. split.
    + destruct (proj1 (Hin j0)) as (i & Hi); [ rewrite E; now left | eauto ].
    + assert (Hrows : forall j, (forall i, In i (flagged m j) <-> (i < n)%nat /\ bad i j)).
      { intros j i. rewrite (flagged_in n w m j i Hs). now rewrite Hb. }
      intros j k ex. rewrite in_map_iff. split.
      * intros (j' & Ej & Hj). injection Ej as -> <- <-. apply Hin in Hj as (i & Hi). destruct (Hbad i j Hi) as [H1 H2].
        split; [ easy | ]. split.
        -- assert (Hf : In i (flagged m j)) by (apply Hrows; auto). destruct (flagged m j); [ easy | cbn; lia ].
        -- exists (flagged m j). split; [ apply Hrows | ]. split; [ apply filter_seq_nodup | ]. split; [ apply filter_seq_sorted | easy ].
      * intros (Hj & Hk & rows & H1 & _ & H2 & -> & ->).
        assert (Er : rows = flagged m j).
        { apply sorted_rows_unique; [ easy | apply filter_seq_sorted | ]. intros i. rewrite H1, Hrows. easy. }
        subst rows. exists j. split; [ easy | ]. apply Hin. destruct (flagged m j) as [|i r] eqn:Ef; [ easy | ].
        exists i. apply (Hrows j i). rewrite Ef. now left.
Qed.

(** ** Chosen but unavailable *)
Lemma view_narrow g d : wide g d = false -> av_view g d = av d.
Proof. unfold av_view. destruct g as [[e n]|]; [ | easy ]. now intros ->. Qed.
Lemma av_mask_shape g n w d : wide g d = false -> well_shaped n w d -> shape n w (av_mask g d).
Proof. intros Hw H. unfold av_mask. rewrite (view_narrow g d Hw). apply zip_rows_shape; apply H. Qed.
Lemma av_mask_cell g n w d i j : wide g d = false -> well_shaped n w d -> (cell (av_mask g d) i j = true <-> bad_av w d i j).
Proof.
  intros Hw H. pose proof (av_mask_shape g n w d Hw H) as Hs. unfold bad_av. destruct (ws_ch _ _ _ H) as [Hn _]. rewrite Hn.
  destruct (Nat.lt_ge_cases i n) as [Hi|Hi]; [ destruct (Nat.lt_ge_cases j w) as [Hj|Hj] | ].
  - unfold av_mask. rewrite (view_narrow g d Hw).
    rewrite (zip_rows_cell _ _ _ n w 0%Z 0 i j (ws_av _ _ _ H) (ws_ch _ _ _ H) Hi Hj).
    fold (av_at d i j). fold (ch_at d i j). unfold chosen. rewrite andb_true_iff, Z.eqb_eq, Rltb_lt. tauto.
  - rewrite (cell_out n w _ i j Hs) by lia. split; [ discriminate | lia ].
  - rewrite (cell_out n w _ i j Hs) by lia. split; [ discriminate | lia ].
Qed.
Lemma diagnose_none n w m verbose : shape n w m -> (diagnose verbose m = None <-> forall i j, cell m i j = false).
Proof.
  intros Hs. pose proof (diagnose_spec n w m verbose (fun i j => cell m i j = true) Hs ltac:(easy)) as H.
  destruct (diagnose verbose m) as [L|]; cbn in H.
  - split; [ discriminate | ]. intros Hf. destruct H as [(i & j & Hi) _]. now rewrite Hf in Hi.
  - split; [ | easy ]. intros _ i j. destruct (cell m i j) eqn:E; [ now apply H in E | easy ].
Qed.
Lemma with_av_shaped n w d a : well_shaped n w d -> shape n w a -> well_shaped n w (with_av d a).
Proof. intros H Ha. constructor; cbn; [ apply H | easy | apply H | apply H ]. Qed.
Lemma with_ch_shaped n w d c : well_shaped n w d -> shape n w c -> well_shaped n w (with_ch d c).
Proof. intros H Hc. constructor; cbn; [ easy | apply H | apply H | apply H ]. Qed.

Lemma cna_spec g r verbose n w d : wide g d = false -> well_shaped n w d ->
  exists d' diag, chosen_but_not_available g r verbose d = Some (d', diag) /\
    lists_problems verbose w n (bad_av w d) diag /\ well_shaped n w d' /\
    ((forall i j, ~ bad_av w d i j) -> d' = d) /\
    match r with
    | Plus => exists a, d' = with_av d a /\ forall i j, (bad_av w d i j -> av_at d' i j = 1%Z) /\ (~ bad_av w d i j -> av_at d' i j = av_at d i j)
    | Minus => exists c, d' = with_ch d c /\ forall i j, (bad_av w d i j -> ch_at d' i j = 0) /\ (~ bad_av w d i j -> ch_at d' i j = ch_at d i j)
    | _ => d' = d
    end.
Proof.
  intros Hw H. pose proof (av_mask_shape g n w d Hw H) as Hs.
  pose proof (diagnose_spec n w (av_mask g d) verbose (bad_av w d) Hs (fun i j => av_mask_cell g n w d i j Hw H)) as Hd.
  assert (Hcell : forall i j, (bad_av w d i j -> cell (av_mask g d) i j = true) /\ (~ bad_av w d i j -> cell (av_mask g d) i j = false)).
  { intros i j. split; intros Hb; [ now apply (av_mask_cell g n w) | ].
    destruct (cell (av_mask g d) i j) eqn:E; [ | easy ]. now apply (av_mask_cell g n w) in E. }
  unfold chosen_but_not_available.
  destruct (assign_spec n w (av_mask g d) 1%Z (av d) 0%Z Hs (ws_av _ _ _ H)) as (oa & Ea & Sa & Ca).
  destruct (assign_spec n w (av_mask g d) 0 (d_ch (base d)) 0 Hs (ws_ch _ _ _ H)) as (oc & Ec & Sc & Cc).
  destruct (diagnose verbose (av_mask g d)) as [L|] eqn:Edg.
  - assert (Hex : ~ forall i j, ~ bad_av w d i j) by (intros Hn; destruct Hd as [(i & j & Hij) _]; now apply (Hn i j)).
    destruct r.
    + exists d, (Some L). split; [ easy | ]. split; [ easy | ]. split; [ easy | ]. split; [ easy | easy ].
    + exists (with_av d oa), (Some L). rewrite Ea. split; [ easy | ]. split; [ easy | ]. split; [ now apply with_av_shaped | ].
      split; [ easy | ]. exists oa. split; [ easy | ]. intros i j. unfold av_at. cbn [av with_av]. rewrite Ca.
      destruct (Hcell i j) as [H1 H2]. split; intros Hb; [ now rewrite (H1 Hb) | now rewrite (H2 Hb) ].
    + exists (with_ch d oc), (Some L). rewrite Ec. split; [ easy | ]. split; [ easy | ]. split; [ now apply with_ch_shaped | ].
      split; [ easy | ]. exists oc. split; [ easy | ]. intros i j. unfold ch_at. cbn [base with_ch with_base d_ch]. rewrite Cc.
      destruct (Hcell i j) as [H1 H2]. split; intros Hb; [ now rewrite (H1 Hb) | now rewrite (H2 Hb) ].
    + exists d, (Some L). split; [ easy | ]. split; [ easy | ]. split; [ easy | ]. split; [ easy | easy ].
  - cbn in Hd. exists d, None. split; [ easy | ]. split; [ easy | ]. split; [ easy | ]. split; [ easy | ]. destruct r; try easy.
    + exists (av d). split; [ now destruct d | ]. intros i j. split; [ intros Hb; now apply Hd in Hb | easy ].
    + exists (d_ch (base d)). split; [ now destruct d as [[]] | ]. intros i j. split; [ intros Hb; now apply Hd in Hb | easy ].
Qed.

(** ** Chosen but zero quantity *)
Definition zmask (d : dd) (z : list (list bool)) : mask := zip_rows (fun (x : bool) c => x && chosen c) z (d_ch (base d)).
Lemma zero_q_shape n w d z : well_shaped n w d -> zero_q d = Some z -> shape n w z.
Proof.
  intros H. unfold zero_q. destruct (qty d) as [q|]; [ | discriminate ]. intros E. injection E as <-. destruct (ws_av _ _ _ H) as [H1 H2].
  split; [ rewrite map_length, combine_length, seq_length; lia | ]. intros r Hr.
  apply in_map_iff in Hr as ([i row] & <- & Hin). rewrite map_length, combine_length, seq_length. cbn.
  rewrite (H2 row (in_combine_r _ _ _ _ Hin)). lia.
Qed.
Lemma zero_q_at n w d z q i j : well_shaped n w d -> qty d = Some q -> zero_q d = Some z -> (i < n)%nat -> (j < w)%nat ->
  at_ false z i j = (0 <? av_at d i j)%Z && has_row d i j && forallb is_zero (q i j).
Proof.
  intros H Hq. unfold zero_q. rewrite Hq. intros E Hi Hj. injection E as <-. destruct (ws_av _ _ _ H) as [H1 H2].
  unfold at_, av_at, at_. rewrite (map_combine_nth _ (seq 0 (length (av d))) (av d) i 0%nat [] []) by (rewrite ?seq_length; lia).
  cbn [fst snd]. pose proof (nth_row_len n w (av d) i (ws_av _ _ _ H) Hi) as Hl.
  rewrite (map_combine_nth _ (seq 0 (length (nth i (av d) []))) (nth i (av d) []) j 0%nat 0%Z false) by (rewrite ?seq_length; lia).
  cbn [fst snd]. rewrite !seq_nth by lia. easy.
Qed.
Lemma forallb_zero l : forallb is_zero l = true <-> forall x, In x l -> x = Some 0.
Proof.
  rewrite forallb_forall. split; intros H x Hx; specialize (H x Hx).
  - destruct x as [v|]; [ | discriminate ]. cbn in H. apply Req0_eq in H. now subst.
  - subst. cbn. now apply Req0_eq.
Qed.
Lemma zmask_cell n w d z i j : well_shaped n w d -> zero_q d = Some z -> (cell (zmask d z) i j = true <-> bad_zq w d i j).
Proof.
  intros H Hz. pose proof (zero_q_shape n w d z H Hz) as Hs. pose proof (zip_rows_shape (fun (x : bool) c => x && chosen c) _ _ n w Hs (ws_ch _ _ _ H)) as Hm.
  fold (zmask d z) in Hm. unfold bad_zq. destruct (ws_ch _ _ _ H) as [Hn _]. rewrite Hn.
  destruct (Nat.lt_ge_cases i n) as [Hi|Hi]; [ destruct (Nat.lt_ge_cases j w) as [Hj|Hj] | ];
    [ | rewrite (cell_out n w _ i j Hm) by lia; split; [ discriminate | lia ] | rewrite (cell_out n w _ i j Hm) by lia; split; [ discriminate | lia ] ].
  destruct (qty d) as [q|] eqn:Eq; [ | unfold zero_q in Hz; rewrite Eq in Hz; discriminate ].
  unfold zmask. rewrite (zip_rows_cell _ _ _ n w false 0 i j Hs (ws_ch _ _ _ H) Hi Hj).
  rewrite (zero_q_at n w d z q i j H Eq Hz Hi Hj). fold (ch_at d i j). unfold chosen.
  rewrite !andb_true_iff, Z.ltb_lt, Rltb_lt, forallb_zero. split.
  - intros [[[H1 H2] H3] H4]. repeat split; try easy. exists q. auto.
  - intros (_ & _ & H1 & H2 & H3 & q' & E & H4). injection E as <-. auto.
Qed.
Lemma zq_spec r verbose n w d : r = Keep \/ r = Minus -> well_shaped n w d ->
  exists d' diag, chosen_but_zero_quantity r verbose d = Some (d', diag) /\
    lists_problems verbose w n (bad_zq w d) diag /\ well_shaped n w d' /\
    ((forall i j, ~ bad_zq w d i j) -> d' = d) /\
    match r with
    | Minus => exists c, d' = with_ch d c /\ forall i j, (bad_zq w d i j -> ch_at d' i j = 0) /\ (~ bad_zq w d i j -> ch_at d' i j = ch_at d i j)
    | _ => d' = d
    end.
Proof.
  intros Hr H. assert (Eif : chosen_but_zero_quantity r verbose d = match zero_q d with
    | None => Some (d, None)
    | Some z => match diagnose verbose (zmask d z) with
      | None => Some (d, None)
      | diag => match r with Minus => option_map (fun c => (with_ch d c, diag)) (assign (zmask d z) 0 (d_ch (base d))) | _ => Some (d, diag) end end end).
  { destruct Hr as [ -> | -> ]; reflexivity. }
  rewrite Eif. clear Eif. destruct (zero_q d) as [z|] eqn:Ez.
  - pose proof (zip_rows_shape (fun (x : bool) c => x && chosen c) _ _ n w (zero_q_shape n w d z H Ez) (ws_ch _ _ _ H)) as Hm. fold (zmask d z) in Hm.
    pose proof (diagnose_spec n w (zmask d z) verbose (bad_zq w d) Hm (fun i j => zmask_cell n w d z i j H Ez)) as Hd.
    assert (Hcell : forall i j, (bad_zq w d i j -> cell (zmask d z) i j = true) /\ (~ bad_zq w d i j -> cell (zmask d z) i j = false)).
    { intros i j. split; intros Hb; [ now apply (zmask_cell n w) | ].
      destruct (cell (zmask d z) i j) eqn:E; [ | easy ]. now apply (zmask_cell n w) in E. }
    destruct (assign_spec n w (zmask d z) 0 (d_ch (base d)) 0 Hm (ws_ch _ _ _ H)) as (oc & Ec & Sc & Cc).
    destruct (diagnose verbose (zmask d z)) as [L|] eqn:Edg.
    + assert (Hex : ~ forall i j, ~ bad_zq w d i j) by (intros Hn; destruct Hd as [(i & j & Hij) _]; now apply (Hn i j)).
      destruct Hr as [ -> | -> ].
      * exists d, (Some L). split; [ easy | ]. split; [ easy | ]. split; [ easy | ]. split; [ easy | easy ].
      * exists (with_ch d oc), (Some L). rewrite Ec. split; [ easy | ]. split; [ easy | ]. split; [ now apply with_ch_shaped | ].
        split; [ easy | ]. exists oc. split; [ easy | ]. intros i j. unfold ch_at. cbn [base with_ch with_base d_ch]. rewrite Cc.
        destruct (Hcell i j) as [H1 H2]. split; intros Hb; [ now rewrite (H1 Hb) | now rewrite (H2 Hb) ].
    + cbn in Hd. exists d, None. split; [ easy | ]. split; [ easy | ]. split; [ easy | ]. split; [ easy | ].
      destruct Hr as [ -> | -> ]; [ easy | ].
      exists (d_ch (base d)). split; [ now destruct d as [[]] | ]. intros i j. split; [ intros Hb; now apply Hd in Hb | easy ].
  - assert (Hn : forall i j, ~ bad_zq w d i j).
    { intros i j (_ & _ & _ & _ & _ & q & Eq & _). unfold zero_q in Ez. rewrite Eq in Ez. discriminate. }
    exists d, None. split; [ easy | ]. split; [ easy | ]. split; [ easy | ]. split; [ easy | ].
    destruct Hr as [ -> | -> ]; [ easy | ].
    exists (d_ch (base d)). split; [ now destruct d as [[]] | ]. intros i j. split; [ intros Hb; now apply Hn in Hb | easy ].
Qed.

(** ** No choice but weight *)
Lemma nothing_iff row : (forall x, In x row -> 0 <= x) -> (nothing row = true <-> forall j, nth j row 0 = 0).
Proof.
  intros Hn. unfold nothing. rewrite Req0_eq. assert (Hf : Forall (fun x => 0 <= x) row) by (now apply Forall_forall). split.
  - intros H j. apply (sum_zero_nonneg row Hf) in H. rewrite Forall_forall in H.
    destruct (Nat.lt_ge_cases j (length row)) as [Hj|Hj]; [ apply H, nth_In, Hj | now apply nth_overflow ].
  - intros H. assert (G : Forall (fun x => x = 0) row).
    { apply Forall_forall. intros x Hx. destruct (In_nth row x 0 Hx) as (j & _ & <-). apply H. }
    clear H Hn Hf. induction G as [|x l -> _ IH]; [ reflexivity | ]. rewrite sum_cons, IH. ring.
Qed.
Definition unchosen_flag (d : dd) (i : nat) : bool := nothing (nth i (d_ch (base d)) []).
Lemma flag_nth n w d wt i : well_shaped n w d -> nonneg_choices d -> d_wt (base d) = Some wt -> (i < n)%nat ->
  (nth i (flag_wt (d_ch (base d)) wt) false = true <-> bad_wt d i).
Proof.
  intros H Hnn Ew Hi. destruct (ws_ch _ _ _ H) as [Hc _]. pose proof (ws_wt _ _ _ H wt Ew) as Hl.
  unfold flag_wt. rewrite (map_combine_nth _ (d_ch (base d)) wt i [] None false) by lia. cbn [fst snd].
  rewrite andb_true_iff, nothing_iff by (intros x Hx; apply (Hnn (nth i (d_ch (base d)) [])); [ apply nth_In; lia | easy ]).
  unfold bad_wt, nothing_chosen, ch_at, at_. split.
  - intros [H1 H2]. split; [ lia | ]. split; [ easy | ]. destruct (nth i wt None) as [v|] eqn:E; [ | discriminate ].
    exists wt, v. cbn in H2. now rewrite Rltb_lt in H2.
  - intros (_ & H1 & wt' & v & E & Ev & Hv). rewrite Ew in E. injection E as <-. split; [ easy | ]. rewrite Ev. cbn. now apply Rltb_lt.
Qed.
Lemma flag_length n w d wt : well_shaped n w d -> d_wt (base d) = Some wt -> length (flag_wt (d_ch (base d)) wt) = n.
Proof.
  intros H Ew. destruct (ws_ch _ _ _ H) as [Hc _]. pose proof (ws_wt _ _ _ H wt Ew). unfold flag_wt. rewrite map_length, combine_length. lia.
Qed.
Lemma ext_row_length r : length (ext_row r) = length r.
Proof. unfold ext_row. destruct (Req0 (sum r)); [ easy | apply map_length ]. Qed.
Lemma ext_row_pos r j : (forall x, In x r -> 0 <= x) ->
  (0 < nth j (ext_row r) 0 <-> 0 < nth j r 0) /\ forall x, In x (ext_row r) -> 0 <= x.
Proof.
  intros Hn. assert (Hs : 0 <= sum r) by (apply sum_nonneg, Forall_forall; easy). unfold ext_row. destruct (Req0 (sum r)) eqn:E; [ easy | ].
  assert (Hp : 0 < sum r). { destruct (Req_EM_T (sum r) 0) as [E0|E0]; [ apply Req0_eq in E0; congruence | lra ]. }
  split.
  - destruct (Nat.lt_ge_cases j (length r)) as [Hj|Hj].
    + rewrite (nth_indep _ 0 (0 / sum r)) by (now rewrite map_length). rewrite (map_nth (fun x => x / sum r) r 0 j).
      split; intros H.
      * assert (0 < nth j r 0 / sum r * sum r) by (now apply Rmult_lt_0_compat).
        replace (nth j r 0 / sum r * sum r) with (nth j r 0) in H0 by (field; lra). easy.
      * now apply Rdiv_lt_0_compat.
    + rewrite !nth_overflow; [ easy | easy | now rewrite map_length ].
  - intros x Hx. apply in_map_iff in Hx as (y & <- & Hy). apply Rmult_le_pos; [ now apply Hn | ]. left. now apply Rinv_0_lt_compat.
Qed.
Lemma base_wf n w d : well_shaped n w d -> well_formed (base d).
Proof.
  intros H. destruct (ws_ch _ _ _ H) as [Hc _]. pose proof (ws_n _ _ _ H). split; [ right; lia | ].
  destruct (d_wt (base d)) as [wt|] eqn:E; [ | easy ]. rewrite (ws_wt _ _ _ H wt E). lia.
Qed.
Lemma base_zero_is_none d : nonneg_choices d -> zero_is_none (base d).
Proof. intros H r Hr. apply sum_zero_nonneg, Forall_forall. intros x Hx. now apply (H r). Qed.
(** Autoscaling keeps the shapes, which alternatives are chosen, and zero weights of cases without a choice. *)
Lemma extract_dd n w d : well_shaped n w d -> nonneg_choices d ->
  well_shaped n w (with_base d (extract (base d))) /\ nonneg_choices (with_base d (extract (base d))) /\
  (forall i j, 0 < ch_at (with_base d (extract (base d))) i j <-> 0 < ch_at d i j) /\
  (forall i wt, (i < n)%nat -> nothing (nth i (d_ch (base d)) []) = true -> d_wt (base d) = Some wt -> nth i wt None = Some 0 ->
     case_weight (extract (base d)) i = Some 0).
Proof.
  intros H Hnn. pose proof (base_wf n w d H) as Hwf. pose proof (ws_n _ _ _ H) as En. pose proof (ws_ch _ _ _ H) as [Hc1 Hc2].
  destruct (first_off (d_ch (base d))) as [k|] eqn:E.
  - pose proof (extract_wf _ Hwf) as [Hw1 Hw2]. rewrite (extract_some (base d) k E) in *. cbn [d_ch d_wt d_n] in *.
    assert (Hrow : forall r, In r (firstn k (d_ch (base d)) ++ map ext_row (skipn k (d_ch (base d)))) ->
              exists r0, In r0 (d_ch (base d)) /\ (r = r0 \/ r = ext_row r0)).
    { intros r Hr. apply in_app_or in Hr as [Hr|Hr].
      - exists r. split; [ rewrite <- (firstn_skipn k (d_ch (base d))); apply in_or_app; now left | now left ].
      - apply in_map_iff in Hr as (r0 & <- & Hr). exists r0. split; [ rewrite <- (firstn_skipn k (d_ch (base d))); apply in_or_app; now right | now right ]. }
    assert (Hlen : length (firstn k (d_ch (base d)) ++ map ext_row (skipn k (d_ch (base d)))) = n).
    { rewrite app_length, map_length, <- app_length, firstn_skipn. easy. }
    split; [ | split; [ | split ] ].
    + constructor; cbn.
      * split; [ easy | ]. intros r Hr. destruct (Hrow r Hr) as (r0 & H0 & [ -> | -> ]); [ | rewrite ext_row_length ]; now apply Hc2.
      * apply H.
      * easy.
      * intros wt Ew. injection Ew as <-. lia.
    + intros r x Hr Hx. cbn in Hr. destruct (Hrow r Hr) as (r0 & H0 & [ -> | -> ]); [ now apply (Hnn r0) | ].
      apply (ext_row_pos r0 0); [ intros y Hy; now apply (Hnn r0) | easy ].
    + intros i j. unfold ch_at, at_. cbn [base with_base d_ch].
      destruct (Nat.lt_ge_cases i n) as [Hi|Hi].
      * pose proof (extract_row (base d) k i Hwf E ltac:(lia)) as Er. rewrite (extract_some (base d) k E) in Er. cbn [d_ch] in Er. rewrite Er.
        destruct (Nat.ltb i k); [ easy | ]. apply ext_row_pos. intros x Hx. apply (Hnn (nth i (d_ch (base d)) [])); [ apply nth_In; lia | easy ].
      * rewrite !(nth_overflow (_ : list (list R))) by lia. easy.
    + intros i wt Hi Hz Ew Ewi. pose proof (extract_weight (base d) k i Hwf E ltac:(lia)) as Er. rewrite (extract_some (base d) k E) in Er. rewrite Er.
      unfold case_weight. rewrite Ew, Ewi. destruct (Nat.ltb i k); [ easy | ]. cbn. f_equal. ring.
  - assert (Ee : extract (base d) = base d) by (unfold extract; now rewrite E). rewrite Ee.
    assert (Ed : with_base d (base d) = d) by (now destruct d). rewrite Ed. split; [ easy | ]. split; [ easy | ]. split; [ easy | ].
    intros i wt Hi Hz Ew Ewi. unfold case_weight. now rewrite Ew.
Qed.
Lemma autoscale_dd n w d wt : well_shaped n w d -> nonneg_choices d -> d_wt (base d) = Some wt ->
  let d' := with_base d (snd (autoscale_weights (base d))) in
  well_shaped n w d' /\ nonneg_choices d' /\ (forall i j, 0 < ch_at d' i j <-> 0 < ch_at d i j) /\
  (forall i, (i < n)%nat -> nothing (nth i (d_ch (base d)) []) = true -> nth i wt None = Some 0 ->
     exists wt', d_wt (base d') = Some wt' /\ nth i wt' None = Some 0).
Proof.
  intros H Hnn Ew. destruct (extract_dd n w d H Hnn) as (H1 & H2 & H3 & H4). unfold autoscale_weights.
  destruct (d_wt (extract (base d))) as [we|] eqn:E.
  - cbn [snd]. split; [ | split; [ | split ] ].
    + constructor; cbn; [ apply H1 | apply H | rewrite extract_n; apply H | ]. intros wt' Ex. injection Ex as <-. rewrite map_length.
      apply (ws_wt _ _ _ H1). easy.
    + exact H2.
    + exact H3.
    + intros i Hi Hz Ewi. exists (map (option_map (fun w0 => w0 / (osum we / INR (d_n (extract (base d)))))) we). split; [ reflexivity | ].
      specialize (H4 i wt Hi Hz Ew Ewi). unfold case_weight in H4. rewrite E in H4. rewrite nth_omap, H4. cbn. f_equal. unfold Rdiv. ring.
  - exfalso. unfold extract in E. destruct (first_off (d_ch (base d))); [ discriminate | congruence ].
Qed.
Lemma zero_wt_nth n w d wt i : well_shaped n w d -> d_wt (base d) = Some wt -> (i < n)%nat ->
  nth i (zero_wt (d_ch (base d)) wt) None = if nothing (nth i (d_ch (base d)) []) then Some 0 else nth i wt None.
Proof.
  intros H Ew Hi. destruct (ws_ch _ _ _ H) as [Hc _]. pose proof (ws_wt _ _ _ H wt Ew). unfold zero_wt.
  rewrite (map_combine_nth _ (d_ch (base d)) wt i [] None None) by lia. easy.
Qed.
Lemma zero_wt_shaped n w d wt : well_shaped n w d -> d_wt (base d) = Some wt ->
  well_shaped n w (with_wt d (Some (zero_wt (d_ch (base d)) wt))).
Proof.
  intros H Ew. constructor; cbn; [ apply H | apply H | apply H | ]. intros wt' E. injection E as <-.
  destruct (ws_ch _ _ _ H) as [Hc _]. pose proof (ws_wt _ _ _ H wt Ew). unfold zero_wt. rewrite map_length, combine_length. lia.
Qed.
Lemma nothing_not_chosen d i : nonneg_choices d -> (i < length (d_ch (base d)))%nat ->
  (nothing_chosen d i <-> forall j, ~ 0 < ch_at d i j).
Proof.
  intros Hnn Hi. unfold nothing_chosen. split; intros H j; specialize (H j); [ lra | ].
  assert (0 <= ch_at d i j); [ | lra ]. unfold ch_at, at_.
  destruct (Nat.lt_ge_cases j (length (nth i (d_ch (base d)) []))) as [Hj|Hj]; [ | rewrite nth_overflow by easy; lra ].
  apply (Hnn (nth i (d_ch (base d)) [])); now apply nth_In.
Qed.
Definition no_bad_wt (d : dd) : Prop := forall i, ~ bad_wt d i.
Lemma noch_spec r verbose n w d : r <> Plus -> well_shaped n w d -> nonneg_choices d ->
  exists d' diag, nothing_chosen_but_nonzero_weight r verbose d = Some (d', diag) /\
    lists_rows verbose n (bad_wt d) diag /\ well_shaped n w d' /\ nonneg_choices d' /\
    av d' = av d /\ qty d' = qty d /\ has_row d' = has_row d /\ co d' = co d /\
    (forall i j, 0 < ch_at d' i j <-> 0 < ch_at d i j) /\
    (no_bad_wt d -> d' = d) /\ (r <> Keep -> no_bad_wt d') /\ (r = Keep -> d' = d) /\
    (r = Minus -> forall i, (i < n)%nat -> ch_at d' i = ch_at d i /\
       (bad_wt d i -> wt_at d' i = Some 0) /\ (~ nothing_chosen d i -> wt_at d' i = wt_at d i)) /\
    (r = Star -> (exists i, bad_wt d i) -> exists d0 x, nothing_chosen_but_nonzero_weight Minus verbose d = Some (d0, x) /\
       base d' = snd (autoscale_weights (base d0))).
Proof.
  intros Hr H Hnn. destruct (ws_ch _ _ _ H) as [Hc Hc2]. unfold nothing_chosen_but_nonzero_weight.
  destruct (d_wt (base d)) as [wt|] eqn:Ew.
  2:{ assert (Hn : no_bad_wt d) by (intros i (_ & _ & wt & v & E & _); congruence).
      exists d, None. do 12 (split; [ easy | ]). split; [ | intros _ (i & Hi); now apply Hn in Hi ].
      intros _ i Hi. split; [ easy | ]. split; [ | easy ]. intros Hb. now apply Hn in Hb. }
  pose proof (flag_length n w d wt H Ew) as Hfl.
  set (rows := filter (fun i => nth i (flag_wt (d_ch (base d)) wt) false) (seq 0 (length (flag_wt (d_ch (base d)) wt)))).
  assert (Hrows : forall i, In i rows <-> (i < n)%nat /\ bad_wt d i).
  { intros i. unfold rows. rewrite filter_In, in_seq, Hfl. split.
    - intros [H1 H2]. split; [ lia | ]. apply (flag_nth n w d wt i H Hnn Ew); [ lia | easy ].
    - intros [H1 H2]. split; [ lia | ]. now apply (flag_nth n w d wt i H Hnn Ew). }
  assert (Hbn : forall i, bad_wt d i -> (i < n)%nat) by (intros i [Hi _]; lia).
  assert (Hlist : rows = [] -> no_bad_wt d).
  { intros E i Hi. assert (Hin : In i rows) by (apply Hrows; auto). now rewrite E in Hin. }
  set (d0 := with_wt d (Some (zero_wt (d_ch (base d)) wt))).
  assert (Hs0 : well_shaped n w d0) by (now apply zero_wt_shaped).
  assert (Hn0 : nonneg_choices d0) by exact Hnn.
  assert (Hz0 : forall i, (i < n)%nat -> nothing_chosen d i -> nothing (nth i (d_ch (base d)) []) = true).
  { intros i Hi Hno. apply nothing_iff; [ | exact Hno ]. intros x Hx. apply (Hnn (nth i (d_ch (base d)) [])); [ apply nth_In; lia | easy ]. }
  destruct rows as [|i0 rs] eqn:Erows.
  - assert (Hn : no_bad_wt d) by (now apply Hlist). exists d, None. do 12 (split; [ easy | ]). split; [ | intros _ (i & Hi); now apply Hn in Hi ].
    intros _ i Hi. split; [ easy | ]. split; [ | easy ]. intros Hb. now apply Hn in Hb.
  - assert (Hex : ~ no_bad_wt d). { intros Hn. apply (Hn i0). apply Hrows. now left. }
    assert (Hdiag : lists_rows verbose n (bad_wt d) (Some (length (i0 :: rs), firstn verbose (i0 :: rs)))).
    { split; [ cbn; lia | ]. exists (i0 :: rs). split; [ easy | ]. split; [ rewrite <- Erows; apply filter_seq_nodup | ].
      split; [ rewrite <- Erows; apply filter_seq_sorted | easy ]. }
    assert (H0bad : no_bad_wt d0).
    { intros i (Hi & Hno & wt' & v & E & Ev & Hv). cbn in Hi, E. injection E as <-. rewrite (zero_wt_nth n w d wt i H Ew) in Ev by lia.
      rewrite (Hz0 i ltac:(lia) Hno) in Ev. injection Ev as <-. lra. }
    destruct r; [ | easy | | ].
    + exists d, (Some (length (i0 :: rs), firstn verbose (i0 :: rs))). repeat (split; [ easy | ]). easy.
    + exists d0, (Some (length (i0 :: rs), firstn verbose (i0 :: rs))). split; [ easy | ]. split; [ easy | ]. split; [ easy | ].
      split; [ easy | ]. repeat (split; [ easy | ]). split; [ | easy ]. intros _ i Hi. split; [ easy | ].
      unfold wt_at. cbn [base d0 with_wt with_base d_wt]. rewrite (zero_wt_nth n w d wt i H Ew Hi), Ew. split.
      * intros (_ & Hno & _). now rewrite (Hz0 i Hi Hno).
      * intros Hno. destruct (nothing (nth i (d_ch (base d)) [])) eqn:E; [ | easy ]. exfalso. apply Hno.
        intros j. unfold ch_at, at_. apply nothing_iff; [ | easy ]. intros x Hx. apply (Hnn (nth i (d_ch (base d)) [])); [ apply nth_In; lia | easy ].
    + destruct (autoscale_dd n w d0 (zero_wt (d_ch (base d)) wt) Hs0 Hn0 eq_refl) as (S1 & S2 & S3 & S4).
      eexists. exists (Some (length (i0 :: rs), firstn verbose (i0 :: rs))). split; [ reflexivity | ]. split; [ easy | ]. split; [ exact S1 | ].
      split; [ exact S2 | ]. do 4 (split; [ easy | ]). split; [ exact S3 | ]. split; [ easy | ]. split.
      * intros _ i (Hi & Hno & wt' & v & E & Ev & Hv). destruct (ws_ch _ _ _ S1) as [Hl _]. rewrite Hl in Hi.
        assert (Hnod : nothing_chosen d i).
        { apply nothing_not_chosen; [ easy | lia | ]. intros j Hj. apply S3 in Hj. specialize (Hno j). rewrite Hno in Hj. lra. }
        destruct (S4 i Hi (Hz0 i Hi Hnod)) as (wt2 & E2 & Ew2).
        { rewrite (zero_wt_nth n w d wt i H Ew Hi). now rewrite (Hz0 i Hi Hnod). }
        rewrite E2 in E. injection E as <-. rewrite Ew2 in Ev. injection Ev as <-. lra.
      * split; [ easy | ]. split; [ easy | ]. intros _ _. exists d0. eexists. split; [ reflexivity | easy ].
Qed.

(** ** NaN *)

(** ** NaN *)
Lemma fillna_some x : fillna x <> None.
Proof. now destruct x. Qed.
Lemma map_fillna_id l : (forall i, (i < length l)%nat -> nth i l None <> None) -> map fillna l = l.
Proof.
  induction l as [|x l IH]; intros H; [ easy | ]. cbn [map]. rewrite IH; [ | intros i Hi; apply (H (S i)); cbn; lia ].
  specialize (H 0%nat ltac:(cbn; lia)). cbn in H. now destruct x.
Qed.
Lemma nan_weight_spec fix_it verbose n w d : well_shaped n w d ->
  exists d' diag, nan_weight fix_it verbose d = (d', diag) /\
    lists_rows verbose n (bad_nanwt d) diag /\ well_shaped n w d' /\
    d_ch (base d') = d_ch (base d) /\ av d' = av d /\ qty d' = qty d /\ has_row d' = has_row d /\ co d' = co d /\
    ((forall i, ~ bad_nanwt d i) -> d' = d) /\ (fix_it = false -> d' = d) /\ (fix_it = true -> forall i, ~ bad_nanwt d' i) /\
    (forall i v, wt_at d' i = Some v -> wt_at d i = Some v \/ bad_nanwt d i /\ v = 0) /\
    (d_wt (base d') = None <-> d_wt (base d) = None).
Proof.
  intros H. unfold nan_weight. destruct (d_wt (base d)) as [wt|] eqn:Ew.
  2:{ exists d, None. split; [ easy | ]. assert (Hn : forall i, ~ bad_nanwt d i) by (intros i (wt & E & _); congruence).
      do 10 (split; [ first [ easy | exact Hn | intros; apply Hn ] | ]). split; [ intros i v E; now left | tauto ]. }
  pose proof (ws_wt _ _ _ H wt Ew) as Hl.
  assert (Hbad : forall i, bad_nanwt d i <-> (i < n)%nat /\ nth i wt None = None).
  { intros i. unfold bad_nanwt. split.
    - intros (wt' & E & H1 & H2). rewrite Ew in E. injection E as <-. split; [ lia | easy ].
    - intros [H1 H2]. exists wt. split; [ easy | ]. split; [ lia | easy ]. }
  set (rows := filter (fun i => isnan (nth i wt (Some 0))) (seq 0 (length wt))).
  assert (Hrows : forall i, In i rows <-> (i < n)%nat /\ bad_nanwt d i).
  { intros i. unfold rows. rewrite filter_In, in_seq, Hbad. split.
    - intros [H1 H2]. split; [ lia | ]. split; [ lia | ]. rewrite (nth_indep _ (Some 0) None) in H2 by lia. now destruct (nth i wt None).
    - intros (H1 & _ & H2). split; [ lia | ]. rewrite (nth_indep _ (Some 0) None) by lia. now rewrite H2. }
  exists (if fix_it then with_wt d (Some (map fillna wt)) else d), (match rows with [] => None | _ => Some (length rows, firstn verbose rows) end).
  split; [ easy | ]. split; [ | split; [ | do 5 (split; [ now destruct fix_it | ]); split; [ | split; [ now intros -> | split; [ | split ] ] ] ] ].
  - destruct rows as [|i0 rs] eqn:E.
    + intros i Hi. assert (Hin : In i []) by (apply Hrows; split; [ apply Hbad in Hi; easy | easy ]). easy.
    + split; [ cbn; lia | ]. exists (i0 :: rs). split; [ easy | ]. split; [ rewrite <- E; apply filter_seq_nodup | ]. split; [ rewrite <- E; apply filter_seq_sorted | easy ].
  - destruct fix_it; [ | easy ]. constructor; cbn; try apply H. intros wt' E. injection E as <-. now rewrite map_length.
  - intros Hn. destruct fix_it; [ | easy ]. rewrite map_fillna_id.
    + destruct d as [[]]; cbn in *. unfold with_wt, with_base; cbn. now rewrite Ew.
    + intros i Hi E. apply (Hn i), Hbad. split; [ lia | easy ].
  - intros -> i (wt' & E & H1 & H2). cbn in E. injection E as <-. rewrite map_length in H1.
    rewrite (nth_indep _ None (fillna None)) in H2 by (now rewrite map_length). rewrite map_nth in H2. now apply fillna_some in H2.
  - intros i v. destruct fix_it; [ | intros E; now left ]. unfold wt_at. cbn [base with_wt with_base d_wt]. rewrite Ew.
    destruct (Nat.lt_ge_cases i n) as [Hi|Hi].
    + rewrite (nth_indep _ None (fillna None)) by (rewrite map_length; lia). rewrite map_nth.
      destruct (nth i wt None) as [u|] eqn:E; cbn; intros E2; injection E2 as <-; [ now left | right ]. split; [ now apply Hbad | easy ].
    + rewrite nth_overflow by (rewrite map_length; lia). discriminate.
  - destruct fix_it; cbn; [ split; [ discriminate | congruence ] | rewrite Ew; split; congruence ].
Qed.
Lemma nan_co_spec fix_it verbose d : co_shaped d ->
  exists d' diag, nan_data_co fix_it verbose d = (d', diag) /\
    (verbose <> 0%nat -> forall L, diag = Some L -> L <> []) /\ (diag = None <-> forall i j, ~ bad_nanco d i j) /\
    base d' = base d /\ av d' = av d /\ qty d' = qty d /\ has_row d' = has_row d /\
    ((forall i j, ~ bad_nanco d i j) -> d' = d) /\ (fix_it = false -> d' = d) /\ (fix_it = true -> forall i j, ~ bad_nanco d' i j).
Proof.
  intros H. unfold nan_data_co. destruct (co d) as [rows|] eqn:Ec.
  2:{ exists d, None. assert (Hn : forall i j, ~ bad_nanco d i j) by (intros i j (rows & E & _); congruence). repeat (split; [ easy | ]). easy. }
  destruct (H rows Ec) as (k & _ & Hk).
  set (cols := filter (fun j => negb (Nat.eqb (nan_count j rows) 0)) (seq 0 (length (hd [] rows)))).
  assert (Hcount : forall j, nan_count j rows <> 0%nat <-> exists i, bad_nanco d i j).
  { intros j. unfold nan_count. split.
    - intros Hn. destruct (filter _ rows) as [|r rs] eqn:E; [ easy | ].
      assert (Hin : In r (filter (fun r => isnan (nth j r (Some 0))) rows)) by (rewrite E; now left).
      apply filter_In in Hin as [Hin Hnan]. destruct (In_nth rows r [] Hin) as (i & Hi & <-). exists i, rows. split; [ easy | ]. split; [ easy | ].
      unfold at_. now destruct (nth j (nth i rows []) (Some 0)).
    - intros (i & rows' & E & Hi & Hnan). rewrite Ec in E. injection E as <-. unfold at_ in Hnan.
      assert (Hin : In (nth i rows []) (filter (fun r => isnan (nth j r (Some 0))) rows)).
      { apply filter_In. split; [ now apply nth_In | ]. now rewrite Hnan. }
      destruct (filter _ rows); [ easy | cbn; lia ]. }
  assert (Hcols : forall j, In j cols <-> exists i, bad_nanco d i j).
  { intros j. unfold cols. rewrite filter_In, in_seq, negb_true_iff, Nat.eqb_neq, Hcount. split; [ tauto | ]. intros Hb. split; [ | easy ].
    destruct Hb as (i & rows' & E & Hi & Hnan). rewrite Ec in E. injection E as <-. unfold at_ in Hnan.
    destruct (Nat.lt_ge_cases j (length (nth i rows []))) as [Hj|Hj]; [ | rewrite nth_overflow in Hnan by easy; discriminate ].
    rewrite (Hk (nth i rows [])) in Hj by (now apply nth_In). destruct rows as [|r0 rs]; [ cbn in Hi; lia | ]. cbn [hd]. rewrite (Hk r0) by now left. lia. }
  exists (if fix_it then with_co d (Some (map (map fillna) rows)) else d),
    (match cols with [] => None | _ => Some (firstn verbose (map (fun j => (j, nan_count j rows)) cols)) end).
  split; [ easy | ]. split; [ | split; [ | do 4 (split; [ now destruct fix_it | ]); split; [ | split; [ now intros -> | ] ] ] ].
  - intros Hv L E. destruct cols as [|c cs]; [ discriminate | ]. injection E as <-. destruct verbose; [ easy | ]. discriminate.
  - destruct cols as [|c cs] eqn:E.
    + split; [ | easy ]. intros _ i j Hb. assert (Hin : In j []) by (apply Hcols; eauto). easy.
    + split; [ discriminate | ]. intros Hn. destruct (proj1 (Hcols c) (or_introl eq_refl)) as (i & Hi). now apply Hn in Hi.
  - intros Hn. destruct fix_it; [ | easy ]. assert (E : map (map fillna) rows = rows).
    { rewrite <- (map_id rows) at 2. apply map_ext_in. intros r Hr. apply map_fillna_id. intros j Hj E.
      destruct (In_nth rows r [] Hr) as (i & Hi & <-). apply (Hn i j). exists rows. split; [ easy | ]. split; [ easy | ]. unfold at_.
      now rewrite (nth_indep _ (Some 0) None) by easy. }
    rewrite E. destruct d; cbn in *. unfold with_co; cbn. now rewrite Ec.
  - intros -> i j (rows' & E & Hi & Hnan). cbn in E. injection E as <-. unfold at_ in Hnan. rewrite map_length in Hi.
    rewrite (nth_indep _ [] (map fillna [])) in Hnan by (now rewrite map_length). rewrite map_nth in Hnan.
    destruct (Nat.lt_ge_cases j (length (nth i rows []))) as [Hj|Hj].
    + rewrite (nth_indep _ (Some 0) (fillna None)) in Hnan by (now rewrite map_length). rewrite map_nth in Hnan. now apply fillna_some in Hnan.
    + rewrite nth_overflow in Hnan by (now rewrite map_length). discriminate.
Qed.

(** ** The doctor *)
Lemma hd_len n w (c : list (list R)) : shape n w c -> length (hd [] c) = if Nat.eqb n 0 then 0%nat else w.
Proof. intros [H1 H2]. destruct c as [|r c]; cbn in H1; subst n; [ easy | ]. cbn. apply H2. now left. Qed.
Lemma wide_same g n w d d' : well_shaped n w d -> well_shaped n w d' -> wide g d' = wide g d.
Proof.
  intros H H'. unfold wide. destruct g as [[e k]|]; [ | easy ]. now rewrite (hd_len n w _ (ws_ch _ _ _ H)), (hd_len n w _ (ws_ch _ _ _ H')).
Qed.
Lemma bad_av_dec w d i j : {bad_av w d i j} + {~ bad_av w d i j}.
Proof.
  unfold bad_av. destruct (lt_dec i (length (d_ch (base d)))); [ | right; tauto ]. destruct (lt_dec j w); [ | right; tauto ].
  destruct (Z.eq_dec (av_at d i j) 0); [ | right; tauto ]. destruct (Rlt_dec 0 (ch_at d i j)); [ left | right ]; tauto.
Qed.
Lemma bad_zq_dec n w d i j : well_shaped n w d -> {bad_zq w d i j} + {~ bad_zq w d i j}.
Proof.
  intros H. destruct (zero_q d) as [z|] eqn:E.
  - destruct (cell (zmask d z) i j) eqn:Ec; [ left; now apply (zmask_cell n w d z) | right ].
    intros Hb. apply (zmask_cell n w d z) in Hb; [ congruence | easy | easy ].
  - right. intros (_ & _ & _ & _ & _ & q & Eq & _). unfold zero_q in E. rewrite Eq in E. discriminate.
Qed.
