From Coq Require Import FunctionalExtensionality Permutation Sorted.
From Verif Require Export SessProofs.
From Verif Require Import LogitProofs LogitRun.

(** ---- what an operation does to the memory ---- *)
(** The kernel call an operation makes, if any. *)
Definition call_flags (o : op) : option flags :=
  match o with OCall q _ _ => Some (flags_of q) | OTolerance _ => Some (mkF 0 false true true) | _ => None end.
Lemma step_heap m s o g i : (g <= v_gen s)%nat -> let s' := fst (step m s o) in
  (v_gen s <= v_gen s')%nat /\
  (v_heap s' g i = v_heap s g i \/
   (g = v_gen s /\ exists f, call_flags o = Some f /\
     w_util (v_heap s' g i) = w_util (kern (m_x m) (par_after (v_par s) o) f (m_case m i) (v_heap s g i)) /\
     w_prob (v_heap s' g i) = w_prob (kern (m_x m) (par_after (v_par s) o) f (m_case m i) (v_heap s g i)))).
Proof.
  intros Hg s'. unfold s'. destruct o as [v|k| |x|q x sl]; simpl; auto.
  - split; [lia|]. left. rewrite upd_neq by lia. auto.
  - set (par := match x with Some v => v | None => v_par s end).
    split; [lia|]. destruct (Nat.eq_dec g (v_gen s)) as [-> |Hn]; [|left; rewrite upd_neq by auto; auto].
    rewrite upd_eq. set (idx := seq 0 (m_n m)). set (f := mkF 0 false true true).
    assert (Hd : NoDup idx) by apply seq_NoDup.
    destruct (in_dec Nat.eq_dec i idx) as [Hi|Hi].
    + right. split; auto. exists f. split; auto. unfold run_rows. destruct (Req_EM_T (v_int s) 0).
      * rewrite (fold_rows (fun i w => kern (m_x m) par f (m_case m i) w)) by auto. destruct (in_dec Nat.eq_dec i idx); tauto.
      * destruct (m_pen m (v_int s) par) as [[pen d] b].
        rewrite (fold_rows (fun _ w => penal pen b w)) by auto.
        rewrite (fold_rows (fun i w => kern (m_x m) par f (m_case m i) w)) by auto.
        destruct (in_dec Nat.eq_dec i idx); [simpl; auto|tauto].
    + left. unfold run_rows. destruct (Req_EM_T (v_int s) 0).
      * rewrite (fold_rows (fun i w => kern (m_x m) par f (m_case m i) w)) by auto. destruct (in_dec Nat.eq_dec i idx); tauto.
      * destruct (m_pen m (v_int s) par) as [[pen d] b].
        rewrite (fold_rows (fun _ w => penal pen b w)) by auto.
        rewrite (fold_rows (fun i w => kern (m_x m) par f (m_case m i) w)) by auto.
        destruct (in_dec Nat.eq_dec i idx); tauto.
  - destruct (runner m s x (flags_of q) sl) as [s1 [idx|]] eqn:E; simpl.
    + destruct (runner_rows _ _ _ _ _ _ _ E) as (Hp & Hpar & Hint & Hgen & Hoth & HW).
      split; [lia|]. destruct (Nat.eq_dec g (v_gen s)) as [-> |Hn]; [|left; rewrite Hoth by auto; auto].
      specialize (HW i). unfold v_work in HW. rewrite Hgen in HW. rewrite HW.
      destruct (in_dec Nat.eq_dec i idx); [|left; auto]. right. split; auto. exists (flags_of q). split; auto.
      unfold row_after. destruct (Req_EM_T (v_int s) 0); simpl; auto.
    + apply runner_error in E as [_ ->]. simpl. auto.
Qed.

Section Views.
Variable m : nmodel.
Variable kids : nat -> list nat.
Hypothesis T : tree_slots (x_st (m_x m)) kids.

(** A property of one memory cell that every operation of a list keeps. *)
Lemma after_keeps (Q : nat -> wcase -> Prop) (ok : (nat -> R) -> op -> Prop) g ops :
  (forall par o f i w, ok par o -> call_flags o = Some f -> Q i w -> forall w',
     w_util w' = w_util (kern (m_x m) (par_after par o) f (m_case m i) w) ->
     w_prob w' = w_prob (kern (m_x m) (par_after par o) f (m_case m i) w) -> Q i w') ->
  forall s, (g <= v_gen s)%nat ->
  (forall pre o post, ops = pre ++ o :: post -> ok (fold_left par_after pre (v_par s)) o) ->
  forall i, Q i (v_heap s g i) -> Q i (v_heap (after m s ops) g i).
Proof.
  intros K. induction ops as [|o ops IH]; intros s Hg Hok i Hi; auto.
  unfold after in *. simpl.
  destruct (step_heap m s o g i Hg) as [H1 H2]. assert (Hs := step_expected m kids T s o).
  destruct (step m s o) as [s' r]. simpl in *. destruct Hs as (_ & Hp & _).
  apply IH; [lia| |].
  - intros pre o' post E. rewrite Hp. apply (Hok (o :: pre) o' post). rewrite E. auto.
  - destruct H2 as [-> |(-> & f & Hf & Hu & Hpr)]; auto.
    apply (K (v_par s) o f i (v_heap s (v_gen s) i)); auto. apply (Hok [] o ops). auto.
Qed.
Lemma after_gen ops : forall s, (v_gen s <= v_gen (after m s ops))%nat.
Proof.
  induction ops as [|o ops IH]; intros s; [simpl; lia|]. unfold after in *. simpl.
  destruct (step_heap m s o 0 0) as [H _]; [lia|]. specialize (IH (fst (step m s o))). lia.
Qed.
Lemma old_memory g ops : forall s i, (g < v_gen s)%nat -> v_heap (after m s ops) g i = v_heap s g i.
Proof.
  induction ops as [|o ops IH]; intros s i Hg; auto. unfold after in *. simpl.
  destruct (step_heap m s o g i) as [H1 H2]; [lia|]. rewrite IH by lia. destruct H2 as [H2|[H2 _]]; auto. lia.
Qed.
End Views.

(** ---- slices ---- *)
Lemma slice_end_limit n v : slice_end n false v = limit n v.
Proof.
  unfold slice_end, limit. destruct (Z.ltb_spec v 0); [destruct (Z.ltb_spec (v + Z.of_nat n) 0)|destruct (Z.leb_spec (Z.of_nat n) v)]; lia.
Qed.
Lemma limit_range n v : (0 <= limit n v <= Z.of_nat n)%Z.
Proof. unfold limit. lia. Qed.
(** Both ends, forwards. *)
Definition lo_of n s := match s_start s with Some v => limit n v | None => 0%Z end.
Definition hi_of n s := match s_stop s with Some v => limit n v | None => Z.of_nat n end.
Definition step_of s := match s_step s with Some z => z | None => 1%Z end.
Lemma positions_fwd n s : (0 < step_of s)%Z ->
  positions n s = Some (map (fun i => Z.to_nat (lo_of n s + Z.of_nat i * step_of s))
    (seq 0 (Z.to_nat (if (lo_of n s <? hi_of n s)%Z then (hi_of n s - lo_of n s - 1) / step_of s + 1 else 0)%Z))).
Proof.
  intros H. unfold positions. fold (step_of s).
  destruct (Z.eqb_spec (step_of s) 0); [lia|]. replace (step_of s <? 0)%Z with false by (symmetry; apply Z.ltb_ge; lia).
  assert (E1 : (match s_start s with Some v => slice_end n false v | None => 0%Z end) = lo_of n s).
  { unfold lo_of. destruct (s_start s); auto. apply slice_end_limit. }
  assert (E2 : (match s_stop s with Some v => slice_end n false v | None => Z.of_nat n end) = hi_of n s).
  { unfold hi_of. destruct (s_stop s); auto. apply slice_end_limit. }
  cbv zeta. rewrite E1, E2. auto.
Qed.
Lemma lo_range n s : (0 <= lo_of n s <= Z.of_nat n)%Z.
Proof. unfold lo_of. destruct (s_start s); [apply limit_range|lia]. Qed.
Lemma hi_range n s : (0 <= hi_of n s <= Z.of_nat n)%Z.
Proof. unfold hi_of. destruct (s_stop s); [apply limit_range|lia]. Qed.
Lemma positions_selected n s : (0 < step_of s)%Z -> exists idx, positions n s = Some idx /\
  StronglySorted lt idx /\ forall i, In i idx <-> selected n s i.
Proof.
  intros H. rewrite (positions_fwd n s H). eexists. split; [reflexivity|].
  assert (L := lo_range n s). assert (Hh := hi_range n s).
  set (a := lo_of n s) in *. set (b := hi_of n s) in *. set (st := step_of s) in *.
  set (len := Z.to_nat _). split.
  - assert (G : forall k j, StronglySorted lt (map (fun i => Z.to_nat (a + Z.of_nat i * st)) (seq j k))).
    { induction k as [|k IH]; intros j; simpl; constructor; auto.
      apply Forall_forall. intros y Hy. apply in_map_iff in Hy as [i [<- Hi]]. apply in_seq in Hi.
      assert (Z.of_nat j * st < Z.of_nat i * st)%Z by (apply Z.mul_lt_mono_pos_r; lia). nia. }
    apply G.
  - intros i. unfold selected. fold (step_of s). fold st.
    change (match s_start s with Some v => limit n v | None => 0%Z end) with a.
    change (match s_stop s with Some v => limit n v | None => Z.of_nat n end) with b.
    rewrite in_map_iff. split.
    + intros [j [<- Hj]]. apply in_seq in Hj. unfold len in Hj. destruct (Z.ltb_spec a b) as [Hab|]; [|simpl in Hj; lia].
      assert (Hq := Z.mul_div_le (b - a - 1) st ltac:(lia)).
      assert (Z.of_nat j <= (b - a - 1) / st)%Z by lia.
      assert (st * Z.of_nat j <= st * ((b - a - 1) / st))%Z by (apply Z.mul_le_mono_nonneg_l; lia).
      assert (0 <= Z.of_nat j * st)%Z by (apply Z.mul_nonneg_nonneg; lia).
      rewrite Z2Nat.id by lia. split; [lia|].
      replace (a + Z.of_nat j * st - a)%Z with (Z.of_nat j * st)%Z by lia. apply Z.mod_mul. lia.
    + intros [[H1 H2] H3]. apply Z.mod_divide in H3; [|lia]. destruct H3 as [j Hj].
      assert (Hj0 : (0 <= j)%Z) by nia.
      exists (Z.to_nat j). rewrite Z2Nat.id by lia. split; [lia|]. apply in_seq. split; [lia|].
      unfold len. destruct (Z.ltb_spec a b); [|lia].
      assert (j <= (b - a - 1) / st)%Z by (apply Z.div_le_lower_bound; lia). lia.
Qed.
Lemma sorted_unique l1 : forall l2, StronglySorted lt l1 -> StronglySorted lt l2 ->
  (forall i, In i l1 <-> In i l2) -> l1 = l2.
Proof.
  induction l1 as [|x l1 IH]; intros [|y l2] H1 H2 E; auto.
  - destruct (proj2 (E y)). left; auto.
  - destruct (proj1 (E x)). left; auto.
  - inversion_clear H1 as [|? ? S1 F1]. inversion_clear H2 as [|? ? S2 F2].
    rewrite Forall_forall in F1, F2.
    assert (x = y).
    { destruct (proj1 (E x) (or_introl eq_refl)) as [|Hx]; auto. destruct (proj2 (E y) (or_introl eq_refl)) as [|Hy]; auto.
      specialize (F1 _ Hy). specialize (F2 _ Hx). lia. }
    subst y. f_equal. apply IH; auto. intros i. split; intros Hi.
    + destruct (proj1 (E i) (or_intror Hi)) as [<- |]; auto. specialize (F1 _ Hi). lia.
    + destruct (proj2 (E i) (or_intror Hi)) as [<- |]; auto. specialize (F2 _ Hi). lia.
Qed.
Lemma seq_sorted k : forall j, StronglySorted lt (seq j k).
Proof.
  induction k as [|k IH]; intros j; simpl; constructor; auto. apply Forall_forall. intros y Hy. apply in_seq in Hy. lia.
Qed.
Lemma positions_all n : positions n null_slice = Some (seq 0 n).
Proof.
  destruct (positions_selected n null_slice) as (idx & E & S1 & M); [reflexivity|]. rewrite E. f_equal.
  apply sorted_unique; auto; [apply seq_sorted|]. intros i. rewrite M, in_seq. unfold selected. simpl. rewrite Z.mod_1_r. lia.
Qed.
Lemma positions_cut n z : exists l1 l2,
  positions n (mkS None (Some z) None) = Some l1 /\ positions n (mkS (Some z) None None) = Some l2 /\ l1 ++ l2 = seq 0 n.
Proof.
  destruct (positions_selected n (mkS None (Some z) None)) as (l1 & E1 & S1 & M1); [reflexivity|].
  destruct (positions_selected n (mkS (Some z) None None)) as (l2 & E2 & S2 & M2); [reflexivity|].
  exists l1, l2. split; auto. split; auto.
  assert (Q1 : l1 = seq 0 (Z.to_nat (limit n z))).
  { apply sorted_unique; auto; [apply seq_sorted|]. intros i. rewrite M1, in_seq. unfold selected. simpl. rewrite Z.mod_1_r.
    assert (R1 := limit_range n z). lia. }
  assert (Q2 : l2 = seq (Z.to_nat (limit n z)) (n - Z.to_nat (limit n z))).
  { apply sorted_unique; auto; [apply seq_sorted|]. intros i. rewrite M2, in_seq. unfold selected. simpl. rewrite Z.mod_1_r.
    assert (R1 := limit_range n z). lia. }
  rewrite Q1, Q2. assert (R1 := limit_range n z).
  assert (E : n = (Z.to_nat (limit n z) + (n - Z.to_nat (limit n z)))%nat) by lia.
  transitivity (seq 0 (Z.to_nat (limit n z) + (n - Z.to_nat (limit n z)))); [rewrite seq_app; auto|f_equal; lia].
Qed.
Lemma NoDup_app_intro {A} (l1 l2 : list A) : NoDup l1 -> NoDup l2 -> (forall x, In x l1 -> ~ In x l2) -> NoDup (l1 ++ l2).
Proof.
  induction 1 as [|x l1 Hn Hd IH]; intros H2 H; simpl; auto. constructor.
  - rewrite in_app_iff. intros [K|K]; [auto|]. apply (H x); simpl; auto.
  - apply IH; auto. intros y Hy. apply H. right. auto.
Qed.
(** Every [k]th case, from the [j]th. *)
Definition comb (k j : nat) : pyslice := mkS (Some (Z.of_nat j)) None (Some (Z.of_nat k)).
Lemma comb_selected n k j i : (j < k)%nat -> selected n (comb k j) i <-> (i < n)%nat /\ (i mod k)%nat = j.
Proof.
  intros Hj. unfold selected, comb. simpl. unfold limit. destruct (Z.ltb_spec (Z.of_nat j) 0); [lia|].
  assert (Hk : k <> 0%nat) by lia.
  assert (Em := Nat2Z.inj_mod i k).
  split.
  - intros [[H1 H2] H3]. assert (j <= n)%nat by lia. rewrite Z.min_r, Z.max_r in H3 by lia.
    split; [lia|]. apply Z.mod_divide in H3; [|lia]. destruct H3 as [c Hc].
    assert (0 <= c)%Z by nia.
    symmetry. apply (Nat.mod_unique i k (Z.to_nat c) j); auto. nia.
  - intros [H1 H2]. subst j. assert (i mod k <= i)%nat by (apply Nat.mod_le; auto). split; [lia|].
    rewrite Z.min_r, Z.max_r by lia. rewrite Em.
    rewrite Zminus_mod, Z.mod_mod, Z.sub_diag by lia. apply Z.mod_0_l. lia.
Qed.
Lemma comb_cover n k : (0 < k)%nat -> exists idxs,
  map (positions n) (map (comb k) (seq 0 k)) = map Some idxs /\ Permutation (concat idxs) (seq 0 n).
Proof.
  intros Hk.
  assert (G : forall js, NoDup js -> (forall j, In j js -> (j < k)%nat) -> exists idxs,
    map (positions n) (map (comb k) js) = map Some idxs /\ NoDup (concat idxs) /\
    forall i, In i (concat idxs) <-> (i < n)%nat /\ In (i mod k)%nat js).
  { induction 1 as [|j js Hn Hd IH]; intros Hj.
    - exists []. simpl. split; auto. split; [constructor|]. intros i. tauto.
    - destruct IH as (idxs & E & ND & M). { intros. apply Hj. right. auto. }
      destruct (positions_selected n (comb k j)) as (idx & E1 & S1 & M1); [unfold step_of, comb; simpl; lia|].
      assert (N1 := positions_nodup _ _ _ E1).
      exists (idx :: idxs). simpl. rewrite E1, E. split; auto.
      assert (Hjk : (j < k)%nat) by (apply Hj; left; auto).
      assert (M1' : forall i, In i idx <-> (i < n)%nat /\ (i mod k)%nat = j) by (intros i; rewrite M1; apply comb_selected; auto).
      split.
      + apply NoDup_app_intro; auto. intros i H1 H2. apply M1' in H1. apply M in H2. destruct H1 as [_ H1], H2 as [_ H2]. congruence.
      + intros i. rewrite in_app_iff, M1', M. split; [intros [[H1 H2]|[H1 H2]]; auto|]. intros [H1 [H2|H2]]; auto. }
  destruct (G (seq 0 k) (seq_NoDup k 0)) as (idxs & E & ND & M). { intros j Hj. apply in_seq in Hj. lia. }
  exists idxs. split; auto. apply NoDup_Permutation; auto; [apply seq_NoDup|].
  intros i. rewrite M, !in_seq. assert (i mod k < k)%nat by (apply Nat.mod_upper_bound; lia). lia.
Qed.

(** ---- totals over parts ---- *)
Lemma sum_all_app l1 l2 : sum_all (l1 ++ l2) = oadd (sum_all l1) (sum_all l2).
Proof. unfold sum_all. rewrite forallb_app, Rsum_app. destruct (forallb _ l1), (forallb _ l2); auto. Qed.
Lemma sum_all_cons x l : sum_all (x :: l) = oadd x (sum_all l).
Proof. unfold sum_all. simpl. destruct x; simpl; auto. destruct (forallb _ l); auto. Qed.
Lemma sum_all_perm l1 l2 : Permutation l1 l2 -> sum_all l1 = sum_all l2.
Proof.
  intros H. unfold sum_all. rewrite (Rsum_perm _ _ _ H).
  replace (forallb is_fin l1) with (forallb is_fin l2); auto.
  apply eq_true_iff_eq. rewrite !forallb_forall. split; intros K i Hi; apply K.
  - apply (Permutation_in _ H). auto.
  - apply (Permutation_in _ (Permutation_sym H)). auto.
Qed.
Lemma total_concat f ls : total f (concat ls) = sum_all (map (total f) ls).
Proof.
  induction ls as [|l ls IH]; [reflexivity|]. cbn [concat map]. rewrite sum_all_cons, <- IH.
  unfold total. rewrite map_app, sum_all_app. auto.
Qed.
Lemma scale_sum c l : scale_o c (sum_all l) = sum_all (map (scale_o c) l).
Proof.
  induction l as [|x l IH]; [unfold sum_all; simpl; f_equal; lra|]. cbn [map]. rewrite !sum_all_cons, <- IH.
  destruct x, (sum_all l); simpl; auto. f_equal. lra.
Qed.
Lemma Rsum_concat {A} (f : A -> R) ls : Rsum f (concat ls) = Rsum (fun l => Rsum f l) ls.
Proof. induction ls as [|l ls IH]; simpl; auto. rewrite Rsum_app, IH. auto. Qed.
