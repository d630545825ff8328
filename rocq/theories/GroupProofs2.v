(** Proofs about [GroupModel]: joining the parameters of the members. *)
From Verif Require Export GroupProofs.

Definition sig (f : frame) : list (string * option Z) := map (fun r => (r_name r, r_hold r)) (rows f).
Lemma sig_nm f g : sig f = sig g -> nm f = nm g.
Proof.
  unfold sig, nm. intros H. apply (f_equal (map fst)) in H. rewrite !map_map in H. exact H.
Qed.
Lemma sig_kw kw f : sig (fold_left set_kw kw f) = sig f.
Proof.
  rewrite fold_set_kw. unfold sig. simpl. rewrite map_map. apply map_ext. intros r.
  destruct (kw_row_same kw r) as (A & _ & _ & _ & _ & B & _). congruence.
Qed.
(** The row of a name. *)
Lemma find_row_in f n : In n (nm f) -> exists r, In r (rows f) /\ r_name r = n /\
  find (fun r => String.eqb (r_name r) n) (rows f) = Some r.
Proof.
  unfold nm. induction (rows f) as [|r l IH]; simpl; [tauto|]. intros H.
  destruct (String.eqb_spec (r_name r) n) as [E|E]; [eauto|]. destruct H as [H|H]; [contradiction|].
  destruct (IH H) as (r' & A & B & C). eauto.
Qed.
Lemma value_kw kw f n : value_of (fold_left set_kw kw f) n =
  option_map (fun r => r_value (kw_row kw r)) (find (fun r => String.eqb (r_name r) n) (rows f)).
Proof.
  rewrite fold_set_kw. unfold value_of. simpl. rewrite find_name_map by apply kw_row_name.
  destruct (find _ _); auto.
Qed.
(** Held in a frame. *)
Definition held (f : frame) (n : string) : Prop := exists r, In r (rows f) /\ r_name r = n /\ ~ free r.
Lemma sig_row f g n r : sig f = sig g -> wf f -> In r (rows f) -> r_name r = n ->
  exists r', In r' (rows g) /\ r_name r' = n /\ r_hold r' = r_hold r.
Proof.
  intros S _ H N. assert (X : In (r_name r, r_hold r) (sig g)) by (rewrite <- S; apply (in_map (fun r => (r_name r, r_hold r))); auto).
  apply in_map_iff in X as (r' & [= A B] & C). exists r'. repeat split; congruence.
Qed.
Lemma held_sig f g n : wf f -> sig f = sig g -> held f n -> held g n.
Proof.
  intros W S (r & A & B & C). destruct (sig_row f g n r S W A B) as (r' & A' & B' & C').
  exists r'. repeat split; auto. unfold free in *. congruence.
Qed.
Lemma wf_unique f r r' : wf f -> In r (rows f) -> In r' (rows f) -> r_name r = r_name r' -> r = r'.
Proof.
  unfold wf. induction (rows f) as [|x l IH]; simpl; [tauto|]. intros W H H' E. inversion W as [|? ? Hn W']; subst.
  destruct H as [ ->|H], H' as [ ->|H']; auto.
  - exfalso. apply Hn. rewrite E. apply in_map. auto.
  - exfalso. apply Hn. rewrite <- E. apply in_map. auto.
Qed.
Lemma free_or_held f n : In n (nm f) -> held f n \/ forall r, In r (rows f) -> r_name r = n -> free r.
Proof.
  intros _. destruct (existsb (fun r => String.eqb (r_name r) n && negb (is_free r)) (rows f)) eqn:E.
  - left. apply existsb_exists in E as (r & A & B). apply andb_true_iff in B as [B C].
    exists r. split; auto. split; [apply String.eqb_eq; auto|]. intros Fr. apply is_free_free in Fr. rewrite Fr in C. discriminate.
  - right. intros r A B. apply is_free_free. destruct (is_free r) eqn:Fr; auto. exfalso.
    assert (X : existsb (fun r => String.eqb (r_name r) n && negb (is_free r)) (rows f) = true).
    { apply existsb_exists. exists r. split; auto. rewrite B, String.eqb_refl, Fr. auto. }
    congruence.
Qed.

Section Join.
(** The frames at the start: of the group, and of the members (as a scan would leave them). *)
Variable F0 : frame.
Variable fs0 : list frame.
Variable ms0 : list member.
Hypothesis wf0 : forall f, In f fs0 -> wf f.
Hypothesis hold0 : forall f r, In f fs0 -> In r (rows f) -> r_hold r <> None.
Hypothesis res0 : forall n, In n (nm F0) -> reserved n = false.
Hypothesis resk : forall f n, In f fs0 -> In n (nm f) -> reserved n = false.
Let L := length fs0.

Record inv (F : frame) (fs : list frame) : Prop := {
  i_wf : wf F;
  i_sig : map sig fs = map sig fs0;
  i_out : forall i f0 f n, nth_error fs0 i = Some f0 -> nth_error fs i = Some f -> ~ In n (nm F) ->
    value_of f n = value_of f0 n;
  i_held : forall i f0 f n, nth_error fs0 i = Some f0 -> nth_error fs i = Some f -> held f0 n ->
    value_of f n = value_of f0 n;
  i_own : forall n v, value_of F0 n = Some v -> value_of F n = Some v;
  i_first : forall n, In n (nm F) -> In n (nm F0) \/
    exists i f0, nth_error fs0 i = Some f0 /\ In n (nm f0) /\ value_of F n = value_of f0 n /\ ~ In n (nm F0) /\
      forall j f, j < i -> nth_error fs0 j = Some f -> ~ In n (nm f) }.
(** The first [p] members' parameters are all in the group. *)
Definition contained (p : nat) (F : frame) : Prop :=
  forall j f, j < p -> nth_error fs0 j = Some f -> incl (nm f) (nm F).

Lemma inv_sig F fs i f0 f : inv F fs -> nth_error fs0 i = Some f0 -> nth_error fs i = Some f -> sig f = sig f0.
Proof.
  intros I H0 H. pose proof (f_equal (fun l => nth_error l i) (i_sig _ _ I)) as E. simpl in E.
  rewrite !nth_error_map, H0, H in E. simpl in E. congruence.
Qed.
Lemma inv_at F fs i f0 : inv F fs -> nth_error fs0 i = Some f0 -> exists f, nth_error fs i = Some f.
Proof.
  intros I H. destruct (nth_error fs i) eqn:E; eauto. apply nth_error_None in E.
  pose proof (f_equal (@length _) (i_sig _ _ I)) as X. rewrite !map_length in X.
  assert (i < length fs0) by (apply nth_error_Some; congruence). lia.
Qed.
Lemma inv_at0 F fs i f : inv F fs -> nth_error fs i = Some f -> exists f0, nth_error fs0 i = Some f0.
Proof.
  intros I H. destruct (nth_error fs0 i) eqn:E; eauto. apply nth_error_None in E.
  pose proof (f_equal (@length _) (i_sig _ _ I)) as X. rewrite !map_length in X.
  assert (i < length fs) by (apply nth_error_Some; congruence). lia.
Qed.
Lemma inv_reserved F fs n : inv F fs -> In n (nm F) -> reserved n = false.
Proof.
  intros I H. destruct (i_first _ _ I n H) as [H'|(i & f0 & A & B & _)]; auto.
  eapply resk; eauto. eapply nth_error_In; eauto.
Qed.
Lemma inv_start F : wf F0 -> Permutation (rows F0) (rows F) -> inv F fs0.
Proof.
  intros W P. constructor; auto.
  - eapply perm_nodup_names; eauto.
  - intros. congruence.
  - intros. congruence.
  - intros n v H. rewrite <- H. symmetry. apply value_of_perm; auto.
  - intros n H. left. apply (perm_nm F0 F n P). auto.
Qed.
Lemma inv_perm F F' fs : inv F fs -> Permutation (rows F) (rows F') -> inv F' fs.
Proof.
  intros I P. assert (V : forall n, value_of F' n = value_of F n) by (intros n; symmetry; apply value_of_perm; auto; apply I).
  assert (N : forall n, In n (nm F') <-> In n (nm F)) by (intros n; symmetry; apply perm_nm; auto).
  constructor.
  - eapply perm_nodup_names; [exact P|apply I].
  - apply I.
  - intros i f0 f n A B C. apply (i_out _ _ I i); auto. rewrite <- N. auto.
  - apply I.
  - intros n v H. rewrite V. apply I. auto.
  - intros n H. rewrite V. apply (i_first _ _ I). apply N. auto.
Qed.
(** The group gives its values to the members. *)
Lemma inv_push F fs : inv F fs -> inv F (map (fold_left set_kw (values_of F)) fs).
Proof.
  intros I. assert (X : forall i f, nth_error (map (fold_left set_kw (values_of F)) fs) i = Some f ->
    exists g, nth_error fs i = Some g /\ f = fold_left set_kw (values_of F) g).
  { intros i f H. rewrite nth_error_map in H. destruct (nth_error fs i) as [g|]; [|discriminate].
    injection H as <-. eauto. }
  constructor; try apply I.
  - rewrite map_map. rewrite <- (i_sig _ _ I). apply map_ext. intros f. apply sig_kw.
  - intros i f0 f n H0 H N. destruct (X i f H) as (g & Hg & ->). rewrite value_kw.
    rewrite <- (i_out _ _ I i f0 g n) by auto. unfold value_of.
    destruct (find _ (rows g)) as [r|] eqn:E; auto. simpl. apply find_some in E as [_ E]. apply String.eqb_eq in E.
    rewrite kw_row_other; auto. rewrite E, values_fst. auto.
  - intros i f0 f n H0 H N. destruct (X i f H) as (g & Hg & ->). rewrite value_kw.
    rewrite <- (i_held _ _ I i f0 g n) by auto. unfold value_of.
    destruct (find _ (rows g)) as [r|] eqn:E; auto. simpl. apply find_some in E as [A E]. apply String.eqb_eq in E.
    rewrite kw_row_held; auto. intros Fr.
    destruct (sig_row g f0 n r) as (r' & A' & B' & C'); auto.
    { eapply inv_sig; eauto. }
    { unfold wf. assert (Sg := inv_sig F fs i f0 g I H0 Hg). apply sig_nm in Sg. unfold nm in Sg. rewrite Sg.
      apply wf0. eapply nth_error_In; eauto. }
    destruct N as (q & Q1 & Q2 & Q3). apply Q3. replace q with r'; [unfold free in *; congruence|].
    apply (wf_unique f0); auto; [apply wf0; eapply nth_error_In; eauto|congruence].
Qed.
Lemma push_value F fs i f0 f n : inv F fs -> nth_error fs0 i = Some f0 ->
  nth_error (map (fold_left set_kw (values_of F)) fs) i = Some f ->
  In n (nm F) -> In n (nm f0) -> ~ held f0 n -> value_of f n = value_of F n.
Proof.
  intros I H0 H N N0 NH. rewrite nth_error_map in H. destruct (nth_error fs i) as [g|] eqn:Hg; [|discriminate].
  injection H as <-. assert (Sg := inv_sig F fs i f0 g I H0 Hg).
  assert (Ng : In n (nm g)) by (rewrite (sig_nm _ _ Sg); auto).
  destruct (find_row_in g n Ng) as (r & A & B & C). rewrite value_kw, C. simpl.
  destruct (value_of_some F n N) as [v Ev]. rewrite Ev. f_equal. apply kw_row_given.
  - rewrite values_fst. apply I.
  - rewrite B. apply value_of_in; auto. apply I.
  - assert (Wg : wf g).
    { unfold wf. change (NoDup (nm g)). rewrite (sig_nm _ _ Sg). apply wf0. eapply nth_error_In; eauto. }
    destruct (is_free r) eqn:Fr; [apply is_free_free; auto|]. exfalso. apply NH.
    apply (held_sig g f0); auto. exists r. repeat split; auto. intros Fr'. apply is_free_free in Fr'. congruence.
Qed.

(** Importing the rows of a member. *)
Lemma cells_names f : map r_name (cells f) = nm f.
Proof. unfold cells, nm. destruct (has_best f); auto. rewrite map_map. auto. Qed.
Lemma cells_hold f r : In r (cells f) -> exists r', In r' (rows f) /\ r_hold r' = r_hold r /\ r_name r' = r_name r.
Proof.
  unfold cells. destruct (has_best f); [eauto|]. intros H. apply in_map_iff in H as (q & <- & H). eauto.
Qed.
Lemma cells_value b f n : value_of (mkFrame (cells f) b) n = value_of f n.
Proof.
  unfold value_of, cells. cbn [rows]. destruct (has_best f); auto. rewrite find_name_map by auto.
  destruct (find _ _); auto.
Qed.
Lemma find_app {A} (p : A -> bool) l1 l2 : find p (l1 ++ l2) = match find p l1 with Some x => Some x | None => find p l2 end.
Proof. induction l1 as [|x l IH]; simpl; auto. destruct (p x); auto. Qed.
Lemma find_filter_name (q : row -> bool) n l : (forall r, r_name r = n -> q r = true) ->
  find (fun r => String.eqb (r_name r) n) (filter q l) = find (fun r => String.eqb (r_name r) n) l.
Proof.
  intros H. induction l as [|r l IH]; simpl; auto. destruct (q r) eqn:E; simpl.
  - rewrite IH. auto.
  - destruct (String.eqb_spec (r_name r) n) as [X|X]; auto. rewrite H in E by auto. discriminate.
Qed.
Lemma import_value F f b n : value_of (mkFrame (cells F ++ rows_to_import F f) b) n =
  if mem n (nm F) then value_of F n else value_of f n.
Proof.
  destruct (mem n (nm F)) eqn:M.
  - apply mem_In in M. destruct (value_of_some F n M) as [v E]. rewrite E. rewrite <- (cells_value b) in E.
    unfold value_of in *. cbn [rows] in *. rewrite find_app. destruct (find _ (cells F)) as [r|]; [|discriminate]. auto.
  - apply mem_false in M. assert (E := M). apply value_of_none in E. rewrite <- (cells_value b) in E.
    rewrite <- (cells_value b f). unfold value_of in *. cbn [rows] in *. rewrite find_app.
    destruct (find _ (cells F)); [discriminate|]. unfold rows_to_import. rewrite find_filter_name; auto.
    intros r Hr. apply negb_true_iff, mem_false. change (~ In (r_name r) (nm F)). rewrite Hr. auto.
Qed.
Lemma import_names F f b n : In n (nm (mkFrame (cells F ++ rows_to_import F f) b)) <-> In n (nm F) \/ In n (nm f).
Proof.
  unfold nm at 1. cbn [rows]. rewrite map_app, in_app_iff, cells_names. split.
  - intros [H|H]; auto. right. unfold rows_to_import in H. apply in_map_iff in H as (r & <- & H).
    apply filter_In in H as [H _]. rewrite <- cells_names. apply in_map. auto.
  - intros [H|H]; auto. destruct (mem n (nm F)) eqn:M; [apply mem_In in M; auto|].
    right. rewrite <- cells_names in H. apply in_map_iff in H as (r & <- & H). apply in_map. apply filter_In.
    split; auto. change (names (rows F)) with (nm F). rewrite M. auto.
Qed.
Lemma import_wf F f b : wf F -> wf f -> wf (mkFrame (cells F ++ rows_to_import F f) b).
Proof.
  intros W W'. unfold wf. cbn [rows]. rewrite map_app, cells_names.
  assert (N2 : NoDup (map r_name (rows_to_import F f))).
  { unfold rows_to_import. assert (N : NoDup (map r_name (cells f))) by (rewrite cells_names; auto).
    revert N. induction (cells f) as [|r l IH]; simpl; intros N; auto. inversion N; subst.
    destruct (negb _); simpl; auto. constructor; auto. intros C. apply H1.
    apply in_map_iff in C as (q & E & Hq). apply filter_In in Hq as [Hq _]. rewrite <- E. apply in_map. auto. }
  assert (D : forall n, In n (nm F) -> ~ In n (map r_name (rows_to_import F f))).
  { intros n H C. apply in_map_iff in C as (r & <- & Hr). apply filter_In in Hr as [_ Hr].
    apply negb_true_iff, mem_false in Hr. apply Hr. auto. }
  unfold wf in W. change (map r_name (rows F)) with (nm F) in W. revert W D. generalize (nm F). induction l as [|x l IH]; simpl; auto.
  intros W D. inversion W; subst. constructor; [|apply IH; auto].
  rewrite in_app_iff. intros [C|C]; auto. apply (D x); auto.
Qed.
Lemma wf_sig f g : sig f = sig g -> wf f -> wf g.
Proof. intros S W. unfold wf. change (NoDup (nm g)). rewrite <- (sig_nm _ _ S). auto. Qed.
Lemma inv_import F fs i f0 f : inv F fs -> contained i F -> nth_error fs0 i = Some f0 -> nth_error fs i = Some f ->
  exists F', import_rows F f = Some F' /\ inv F' fs /\ contained (S i) F'.
Proof.
  intros I C H0 H. assert (S := inv_sig F fs i f0 f I H0 H).
  unfold import_rows. destruct (existsb _ _) eqn:E.
  { exfalso. apply existsb_exists in E as (r & Hr & E). apply filter_In in Hr as [Hr _].
    apply cells_hold in Hr as (r' & A & B & _).
    assert (Wf : wf f) by (eapply wf_sig; [symmetry; exact S|]; apply wf0; eapply nth_error_In; eauto).
    destruct (sig_row f f0 _ r' S Wf A eq_refl) as (q & Q1 & Q2 & Q3).
    apply (hold0 f0 q); auto; [eapply nth_error_In; eauto|]. rewrite Q3, B. destruct (r_hold r); [discriminate|auto]. }
  eexists. split; [reflexivity|].
  assert (Wf : wf f) by (eapply wf_sig; [symmetry; exact S|]; apply wf0; eapply nth_error_In; eauto).
  assert (V := import_value F f (has_best F || has_best f)).
  assert (N := import_names F f (has_best F || has_best f)).
  assert (W := import_wf F f (has_best F || has_best f) (i_wf _ _ I) Wf).
  revert V N W. generalize (mkFrame (cells F ++ rows_to_import F f) (has_best F || has_best f)). intros F' V N W.
  split; [constructor|].
  - auto.
  - apply I.
  - intros j g0 g n A B D. apply (i_out _ _ I j); auto. intros X. apply D. apply N. auto.
  - apply I.
  - intros n v Hv. rewrite V. apply (i_own _ _ I) in Hv. destruct (mem n (nm F)) eqn:M; auto.
    exfalso. apply mem_false in M. apply value_of_none in M. congruence.
  - intros n Hn. rewrite V. destruct (mem n (nm F)) eqn:M.
    + apply mem_In in M. apply (i_first _ _ I). auto.
    + apply mem_false in M. apply N in Hn as [Hn|Hn]; [contradiction|]. right. exists i, f0.
      split; auto. split; [rewrite <- (sig_nm _ _ S); auto|]. split; [eapply (i_out _ _ I i); eauto|]. split.
      * intros X. destruct (value_of_some F0 n X) as [v Ev]. apply (i_own _ _ I) in Ev.
        apply value_of_none in M. congruence.
      * intros j g Hj Hg X. apply M. eapply C; eauto.
  - intros j g Hj Hg n Hn. apply N. assert (j < i \/ j = i) as [D| ->] by lia.
    + left. eapply C; eauto.
    + right. rewrite H0 in Hg. injection Hg as <-. rewrite (sig_nm _ _ S). auto.
Qed.
Lemma no_import F f : rows_to_import F f = [] -> incl (nm f) (nm F).
Proof.
  intros H n Hn. destruct (mem n (nm F)) eqn:M; [apply mem_In; auto|]. exfalso.
  rewrite <- cells_names in Hn. apply in_map_iff in Hn as (r & <- & Hr).
  assert (X : In r (rows_to_import F f)). { apply filter_In. split; auto. change (names (rows F)) with (nm F). rewrite M. auto. }
  rewrite H in X. destruct X.
Qed.

(** * [unmangle] *)
Record good (g : group) (fs : list frame) : Prop := {
  g_tracked : tracked ms0 (g_members g) fs;
  g_inv : inv (m_frame (g_model g)) fs;
  g_names : m_names (g_model g) = mkNames [] [] [] }.
Lemma contained_mono p q F : q <= p -> contained p F -> contained q F.
Proof. intros H C j f Hj. apply C. lia. Qed.

Lemma good_unmangle_member g fs i : good g fs -> exists g', unmangle_member i g = Some g' /\ good g' fs /\
  g_model g' = g_model g /\
  (forall k, nth_error (g_members g') i = Some k -> exists f, nth_error fs i = Some f /\ m_frame (k_model k) = f) /\
  length (g_members g') = length (g_members g).
Proof.
  intros G. unfold unmangle_member. destruct (nth_error (g_members g) i) as [k|] eqn:Hk.
  - destruct (tracked_nth _ _ _ _ _ (g_tracked _ _ G) Hk) as (k0 & f & H0 & Hf & S & R).
    destruct (rep_unmangle _ _ R) as (m & E & Fm & Mm & Nm & Rm). rewrite E. simpl. eexists. split; [reflexivity|].
    split; [constructor; simpl; try apply G; eapply tracked_set; eauto; apply G|]. split; auto. split.
    + simpl. intros k' Hk'. rewrite (set_member_same _ _ _ _ Hk) in Hk'. injection Hk' as <-. exists f. simpl. auto.
    + simpl. apply set_member_length.
  - exists g. repeat split; auto; try apply G. intros k' Hk'. congruence.
Qed.
Lemma good_base g fs : good g fs -> exists m, unmangle false (g_model g) = Ret tt m /\ good (mkGroup m (g_members g)) fs /\
  Permutation (rows (m_frame (g_model g))) (rows (m_frame m)).
Proof.
  intros G. destruct (unmangle_false_cases (g_model g)) as (m & E & _ & Nm & _ & _ & _ & _ & _ & C).
  { apply (g_inv _ _ G). }
  { rewrite (g_names _ _ G). repeat split; constructor. }
  exists m. split; auto.
  assert (P : Permutation (rows (m_frame (g_model g))) (rows (m_frame m))).
  { destruct C as [[_ ->]|[_ ->]]; auto. rewrite (g_names _ _ G). rewrite scanned_complete; [apply sort_perm|].
    simpl. tauto. }
  split; auto. constructor; cbn [g_members g_model].
  - apply G.
  - eapply inv_perm; [apply G|auto].
  - rewrite Nm. apply G.
Qed.

Definition all_in (g : group) : Prop := contained L (m_frame (g_model g)).
Lemma good_push g fs : good g fs -> exists ms, push (values_of (m_frame (g_model g))) (g_members g) = Some ms /\
  good (mkGroup (g_model g) ms) (map (fold_left set_kw (values_of (m_frame (g_model g)))) fs) /\ length ms = length (g_members g).
Proof.
  intros G. destruct (push_ok (values_of (m_frame (g_model g))) ms0 (g_members g) fs) as (ms & E & T & M).
  - intros n Hn. rewrite values_fst in Hn. eapply inv_reserved; eauto. apply G.
  - apply G.
  - exists ms. split; auto. split; [constructor; cbn [g_members g_model]; auto; [apply inv_push|]; apply G|].
    apply (f_equal (@length _)) in M. rewrite !map_length in M. auto.
Qed.
Lemma good_length g fs : good g fs -> length (g_members g) = L.
Proof.
  intros G. destruct (tracked_length _ _ _ (g_tracked _ _ G)) as [_ A].
  pose proof (f_equal (@length _) (i_sig _ _ (g_inv _ _ G))) as X. rewrite !map_length in X. unfold L. lia.
Qed.

Lemma good_unmangle d : forall p g fs, good g fs -> contained p (m_frame (g_model g)) -> p <= L -> L - p < d ->
  exists g' fs', unmangle_group d g = Some g' /\ good g' fs' /\ all_in g'.
Proof.
  induction d as [|d IH]; intros p g fs G C Hp Hd; [lia|]. cbn [unmangle_group].
  destruct (good_base g fs G) as (m & E & G1 & P). rewrite E. cbn [returned obind].
  rewrite (good_length g fs G).
  set (ch := fun g : group => obind (unmangle_group d g) _).
  assert (CH : forall i g fs, good g fs -> contained (S i) (m_frame (g_model g)) -> S i <= L -> p <= i ->
    exists g' fs', ch g = Some g' /\ good g' fs' /\ all_in g').
  { intros i g1 fs1 Gg Cg Hi Hpi. destruct (IH (S i) g1 fs1 Gg Cg Hi ltac:(lia)) as (g2 & fs2 & E2 & G2 & A2).
    unfold ch. rewrite E2. cbn [obind]. destruct (good_push g2 fs2 G2) as (ms & E3 & G3 & _). rewrite E3. cbn [obind].
    eexists. eexists. split; [reflexivity|]. split; [exact G3|exact A2]. }
  assert (LOOP : forall n i g fs, i + n = L -> good g fs -> contained (Nat.max i p) (m_frame (g_model g)) ->
    exists g' fs', fold_left (visit ch) (seq i n) (Some g) = Some g' /\ good g' fs' /\ all_in g').
  { induction n as [|n IHn]; intros i g1 fs1 Hi Gg Cg.
    - exists g1, fs1. split; [reflexivity|]. split; auto. unfold all_in. eapply contained_mono; [|exact Cg]. lia.
    - cbn [seq fold_left]. unfold visit at 2. cbn [obind].
      destruct (good_unmangle_member g1 fs1 i Gg) as (g2 & E2 & G2 & M2 & K2 & L2). rewrite E2. cbn [obind].
      destruct (nth_error (g_members g2) i) as [k|] eqn:Hk.
      2:{ exfalso. apply nth_error_None in Hk. rewrite (good_length g2 fs1 G2) in Hk. lia. }
      destruct (K2 k eq_refl) as (f & Hf & ->).
      destruct (inv_at0 _ _ _ _ (g_inv _ _ G2) Hf) as [f0 Hf0].
      assert (STEP : exists g3 fs3, (match rows_to_import (m_frame (g_model g2)) f with
         | [] => Some g2
         | _ :: _ => obind (import_rows (m_frame (g_model g2)) f) (fun F => ch (mkGroup (with_frame F (g_model g2)) (g_members g2)))
         end) = Some g3 /\ good g3 fs3 /\ contained (Nat.max (S i) p) (m_frame (g_model g3))).
      { destruct (rows_to_import (m_frame (g_model g2)) f) as [|r l] eqn:EI.
        - exists g2, fs1. split; auto. split; auto. rewrite M2 in *. intros j f' Hj Hf'.
          destruct (Nat.eq_dec j i) as [ ->|Nj]; [|apply (Cg j); auto; lia].
          rewrite Hf0 in Hf'. injection Hf' as <-. apply no_import in EI.
          assert (Sg := inv_sig _ _ _ _ _ (g_inv _ _ G2) Hf0 Hf). rewrite <- (sig_nm _ _ Sg). auto.
        - assert (Hpi : p <= i).
          { destruct (Nat.le_gt_cases p i) as [|Hip]; auto. exfalso.
            assert (In r (rows_to_import (m_frame (g_model g2)) f)) as Hr by (rewrite EI; left; auto).
            apply filter_In in Hr as [Hr Hm]. apply negb_true_iff, mem_false in Hm. apply Hm.
            rewrite M2. change (In (r_name r) (nm (m_frame (g_model g1)))). apply (Cg i f0 ltac:(lia) Hf0).
            assert (Sg := inv_sig _ _ _ _ _ (g_inv _ _ G2) Hf0 Hf). rewrite <- (sig_nm _ _ Sg), <- cells_names. apply in_map. auto. }
          rewrite M2 in *. replace (Nat.max i p) with i in Cg by lia.
          destruct (inv_import _ fs1 i f0 f (g_inv _ _ Gg) Cg Hf0 Hf) as (F' & EF & IF & CF). rewrite EF. cbn [obind].
          destruct (CH i (mkGroup (with_frame F' (g_model g1)) (g_members g2)) fs1) as (g3 & fs3 & E3 & G3 & A3); auto; [|lia|].
          { constructor; cbn [g_members g_model]; [apply G2|exact IF|]. simpl. apply Gg. }
          exists g3, fs3. split; auto. split; auto. eapply contained_mono; [|exact A3].
          assert (i < L) by (apply nth_error_Some; congruence). lia. }
      destruct STEP as (g3 & fs3 & E3 & G3 & C3). rewrite E3. cbn [obind].
      destruct (good_unmangle_member g3 fs3 i G3) as (g4 & E4 & G4 & M4 & _). rewrite E4.
      apply (IHn (S i) g4 fs3); auto; [lia|]. rewrite M4. auto. }
  apply (LOOP L 0 (mkGroup m (g_members g)) fs); auto.
  cbn [Nat.max g_model]. intros j f Hj Hf n Hn. apply (perm_nm _ _ n P). apply (C j f); auto.
Qed.
End Join.
