(** Proofs about [GroupModel]: evaluation. *)
From Verif Require Export GroupProofs2.

(** * Start *)
Lemma rep_start m : model_ok m -> exists f, rep m f /\
  (forall n, In n (nm f) <-> knows m n) /\
  (forall n v, value_of (m_frame m) n = Some v -> value_of f n = Some v) /\
  (forall r, In r (rows f) -> r_hold r <> None) /\
  (forall n, held f n <-> holds m n).
Proof.
  intros (W & N1 & N2 & N3 & H & C). assert (N : names_ok (m_names m)) by (repeat split; auto).
  destruct (m_mangled m) eqn:M.
  - destruct (scan_all_eq (m_names m) (m_frame m) W N) as [E ND]. eexists. split.
    { split; auto. split; auto. split; [|rewrite M; exact E]. unfold wf. simpl. eapply perm_nodup_names; [apply sort_perm|auto]. }
    set (f := mkFrame _ _). assert (P : Permutation (scanned (m_names m) (m_frame m)) (rows f)) by apply sort_perm.
    destruct (scanned_old (m_names m) (m_frame m)) as (extra & Ex & Hex).
    assert (Wf : wf f) by (unfold wf; eapply perm_nodup_names; eauto).
    split; [|split; [|split]].
    + intros n. assert (X : In n (nm f) <-> In n (map r_name (scanned (m_names m) (m_frame m)))).
      { split; apply Permutation_in; [symmetry|]; apply Permutation_map; auto. }
      rewrite X. split.
      * rewrite Ex, map_app, in_app_iff. intros [Y|Y]; [left; auto|]. apply in_map_iff in Y as (r & <- & Hr).
        destruct (Hex r Hr) as (n & [[-> Y]|[-> Y]] & _); simpl; right; unfold uses; tauto.
      * intros [Y|Y]; [rewrite Ex, map_app, in_app_iff; auto|]. apply scanned_all_names. auto.
    + intros n v. rewrite !value_of_in by auto. unfold values_of. intros Y. eapply Permutation_in; [apply Permutation_map, P|].
      rewrite Ex, map_app, in_app_iff. auto.
    + intros r Hr. apply (Permutation_in r (Permutation_sym P)) in Hr. rewrite Ex in Hr. apply in_app_iff in Hr as [Hr|Hr]; auto.
      destruct (Hex r Hr) as (n & [[-> _]|[-> _]] & _); simpl; discriminate.
    + intros n. split.
      * intros (r & A & B & D). apply (Permutation_in r (Permutation_sym P)) in A. rewrite Ex in A.
        apply in_app_iff in A as [A|A]; [exists r; auto|]. exfalso. apply D.
        destruct (Hex r A) as (n' & [[-> _]|[-> _]] & _); reflexivity.
      * intros (r & A & B & D). exists r. split; auto. apply (Permutation_in r P). rewrite Ex. apply in_app_iff. auto.
  - exists (m_frame m). split; [repeat split; auto; rewrite M; auto|]. split; [|split; [|split]]; auto.
    + intros n. unfold knows. split; [auto|]. intros [X|X]; auto.
    + intros n. reflexivity.
Qed.

(** What holds between calls. *)
Record ready (ms0 : list member) (g : group) (fs : list frame) : Prop := {
  r_tracked : tracked ms0 (g_members g) fs;
  r_wf : wf (m_frame (g_model g));
  r_names : m_names (g_model g) = mkNames [] [] [];
  r_wfs : forall f, In f fs -> wf f;
  r_holds : forall f r, In f fs -> In r (rows f) -> r_hold r <> None;
  r_res : forall n, In n (nm (m_frame (g_model g))) -> reserved n = false;
  r_resk : forall f n, In f fs -> In n (nm f) -> reserved n = false }.

Lemma start_frames ms : (forall k, In k ms -> model_ok (k_model k)) -> exists fs, tracked ms ms fs /\
  (forall i k f, nth_error ms i = Some k -> nth_error fs i = Some f ->
    (forall n, In n (nm f) <-> knows (k_model k) n) /\
    (forall n v, value_of (m_frame (k_model k)) n = Some v -> value_of f n = Some v) /\
    (forall r, In r (rows f) -> r_hold r <> None) /\
    (forall n, held f n <-> holds (k_model k) n)).
Proof.
  induction ms as [|k ms IH]; intros H.
  - exists []. split; [constructor|]. intros [|i]; discriminate.
  - destruct IH as (fs & T & Q); [intros; apply H; right; auto|].
    destruct (rep_start (k_model k)) as (f & R & Q'); [apply H; left; auto|].
    exists (f :: fs). split; [constructor; auto; repeat split; auto|].
    intros [|i] k' f' A B; simpl in A, B; [|eapply Q; eauto]. injection A as <-. injection B as <-. exact Q'.
Qed.
Lemma in_tracked ms0 ms fs f : tracked ms0 ms fs -> In f fs -> exists i k, nth_error ms i = Some k /\ nth_error fs i = Some f /\ rep (k_model k) f.
Proof.
  intros T. induction T as [|k0 k f' ms0 ms fs S R T IH]; [intros []|]. intros [ ->|H].
  - exists 0, k. auto.
  - destruct (IH H) as (i & k' & A & B & C). exists (Datatypes.S i), k'. auto.
Qed.
Lemma ready_start g : group_ok g -> exists fs, ready (g_members g) g fs /\
  (forall i k f, nth_error (g_members g) i = Some k -> nth_error fs i = Some f ->
    (forall n, In n (nm f) <-> knows (k_model k) n) /\
    (forall n v, value_of (m_frame (k_model k)) n = Some v -> value_of f n = Some v) /\
    (forall r, In r (rows f) -> r_hold r <> None) /\
    (forall n, held f n <-> holds (k_model k) n)).
Proof.
  intros (W & N & M & R1 & R2). destruct (start_frames (g_members g) M) as (fs & T & Q). exists fs. split; auto.
  constructor; auto.
  - intros f Hf. destruct (in_tracked _ _ _ _ T Hf) as (i & k & A & B & (_ & _ & X & _)). auto.
  - intros f r Hf Hr. destruct (in_tracked _ _ _ _ T Hf) as (i & k & A & B & _). destruct (Q i k f A B) as (_ & _ & X & _). auto.
  - intros f n Hf Hn. destruct (in_tracked _ _ _ _ T Hf) as (i & k & A & B & _). destruct (Q i k f A B) as (X & _).
    apply (R2 k); [eapply nth_error_In; eauto|]. apply X. auto.
Qed.

Lemma sig_in fs fs0 f : map sig fs = map sig fs0 -> In f fs -> exists f0, In f0 fs0 /\ sig f0 = sig f.
Proof.
  intros H Hf. assert (X : In (sig f) (map sig fs0)) by (rewrite <- H; apply in_map; auto).
  apply in_map_iff in X as (f0 & A & B). eauto.
Qed.
Lemma ready_good ms0 g fs : ready ms0 g fs -> good (m_frame (g_model g)) fs ms0 g fs.
Proof.
  intros R. constructor; try apply R. apply inv_start; auto. apply R.
Qed.
Lemma good_ready ms0 g fs g' fs' : ready ms0 g fs -> good (m_frame (g_model g)) fs ms0 g' fs' -> ready ms0 g' fs'.
Proof.
  intros R G. assert (I := g_inv _ _ _ _ _ G). assert (S := i_sig _ _ _ _ I). constructor.
  - apply G.
  - apply I.
  - apply G.
  - intros f Hf. destruct (sig_in _ _ _ S Hf) as (f0 & A & B). eapply wf_sig; [exact B|]. eapply r_wfs; eauto.
  - intros f r Hf Hr. destruct (sig_in _ _ _ S Hf) as (f0 & A & B).
    assert (Wf : wf f) by (eapply wf_sig; [exact B|]; eapply r_wfs; eauto).
    destruct (sig_row f f0 _ r (eq_sym B) Wf Hr eq_refl) as (q & Q1 & _ & Q3). rewrite <- Q3. eapply r_holds; eauto.
  - intros n Hn. eapply (inv_reserved _ fs (r_res _ _ _ R) (r_resk _ _ _ R)); eauto.
  - intros f n Hf Hn. destruct (sig_in _ _ _ S Hf) as (f0 & A & B). apply (r_resk _ _ _ R f0); auto.
    rewrite (sig_nm _ _ B). auto.
Qed.

Lemma ready_unmangle ms0 g fs d : ready ms0 g fs -> length ms0 < d ->
  exists g' fs', unmangle_group d g = Some g' /\ ready ms0 g' fs' /\
    inv (m_frame (g_model g)) fs (m_frame (g_model g')) fs' /\ contained fs (length fs) (m_frame (g_model g')).
Proof.
  intros R Hd. assert (HL : length fs = length ms0).
  { destruct (tracked_length _ _ _ (r_tracked _ _ _ R)). lia. }
  destruct (good_unmangle (m_frame (g_model g)) fs ms0 (r_wfs _ _ _ R) (r_holds _ _ _ R) (r_res _ _ _ R) (r_resk _ _ _ R)
    d 0 g fs (ready_good _ _ _ R)) as (g' & fs' & E & G & A).
  - intros j f Hj. lia.
  - lia.
  - lia.
  - exists g', fs'. split; auto. split; [eapply good_ready; eauto|]. split; [apply G|apply A].
Qed.
Lemma ready_changed ms0 g fs d : ready ms0 g fs -> length ms0 < d ->
  exists g' fs', values_have_changed d g = Some g' /\ ready ms0 g' fs' /\
    inv (m_frame (g_model g)) fs (m_frame (g_model g')) fs' /\ contained fs (length fs) (m_frame (g_model g')) /\
    forall i f0 f n, nth_error fs i = Some f0 -> nth_error fs' i = Some f -> In n (nm f0) -> ~ held f0 n ->
      value_of f n = value_of (m_frame (g_model g')) n.
Proof.
  intros R Hd. destruct (ready_unmangle ms0 g fs d R Hd) as (g1 & fs1 & E1 & R1 & I1 & C1).
  assert (G : good (m_frame (g_model g)) fs ms0 g1 fs1) by (constructor; auto; apply R1).
  destruct (good_push (m_frame (g_model g)) fs ms0 (r_wfs _ _ _ R) (r_res _ _ _ R) (r_resk _ _ _ R) g1 fs1 G) as (ms & E2 & G2 & _).
  unfold values_have_changed. rewrite E1. cbn [obind]. rewrite E2. cbn [obind].
  eexists. eexists. split; [reflexivity|]. split; [eapply good_ready; [exact R|exact G2]|]. cbn [g_model].
  split; [apply G2|]. split; auto.
  intros i f0 f n H0 Hf Hn Hh. eapply push_value; eauto; [apply R|].
  apply (C1 i f0); auto. apply nth_error_Some. congruence.
Qed.

(** Setting values in the group's own frame keeps its names. *)
Lemma assign_names l mk vs : map r_name (assign l mk vs) = map r_name l.
Proof.
  revert mk vs. induction l as [|r l IH]; intros [|b mk] [|v vs]; simpl; auto. rewrite IH. destruct b; auto.
Qed.
Lemma set_array_names a b f f' : set_array a b f = Some f' -> nm f' = nm f.
Proof.
  destruct a; simpl; try (intros [= <-]; auto; fail).
  - intros [= <-]. unfold nm. simpl. apply assign_names.
  - destruct (Nat.eqb _ _); [|discriminate]. destruct (any_nan _ _); [discriminate|]. intros [= <-].
    unfold nm. simpl. apply assign_names.
Qed.
Lemma set_values_names a b kw m m' : m_names m = mkNames [] [] [] -> wf (m_frame m) -> set_values a b kw m = Ret tt m' ->
  m_names m' = mkNames [] [] [] /\ wf (m_frame m') /\ forall n, In n (nm (m_frame m')) <-> In n (nm (m_frame m)).
Proof.
  intros N W. unfold set_values. destruct (resolve _ _) as [a'|]; [|discriminate].
  destruct (set_array _ _ _) as [f|] eqn:E; [|discriminate]. apply set_array_names in E.
  assert (Wf : wf f) by (unfold wf; change (NoDup (nm f)); rewrite E; auto).
  destruct kw as [|kv kw].
  - intros [= <-]. cbn [with_frame m_names m_frame]. rewrite E. repeat split; auto.
  - cbn [with_frame m_mangled m_names m_frame]. destruct (m_mangled m).
    + destruct (scan_all (m_names m) f) as [f1|] eqn:Sc; [|discriminate]. intros [= <-]. cbn [with_frame m_names m_frame].
      split; auto. rewrite N in Sc. destruct (scan_all_eq (mkNames [] [] []) f Wf) as [Q ND]; [repeat split; constructor|].
      rewrite Q in Sc. injection Sc as <-. rewrite scanned_complete in * by (simpl; tauto).
      change (fold_left set_kw kw (set_kw ?x kv)) with (fold_left set_kw (kv :: kw) x).
      unfold wf. split.
      * change (NoDup (nm (fold_left set_kw (kv :: kw) (mkFrame (sort_rows (rows f)) (has_best f))))). rewrite nm_kw.
        unfold nm. simpl. eapply perm_nodup_names; [apply sort_perm|auto].
      * intros n. change (fold_left set_kw kw (set_kw ?x kv)) with (fold_left set_kw (kv :: kw) x). rewrite nm_kw, <- E.
        symmetry. apply perm_nm. apply sort_perm.
    + intros [= <-]. cbn [with_frame m_names m_frame]. split; auto.
      change (fold_left set_kw kw (set_kw f kv)) with (fold_left set_kw (kv :: kw) f). unfold wf.
      change (NoDup (nm (fold_left set_kw (kv :: kw) f)) /\ forall n, In n (nm (fold_left set_kw (kv :: kw) f)) <-> In n (nm (m_frame m))).
      rewrite nm_kw, E. split; [auto|tauto].
Qed.
Lemma ready_set ms0 g fs a b kw m : ready ms0 g fs -> set_values a b kw (g_model g) = Ret tt m ->
  ready ms0 (mkGroup m (g_members g)) fs /\ forall n, In n (nm (m_frame m)) <-> In n (nm (m_frame (g_model g))).
Proof.
  intros R E. destruct (set_values_names _ _ _ _ _ (r_names _ _ _ R) (r_wf _ _ _ R) E) as (A & B & C).
  split; auto. constructor; cbn [g_model g_members]; auto; try apply R. intros n Hn. apply (r_res _ _ _ R). apply C. auto.
Qed.

(** When every parameter of the members is in the group already, its frame keeps all it has. *)
Lemma inv_values F0 fs0 F fs : inv F0 fs0 F fs -> contained fs0 (length fs0) F0 ->
  (forall n, In n (nm F) <-> In n (nm F0)) /\ forall n, value_of F n = value_of F0 n.
Proof.
  intros I C. assert (N : forall n, In n (nm F) <-> In n (nm F0)).
  { intros n. split.
    - intros H. destruct (i_first _ _ _ _ I n H) as [H'|(i & f0 & A & B & _)]; auto.
      apply (C i f0); auto. apply nth_error_Some. congruence.
    - intros H. destruct (value_of_some F0 n H) as [v E]. apply (i_own _ _ _ _ I) in E.
      destruct (in_dec string_dec n (nm F)); auto. apply value_of_none in n0. congruence. }
  split; auto. intros n. destruct (value_of F0 n) as [v|] eqn:E.
  - apply (i_own _ _ _ _ I). auto.
  - apply value_of_none. rewrite N. apply value_of_none. auto.
Qed.
Lemma contained_sig fs fs0 F : map sig fs = map sig fs0 -> contained fs0 (length fs0) F -> contained fs (length fs) F.
Proof.
  intros S C i f Hi Hf. pose proof (f_equal (fun l => nth_error l i) S) as X. cbv beta in X. rewrite !nth_error_map, Hf in X.
  destruct (nth_error fs0 i) as [f0|] eqn:E; [|discriminate]. injection X as X. rewrite (sig_nm _ _ X).
  apply (C i f0); auto. apply nth_error_Some. congruence.
Qed.
Lemma contained_names fs p F F' : (forall n, In n (nm F) -> In n (nm F')) -> contained fs p F -> contained fs p F'.
Proof. intros H C i f Hi Hf n Hn. apply H. eapply C; eauto. Qed.

(** * Preparing an evaluation *)
Lemma prep_ok ms0 g fs d x : ready ms0 g fs -> length ms0 < d -> settable d x g ->
  exists g' fs', prep_for_compute d x g = Some g' /\ ready ms0 g' fs' /\ map sig fs' = map sig fs /\
    values_after d x g (m_frame (g_model g')) /\
    (forall n, In n (nm (m_frame (g_model g'))) <-> In n (nm (m_frame (g_model g))) \/ exists f, In f fs /\ In n (nm f)) /\
    forall i f0 f n, nth_error fs i = Some f0 -> nth_error fs' i = Some f -> In n (nm f0) ->
      (~ held f0 n -> value_of f n = value_of (m_frame (g_model g')) n) /\
      (held f0 n -> value_of f n = value_of f0 n).
Proof.
  intros R Hd S. unfold prep_for_compute.
  destruct (ready_unmangle ms0 g fs d R Hd) as (g1 & fs1 & E1 & R1 & I1 & C1). rewrite E1. cbn [obind].
  assert (HN1 : forall n, In n (nm (m_frame (g_model g1))) <-> In n (nm (m_frame (g_model g))) \/ exists f, In f fs /\ In n (nm f)).
  { intros n. split.
    - intros H. destruct (i_first _ _ _ _ I1 n H) as [H'|(i & f0 & A & B & _)]; auto. right. exists f0. split; auto. eapply nth_error_In; eauto.
    - intros [H|(f & A & B)].
      + destruct (value_of_some _ _ H) as [v E]. apply (i_own _ _ _ _ I1) in E.
        destruct (in_dec string_dec n (nm (m_frame (g_model g1)))); auto. apply value_of_none in n0. congruence.
      + apply In_nth_error in A as [i A]. apply (C1 i f); auto. apply nth_error_Some. congruence. }
  assert (C1' : contained fs1 (length fs1) (m_frame (g_model g1))) by (eapply contained_sig; [apply I1|auto]).
  (* the values are set *)
  assert (X : exists g2 fs2, match x with None => Some g1 | Some (a, kw) => set_values_group d a true kw g1 end = Some g2 /\
    ready ms0 g2 fs2 /\ map sig fs2 = map sig fs1 /\
    (forall n, In n (nm (m_frame (g_model g2))) <-> In n (nm (m_frame (g_model g1)))) /\
    values_after d x g (m_frame (g_model g2)) /\
    forall i f0 f n, nth_error fs1 i = Some f0 -> nth_error fs2 i = Some f -> held f0 n -> value_of f n = value_of f0 n).
  { destruct x as [[a kw]|].
    - destruct (S g1 E1) as [m Em]. unfold set_values_group. rewrite Em. cbn [returned obind].
      destruct (ready_set ms0 g1 fs1 a true kw m R1 Em) as [R2 N2].
      destruct (ready_changed ms0 _ fs1 d R2 Hd) as (g2 & fs2 & E2 & R2' & I2 & C2 & V2). cbn [g_model] in *.
      assert (C2' : contained fs1 (length fs1) (m_frame m)).
      { eapply contained_names; [|exact C1']. intros n. apply N2. }
      destruct (inv_values _ _ _ _ I2 C2') as [N3 V3].
      exists g2, fs2. split; auto. split; auto. split; [apply I2|]. split; [intros n; rewrite N3; auto|].
      split; [exists g1; split; auto; exists m; split; auto|]. intros. eapply (i_held _ _ _ _ I2); eauto.
    - exists g1, fs1. split; auto. split; auto. split; auto. split; [tauto|]. split; [exists g1; split; auto|].
      intros. congruence. }
  destruct X as (g2 & fs2 & E2 & R2 & S2 & N2 & V2 & H2). rewrite E2. cbn [obind].
  destruct (ready_changed ms0 g2 fs2 d R2 Hd) as (g3 & fs3 & E3 & R3 & I3 & C3 & V3).
  assert (C2 : contained fs2 (length fs2) (m_frame (g_model g2))).
  { eapply contained_sig; [exact S2|]. eapply contained_names; [|exact C1']. intros n. apply N2. }
  destruct (inv_values _ _ _ _ I3 C2) as [N3 W3].
  exists g3, fs3. split; auto. split; auto.
  assert (S3 : map sig fs3 = map sig fs) by (rewrite (i_sig _ _ _ _ I3), S2; apply I1).
  split; auto. split.
  { destruct V2 as (g1' & A & B). exists g1'. split; auto. destruct x as [[a kw]|].
    - destruct B as (m & B & D). exists m. split; auto. intros n. rewrite W3. auto.
    - intros n. rewrite W3. auto. }
  split; [intros n; rewrite N3, N2; auto|].
  intros i f0 f n H0 Hf Hn.
  destruct (inv_at0 _ _ _ _ _ _ I3 Hf) as [f2 Hf2].
  assert (Hf1 : exists f1, nth_error fs1 i = Some f1).
  { pose proof (f_equal (fun l => nth_error l i) S2) as X. cbv beta in X. rewrite !nth_error_map, Hf2 in X.
    destruct (nth_error fs1 i) as [f1|]; [eauto|discriminate]. }
  destruct Hf1 as [f1 Hf1].
  assert (T1 : sig f1 = sig f0) by (exact (inv_sig _ _ _ _ i f0 f1 I1 H0 Hf1)).
  assert (T2 : sig f2 = sig f1).
  { pose proof (f_equal (fun l => nth_error l i) S2) as X. cbv beta in X. rewrite !nth_error_map, Hf2, Hf1 in X. simpl in X. congruence. }
  assert (W0 : wf f0) by (eapply r_wfs; [exact R|eapply nth_error_In; eauto]).
  assert (W1 : wf f1) by (eapply wf_sig; [symmetry; exact T1|auto]).
  assert (W2 : wf f2) by (eapply wf_sig; [symmetry; exact T2|auto]).
  split; intros Hh.
  - apply (V3 i f2 f n); auto.
    + rewrite (sig_nm _ _ T2), (sig_nm _ _ T1). auto.
    + intros C. apply Hh. eapply held_sig; [|exact T1|]; auto. eapply held_sig; [|exact T2|]; auto.
  - assert (Hh1 : held f1 n) by (eapply held_sig; [|symmetry; exact T1|]; auto).
    assert (Hh2 : held f2 n) by (eapply held_sig; [|symmetry; exact T2|]; auto).
    rewrite (i_held _ _ _ _ I3 i f2 f n) by auto. rewrite (H2 i f1 f2 n) by auto. apply (i_held _ _ _ _ I1 i f0 f1 n); auto.
Qed.

(** * Evaluating the members *)
Lemma evaluate_ok k f : rep (k_model k) f -> exists k', evaluate k = Some (k_ll k (values_of f), k') /\ static k k' /\
  map (fun r => (r_name r, r_value r)) (rows (m_frame (k_model k'))) = values_of f /\
  (forall n, value_of (m_frame (k_model k')) n = value_of f n).
Proof.
  intros R. destruct (rep_unmangle _ _ R) as (m & E & Fm & Mm & Nm & Rm).
  unfold evaluate, loglike, loglike_at. rewrite E. cbn [bind]. unfold set_values. cbn [resolve set_array].
  assert (WF : with_frame (m_frame m) m = m) by (destruct m; reflexivity). rewrite WF. cbn [bind]. rewrite Fm.
  eexists. split; [reflexivity|].
  match goal with |- static k (with_model k ?mm) /\ _ => assert (Z : m_names mm = m_names (k_model k) /\
     map (fun r => (r_name r, r_value r)) (rows (m_frame mm)) = values_of f /\ (forall n, value_of (m_frame mm) n = value_of f n)) end.
  { destruct (cython_checks_best cython_full); [|simpl; split; [|split]; auto].
    unfold check_if_best. cbn [m_best_ll]. destruct (nlt _ _); cbn [m_names m_frame rows]; split; auto; split; auto.
    - unfold values_of. rewrite map_map. reflexivity.
    - intros n. unfold value_of. cbn [rows]. rewrite find_name_map by auto. destruct (find _ _); auto. }
  destruct Z as (Z1 & Z2 & Z3). split; [repeat split; auto|]. split; auto.
Qed.
Lemma static_trans k1 k2 k3 : static k1 k2 -> static k2 k3 -> static k1 k3.
Proof. intros (A & B & C & D & E) (A' & B' & C' & D' & E'). repeat split; congruence. Qed.
Inductive evaluated : list member -> list frame -> list member -> Prop :=
| ev_nil : evaluated [] [] []
| ev_cons k0 f k' ms0 fs ms' : static k0 k' ->
    values_of (m_frame (k_model k')) = values_of f -> (forall n, value_of (m_frame (k_model k')) n = value_of f n) ->
    evaluated ms0 fs ms' -> evaluated (k0 :: ms0) (f :: fs) (k' :: ms').
Lemma evaluate_all_ok ms0 ms fs : tracked ms0 ms fs -> exists ms',
  evaluate_all ms = Some (map (fun k => k_ll k (values_of (m_frame (k_model k)))) ms', ms') /\ evaluated ms0 fs ms'.
Proof.
  induction 1 as [|k0 k f ms0 ms fs S R T (ms' & E & Q)].
  - exists []. split; [reflexivity|constructor].
  - destruct (evaluate_ok k f R) as (k' & E' & S' & V1 & V2). exists (k' :: ms'). cbn [evaluate_all]. rewrite E', E.
    split.
    + cbn [map]. f_equal. f_equal. f_equal. destruct S' as (-> & _). unfold values_of at 2. rewrite V1. reflexivity.
    + constructor; auto. eapply static_trans; eauto.
Qed.
Lemma evaluated_nth ms0 fs ms' i k0 k' : evaluated ms0 fs ms' -> nth_error ms0 i = Some k0 -> nth_error ms' i = Some k' ->
  exists f, nth_error fs i = Some f /\ static k0 k' /\ values_of (m_frame (k_model k')) = values_of f /\
    forall n, value_of (m_frame (k_model k')) n = value_of f n.
Proof.
  intros T. revert i. induction T as [|a f b ms0 fs ms' S V W T IH]; intros [|i] A B; try discriminate; simpl in *.
  - injection A as <-. injection B as <-. eauto.
  - eauto.
Qed.
Lemma evaluated_length ms0 fs ms' : evaluated ms0 fs ms' -> length ms' = length ms0.
Proof. induction 1; simpl; auto. Qed.
Lemma value_of_best ll m n : value_of (m_frame (check_if_best ll m)) n = value_of (m_frame m) n.
Proof.
  unfold check_if_best. destruct (nlt _ _); auto. unfold value_of. simpl. rewrite find_name_map by auto. destruct (find _ _); auto.
Qed.
Lemma nm_best ll m : nm (m_frame (check_if_best ll m)) = nm (m_frame m).
Proof.
  unfold check_if_best. destruct (nlt _ _); auto. unfold nm. simpl. rewrite map_map. auto.
Qed.
Lemma values_nm f g : values_of f = values_of g -> nm f = nm g.
Proof. intros H. rewrite <- !values_fst, H. auto. Qed.

Lemma prep_evaluate d x g : group_ok g -> length (g_members g) < d -> settable d x g ->
  exists g1 ms', prep_for_compute d x g = Some g1 /\
    evaluate_all (g_members g1) = Some (map (fun k => k_ll k (values_of (m_frame (k_model k)))) ms', ms') /\
    forall ll, evaluation d x g (mkGroup (check_if_best ll (g_model g1)) ms').
Proof.
  intros GO Hd S. destruct (ready_start g GO) as (fs & R & Q).
  destruct (prep_ok (g_members g) g fs d x R Hd S) as (g1 & fs1 & E1 & R1 & S1 & V1 & N1 & M1).
  destruct (evaluate_all_ok _ _ _ (r_tracked _ _ _ R1)) as (ms' & E2 & T2).
  exists g1, ms'. split; auto. split; auto. intros ll.
  assert (FS : forall k, In k (g_members g) -> exists f, In f fs /\ forall n, In n (nm f) <-> knows (k_model k) n).
  { intros k Hk. apply In_nth_error in Hk as [i Hk]. destruct (tracked_nth _ _ _ _ _ (r_tracked _ _ _ R) Hk) as (_ & f & _ & Hf & _).
    exists f. split; [eapply nth_error_In; eauto|]. apply (Q i k f); auto. }
  constructor; cbn [g_members g_model].
  - apply (evaluated_length _ _ _ T2).
  - destruct V1 as (g2 & A & B). exists g2. split; auto. destruct x as [[a kw]|].
    + destruct B as (m & B & C). exists m. split; auto. intros n. rewrite value_of_best. auto.
    + intros n. rewrite value_of_best. auto.
  - intros n. change (In n (nm (m_frame (check_if_best ll (g_model g1)))) <-> group_knows g n). rewrite nm_best, N1. unfold group_knows.
    split; (intros [H|H]; [left; exact H|right]).
    + destruct H as (f & A & B). destruct (in_tracked _ _ _ _ (r_tracked _ _ _ R) A) as (i & k & C & D & _).
      exists k. split; [eapply nth_error_In; eauto|]. apply (Q i k f); auto.
    + destruct H as (k & A & B). destruct (FS k A) as (f & C & D). exists f. split; auto. apply D. auto.
  - intros i k k' A B. destruct (evaluated_nth _ _ _ _ _ _ T2 A B) as (f & _ & X & _). auto.
  - intros i k k' A B. destruct (evaluated_nth _ _ _ _ _ _ T2 A B) as (f & F1 & _ & F2 & F3).
    destruct (tracked_nth _ _ _ _ _ (r_tracked _ _ _ R) A) as (_ & f0 & _ & F0 & _).
    destruct (Q i k f0 A F0) as (Q1 & Q2 & Q3 & Q4).
    assert (Sg : sig f = sig f0).
    { pose proof (f_equal (fun l => nth_error l i) S1) as X. cbv beta in X. rewrite !nth_error_map, F1, F0 in X. simpl in X. congruence. }
    split; [|split; [|split]].
    + intros n. rewrite <- Q1, <- (sig_nm _ _ Sg), <- (values_nm _ _ F2). reflexivity.
    + unfold wf. change (NoDup (nm (m_frame (k_model k')))). rewrite (values_nm _ _ F2). apply (r_wfs _ _ _ R1). eapply nth_error_In; eauto.
    + intros n Hn Hh. rewrite F3, value_of_best. apply (M1 i f0 f n); auto; [apply Q1; auto|]. rewrite Q4. auto.
    + intros n Hh. rewrite F3. assert (Hh' := Hh). apply Q4 in Hh'.
      assert (Hn : In n (map r_name (rows (m_frame (k_model k))))) by (destruct Hh as (r & ? & <- & _); apply in_map; auto).
      rewrite (proj2 (M1 i f0 f n F0 F1 (proj2 (Q1 n) (or_introl Hn))) Hh').
      destruct (value_of_some _ _ Hn) as [v Ev]. rewrite Ev. apply Q2. auto.
Qed.
