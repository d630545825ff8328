(** Proofs about [GroupModel]. *)
From Verif Require Export GroupSpec ParamProofs.

Definition nm (f : frame) : list string := map r_name (rows f).

(** * Values by name *)
Lemma find_name_map (g : row -> row) n l : (forall r, r_name (g r) = r_name r) ->
  find (fun r => String.eqb (r_name r) n) (map g l) = option_map g (find (fun r => String.eqb (r_name r) n) l).
Proof.
  intros H. induction l as [|r l IH]; simpl; auto. rewrite H. destruct (String.eqb (r_name r) n); auto.
Qed.
Lemma value_of_none f n : value_of f n = None <-> ~ In n (nm f).
Proof.
  unfold value_of, nm. induction (rows f) as [|r l IH]; simpl; [tauto|].
  destruct (String.eqb_spec (r_name r) n) as [E|E]; simpl.
  - split; [discriminate|]. intros H. exfalso. auto.
  - rewrite IH. tauto.
Qed.
Lemma value_of_some f n : In n (nm f) -> exists v, value_of f n = Some v.
Proof.
  intros H. destruct (value_of f n) eqn:E; eauto. apply value_of_none in E. contradiction.
Qed.
Lemma value_of_in f n v : wf f -> value_of f n = Some v <-> In (n, v) (values_of f).
Proof.
  unfold value_of, values_of, wf. induction (rows f) as [|r l IH]; simpl; intros W; [split; [discriminate|tauto]|].
  inversion W as [|? ? Hn W']; subst. destruct (String.eqb_spec (r_name r) n) as [E|E]; simpl.
  - subst n. split; [intros [= ->]; auto|]. intros [[= ->]|H]; auto. exfalso. apply Hn.
    apply in_map_iff in H as (q & [= E1 E2] & Hq). rewrite <- E1. apply in_map. auto.
  - rewrite IH by auto. split; auto. intros [H|H]; auto. congruence.
Qed.
Lemma value_of_perm f g n : wf f -> Permutation (rows f) (rows g) -> value_of f n = value_of g n.
Proof.
  intros W P. assert (W' : wf g) by (eapply perm_nodup_names; eauto).
  assert (H : forall v, value_of f n = Some v <-> value_of g n = Some v).
  { intros v. rewrite !value_of_in by auto. unfold values_of.
    split; apply Permutation_in; [|symmetry]; apply Permutation_map; auto. }
  destruct (value_of f n) as [v|] eqn:E, (value_of g n) as [w|] eqn:E'; auto.
  - symmetry. apply H. auto.
  - symmetry. apply H. auto.
  - apply H. auto.
Qed.
Lemma values_fst f : map fst (values_of f) = nm f.
Proof. unfold values_of, nm. rewrite map_map. auto. Qed.
Lemma perm_nm f g n : Permutation (rows f) (rows g) -> In n (nm f) <-> In n (nm g).
Proof. intros P. split; apply Permutation_in; [|symmetry]; apply Permutation_map; auto. Qed.

(** * One member *)
(** [f] is the frame the member's model has, or would have after a scan. *)
Definition rep (m : model) (f : frame) : Prop :=
  wf (m_frame m) /\ names_ok (m_names m) /\ wf f /\
  if m_mangled m then scan_all (m_names m) (m_frame m) = Some f else m_frame m = f.

Lemma rep_unmangle m f : rep m f -> exists m', unmangle false m = Ret tt m' /\ m_frame m' = f /\
  m_mangled m' = false /\ m_names m' = m_names m /\ rep m' f.
Proof.
  intros (W & N & Wf & H). unfold unmangle. destruct (m_mangled m) eqn:E.
  - rewrite H. eexists. split; [reflexivity|]. simpl. repeat split; auto; apply N.
  - exists m. split; [reflexivity|]. repeat split; auto; try apply N. rewrite E. auto.
Qed.

Lemma scan_fix m f : wf f -> names_ok m -> scan_all m f = Some f ->
  (forall n, In n (n_util m) \/ In n (n_quant m) \/ In n (n_logsum m) -> In n (nm f)) /\ sorted_rows (rows f).
Proof.
  intros W N H. destruct (scan_all_eq m f W N) as [E _]. rewrite H in E. injection E as E.
  split.
  - intros n Hn. unfold nm. rewrite E. cbn [rows]. apply (Permutation_in n (Permutation_map r_name (sort_perm (scanned m f)))).
    apply scanned_all_names; auto.
  - rewrite E. cbn [rows]. apply sort_sorted.
Qed.
Lemma sorted_names (g : row -> row) l : (forall r, r_name (g r) = r_name r) -> sorted_rows l -> sorted_rows (map g l).
Proof.
  intros H. induction 1 as [|r l Hd S IH]; simpl; constructor; auto.
  intros x Hx. apply in_map_iff in Hx as (y & <- & Hy). rewrite !H. auto.
Qed.
Lemma kw_row_name kw r : r_name (kw_row kw r) = r_name r.
Proof. destruct (kw_row_same kw r) as [E _]. auto. Qed.
Lemma nm_kw kw f : nm (fold_left set_kw kw f) = nm f.
Proof. rewrite fold_set_kw. unfold nm. simpl. rewrite map_map. apply map_ext. apply kw_row_name. Qed.
Lemma scan_fix_kw m f kw : wf f -> names_ok m -> scan_all m f = Some f ->
  scan_all m (fold_left set_kw kw f) = Some (fold_left set_kw kw f).
Proof.
  intros W N H. destruct (scan_fix m f W N H) as [C S].
  assert (W' : wf (fold_left set_kw kw f)).
  { unfold wf. change (NoDup (nm (fold_left set_kw kw f))). rewrite nm_kw. auto. }
  destruct (scan_all_eq m _ W' N) as [E _]. rewrite E. f_equal. rewrite scanned_complete.
  - rewrite sort_of_sorted; auto.
    + destruct (fold_left set_kw kw f); auto.
    + rewrite fold_set_kw. simpl. apply sorted_names; auto. apply kw_row_name.
  - intros n Hn. change (In n (nm (fold_left set_kw kw f))). rewrite nm_kw. apply C. auto.
Qed.

Lemma find_reserved n kw : reserved n = true -> (forall m, In m (map fst kw) -> reserved m = false) ->
  find (fun kv : string * num => String.eqb (fst kv) n) kw = None.
Proof.
  intros Hn H. induction kw as [|kv kw IH]; simpl; auto.
  destruct (String.eqb_spec (fst kv) n) as [E|E].
  - exfalso. rewrite <- E, H in Hn; [discriminate|left; auto].
  - apply IH. intros m Hm. apply H. right. auto.
Qed.
Lemma filter_reserved kw : (forall m, In m (map fst kw) -> reserved m = false) ->
  filter (fun kv : string * num => negb (reserved (fst kv))) kw = kw.
Proof.
  induction kw as [|kv kw IH]; intros H; simpl; auto. rewrite H by (left; auto). simpl. f_equal. apply IH.
  intros m Hm. apply H. right. auto.
Qed.
Lemma call_plain kw m : (forall n, In n (map fst kw) -> reserved n = false) ->
  call_set_values kw m = set_values VNone true kw m.
Proof.
  intros H. unfold call_set_values.
  rewrite !(find_reserved _ kw) by (auto; reflexivity). rewrite filter_reserved by auto. reflexivity.
Qed.

Lemma rep_call kw m f : (forall n, In n (map fst kw) -> reserved n = false) -> rep m f ->
  exists m', call_set_values kw m = Ret tt m' /\ rep m' (fold_left set_kw kw f) /\
    m_names m' = m_names m /\ m_mangled m' = m_mangled m.
Proof.
  intros H R. rewrite call_plain by auto. unfold set_values. cbn [resolve set_array].
  assert (WF : with_frame (m_frame m) m = m) by (destruct m; reflexivity). rewrite WF.
  destruct kw as [|kv kw].
  { exists m. repeat split; auto; apply R. }
  destruct R as (W & N & Wf & Hf).
  assert (W' : wf (fold_left set_kw (kv :: kw) f)).
  { unfold wf. change (NoDup (nm (fold_left set_kw (kv :: kw) f))). rewrite nm_kw. auto. }
  destruct (m_mangled m) eqn:E.
  - rewrite Hf. eexists. split; [reflexivity|]. split; [|split; simpl; auto]. split; [exact W'|].
    split; [auto|]. split; [exact W'|]. cbn [with_frame m_mangled m_frame m_names]. rewrite E.
    apply (scan_fix_kw (m_names m) f (kv :: kw)); auto. apply (scan_idem (m_names m) (m_frame m) f); auto.
  - subst f. eexists. split; [reflexivity|]. split; [|split; simpl; auto]. split; [exact W'|].
    split; [auto|]. split; [exact W'|]. cbn [with_frame m_mangled m_frame m_names]. rewrite E. reflexivity.
Qed.

(** * All members *)
Inductive tracked : list member -> list member -> list frame -> Prop :=
| tr_nil : tracked [] [] []
| tr_cons k0 k f ms0 ms fs : static k0 k -> rep (k_model k) f -> tracked ms0 ms fs ->
    tracked (k0 :: ms0) (k :: ms) (f :: fs).

Lemma static_with k0 k m : static k0 k -> m_names m = m_names (k_model k) -> static k0 (with_model k m).
Proof. intros (A & B & C & D & E) H. repeat split; simpl; congruence. Qed.
Lemma tracked_nth ms0 ms fs i k : tracked ms0 ms fs -> nth_error ms i = Some k ->
  exists k0 f, nth_error ms0 i = Some k0 /\ nth_error fs i = Some f /\ static k0 k /\ rep (k_model k) f.
Proof.
  intros T. revert i. induction T as [|k0 k1 f ms0 ms fs S R T IH]; intros i Hi; [destruct i; discriminate|].
  destruct i; simpl in *; [|auto]. injection Hi as <-. eauto 6.
Qed.
Lemma tracked_set ms0 ms fs i k m f : tracked ms0 ms fs -> nth_error ms i = Some k -> nth_error fs i = Some f ->
  m_names m = m_names (k_model k) -> rep m f -> tracked ms0 (set_member ms i (with_model k m)) fs.
Proof.
  intros T. revert i. induction T as [|k0 k1 f1 ms0 ms fs S R T IH]; intros i Hi Hf Hn Hr; [destruct i; discriminate|].
  destruct i; simpl in *.
  - injection Hi as <-. injection Hf as <-. constructor; auto. apply static_with; auto.
  - constructor; auto. 
Qed.
Lemma tracked_length ms0 ms fs : tracked ms0 ms fs -> length ms0 = length ms /\ length fs = length ms.
Proof. induction 1; simpl; intuition lia. Qed.
Lemma set_member_same l i k x : nth_error l i = Some x -> nth_error (set_member l i k) i = Some k.
Proof. revert i. induction l; intros [|i] H; simpl in *; auto; discriminate. Qed.
Lemma set_member_length l i k : length (set_member l i k) = length l.
Proof. revert i. induction l; intros [|i]; simpl; auto. Qed.

Lemma push_ok kw ms0 ms fs : (forall n, In n (map fst kw) -> reserved n = false) -> tracked ms0 ms fs ->
  exists ms', push kw ms = Some ms' /\ tracked ms0 ms' (map (fold_left set_kw kw) fs) /\
    map (fun k => m_mangled (k_model k)) ms' = map (fun k => m_mangled (k_model k)) ms.
Proof.
  intros H T. induction T as [|k0 k f ms0 ms fs S R T (ms' & E & T' & M)]; simpl.
  - exists []. repeat split. constructor.
  - destruct (rep_call kw (k_model k) f H R) as (m & Em & Rm & Nm & Mm). rewrite Em. simpl. rewrite E.
    eexists. split; [reflexivity|]. split; [constructor; auto; apply static_with; auto|]. simpl. congruence.
Qed.
