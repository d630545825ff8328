From Verif Require Export ParamProofs.
From Verif Require Export LcSyncSpec.

Definition nv (f : frame) : list (string * num) := map (fun r => (r_name r, r_value r)) (rows f).
Lemma nv_names f : map fst (nv f) = map r_name (rows f).
Proof. unfold nv. rewrite map_map. reflexivity. Qed.

Lemma set_nth_length {A} (l : list A) i x : length (set_nth l i x) = length l.
Proof. revert i. induction l; destruct i; simpl; auto. Qed.
Lemma set_nth_same {A} (l : list A) i x : i < length l -> nth_error (set_nth l i x) i = Some x.
Proof. revert i. induction l; destruct i; simpl; intros; auto; try lia. apply IHl. lia. Qed.
Lemma set_nth_other {A} (l : list A) i j x : j <> i -> nth_error (set_nth l i x) j = nth_error l j.
Proof. revert i j. induction l; destruct i, j; simpl; intros; auto; try congruence. Qed.
Lemma set_nth_map {A B} (f : A -> B) l i x y : nth_error l i = Some y -> f x = f y -> map f (set_nth l i x) = map f l.
Proof.
  revert i. induction l; destruct i; simpl; intros H E; try discriminate.
  - injection H as ->. rewrite E. reflexivity.
  - f_equal. eauto.
Qed.
Lemma map_set_nth {A B} (f : A -> B) l i x : map f (set_nth l i x) = set_nth (map f l) i (f x).
Proof. revert i. induction l; destruct i; simpl; auto. f_equal. auto. Qed.

(** [s'] differs from [s] in flags and 'best' columns only. *)
Definition quiet (s s' : lcm) : Prop :=
  map p_ref (parts s') = map p_ref (parts s) /\ map p_names (parts s') = map p_names (parts s) /\
  next s' = next s /\ py_mangled s' = py_mangled s /\ forall r, nv (heap s' r) = nv (heap s r).
Lemma quiet_refl s : quiet s s.
Proof. repeat split; auto. Qed.
Lemma quiet_trans s1 s2 s3 : quiet s1 s2 -> quiet s2 s3 -> quiet s1 s3.
Proof. intros (A1 & A2 & A3 & A4 & A5) (B1 & B2 & B3 & B4 & B5). repeat split; congruence. Qed.
Lemma nv_no_best f b : nv (mkFrame (map no_best (rows f)) b) = nv f.
Proof. unfold nv. simpl. rewrite map_map. reflexivity. Qed.
Lemma mangle_part_quiet i s : quiet s (mangle_part i s).
Proof.
  unfold mangle_part. destruct (nth_error (parts s) i) as [p|] eqn:E; [|apply quiet_refl].
  repeat split; simpl; auto.
  - eapply set_nth_map; eauto.
  - eapply set_nth_map; eauto.
  - intros r. unfold put. destruct (Nat.eqb_spec r (p_ref p)) as [ ->|]; auto. apply nv_no_best.
Qed.
Lemma mangle_quiet s : quiet s (mangle s).
Proof.
  unfold mangle. generalize (seq 1 (pred (length (parts s))) ++ [0]). intros l. revert s.
  induction l as [|i l IH]; intros s; simpl; [apply quiet_refl|].
  eapply quiet_trans; [apply mangle_part_quiet|apply IH].
Qed.

Lemma nth_ref s i : nth_error (map p_ref (parts s)) i = option_map p_ref (nth_error (parts s) i).
Proof. apply nth_error_map. Qed.
Lemma nth_pnames s i : nth_error (map p_names (parts s)) i = option_map p_names (nth_error (parts s) i).
Proof. apply nth_error_map. Qed.

(** * One scan *)
Definition mentions (m : modelnames) (n : string) : Prop := In n (n_util m) \/ In n (n_quant m) \/ In n (n_logsum m).

Lemma scan_facts m f : wf f -> names_ok m -> exists f', scan_all m f = Some f' /\ wf f' /\
  (forall n, In n (map r_name (rows f')) <-> In n (map r_name (rows f)) \/ mentions m n) /\
  (forall x, In x (nv f) -> In x (nv f')) /\
  (length (rows f') = length (rows f) <-> forall n, mentions m n -> In n (map r_name (rows f))) /\
  ((forall n, mentions m n -> In n (map r_name (rows f))) -> Permutation (nv f) (nv f')).
Proof.
  intros Hw Hm. destruct (scan_all_eq m f Hw Hm) as [E Hn]. eexists. split; [exact E|].
  destruct (scanned_old m f) as (extra & Ex & Hex).
  assert (P : Permutation (scanned m f) (sort_rows (scanned m f))) by apply sort_perm.
  assert (Q : forall n, In n (map r_name (sort_rows (scanned m f))) <-> In n (map r_name (scanned m f))).
  { intros n. split; apply Permutation_in; [symmetry|]; apply Permutation_map; auto. }
  assert (Hnames : forall n, In n (map r_name (sort_rows (scanned m f))) <->
     In n (map r_name (rows f)) \/ mentions m n).
  { intros n. rewrite Q. split.
    - rewrite Ex, map_app, in_app_iff. intros [H|H]; auto. apply in_map_iff in H as (r & <- & Hr).
      destruct (Hex r Hr) as (n & [[-> H]|[ -> H]] & _); simpl; right; unfold mentions; tauto.
    - intros [H|H].
      + rewrite Ex, map_app, in_app_iff. auto.
      + apply scanned_all_names; auto. }
  assert (Hcomplete : (forall n, mentions m n -> In n (map r_name (rows f))) -> scanned m f = rows f)
    by (intros H; apply scanned_complete; auto).
  split; [unfold wf; simpl; eapply perm_nodup_names; [apply P|auto]|].
  split; [exact Hnames|].
  split.
  { intros x Hx. unfold nv in *. simpl. eapply Permutation_in; [apply Permutation_map, P|].
    rewrite Ex, map_app, in_app_iff. auto. }
  split.
  - split; intros H.
    + intros n Hn'. assert (L : length extra = 0).
      { simpl in H. rewrite <- (Permutation_length P), Ex, app_length in H. lia. }
      destruct extra; [|discriminate]. rewrite app_nil_r in Ex.
      rewrite <- Ex. apply scanned_all_names. auto.
    + simpl. rewrite <- (Permutation_length P), Hcomplete; auto.
  - intros H. unfold nv. simpl. apply Permutation_map. rewrite <- (Hcomplete H) at 1. auto.
Qed.

(** Scanning one part: its frame is replaced, at its own reference when nothing was missing and at a
    new one otherwise. *)
Lemma scan_part_facts i s p : nth_error (parts s) i = Some p -> wf (heap s (p_ref p)) -> names_ok (p_names p) ->
  exists s' r f', scan_part i s = Some s' /\ heap s' = put r f' (heap s) /\
    parts s' = set_nth (parts s) i (mkPart r (p_names p) false) /\ py_mangled s' = py_mangled s /\
    (r = p_ref p /\ next s' = next s \/ r = next s /\ next s' = S (next s)) /\
    wf f' /\
    (forall n, In n (map r_name (rows f')) <-> In n (map r_name (rows (heap s (p_ref p)))) \/ mentions (p_names p) n) /\
    (forall x, In x (nv (heap s (p_ref p))) -> In x (nv f')) /\
    ((forall n, mentions (p_names p) n -> In n (map r_name (rows (heap s (p_ref p))))) ->
       r = p_ref p /\ next s' = next s /\ Permutation (nv (heap s (p_ref p))) (nv f')).
Proof.
  intros Hp Hw Hn. destruct (scan_facts _ _ Hw Hn) as (f' & E & W & N1 & N2 & N3 & N4).
  unfold scan_part. rewrite Hp, E.
  destruct (Nat.eqb_spec (length (rows f')) (length (rows (heap s (p_ref p))))) as [L|L]; cbn [negb].
  - eexists. exists (p_ref p), f'. split; [reflexivity|]. cbn [heap parts py_mangled next].
    split; [auto|]. split; [auto|]. split; [auto|]. split; [left; auto|]. split; [auto|]. split; [auto|]. split; [auto|].
    intros H. auto.
  - eexists. exists (next s), f'. split; [reflexivity|]. cbn [heap parts py_mangled next].
    split; [auto|]. split; [auto|]. split; [auto|]. split; [right; auto|]. split; [auto|]. split; [auto|]. split; [auto|].
    intros H. exfalso. apply L, N3, H.
Qed.

(** * Scanning all the parts of a model just put together *)
Section Together.
Variable s0 : lcm.
Hypothesis PT : put_together s0.

Record scanned_upto (k : nat) (s : lcm) : Prop := {
  su_names : map p_names (parts s) = map p_names (parts s0);
  su_own : NoDup (map p_ref (parts s));
  su_alloc : forall r, In r (map p_ref (parts s)) -> r < next s;
  su_py : py_mangled s = true;
  su_done : forall i p, i < k -> nth_error (parts s) i = Some p ->
    wf (heap s (p_ref p)) /\
    (forall n, In n (map r_name (rows (heap s (p_ref p)))) <-> knows i n s0) /\
    (forall p0, nth_error (parts s0) i = Some p0 -> forall x, In x (nv (heap s0 (p_ref p0))) -> In x (nv (heap s (p_ref p))));
  su_todo : forall i, k <= i -> nth_error (parts s) i = nth_error (parts s0) i /\
    forall p, nth_error (parts s) i = Some p -> heap s (p_ref p) = heap s0 (p_ref p) }.

Lemma su_start : scanned_upto 0 s0.
Proof.
  destruct PT. constructor; auto.
  - intros r H. apply in_map_iff in H as (p & <- & H). auto.
  - intros. lia.
Qed.

Lemma names_in_at s i p : nth_error (parts s) i = Some p -> names_in i s = map r_name (rows (heap s (p_ref p))).
Proof. intros H. unfold names_in. rewrite H. reflexivity. Qed.
Lemma uses_at s i p n : nth_error (parts s) i = Some p -> uses i n s <-> mentions (p_names p) n.
Proof.
  intros H. unfold uses, mentions. split.
  - intros (p' & H' & U). rewrite H in H'. injection H' as <-. auto.
  - intros U. exists p. auto.
Qed.
Lemma set_nth_nodup l i (r : nat) : NoDup l -> ~ In r l -> NoDup (set_nth l i r).
Proof.
  intros H. revert i. induction H as [|x l Hx H IH]; intros i N; simpl; [constructor|].
  destruct i.
  - constructor; auto. intros C. apply N. right. auto.
  - constructor.
    + intros C. assert (In x (set_nth l i r) -> x = r \/ In x l) as D.
      { clear. revert i. induction l; destruct i; simpl; intuition. destruct (IHl i); auto. }
      destruct (D C) as [ ->|D']; auto. apply N. left. auto.
    + apply IH. intros C. apply N. right. auto.
Qed.
Lemma set_nth_id {A} (l : list A) i x : nth_error l i = Some x -> set_nth l i x = l.
Proof. revert i. induction l; destruct i; simpl; intros H; try discriminate; [injection H as ->; auto|f_equal; auto]. Qed.
Lemma in_set_nth {A} (l : list A) i x y : In y (set_nth l i x) -> y = x \/ In y l.
Proof. revert i. induction l; destruct i; simpl; intuition. destruct (IHl _ H0); auto. Qed.
Lemma nodup_nth_ref s i j p q : NoDup (map p_ref (parts s)) -> nth_error (parts s) i = Some p ->
  nth_error (parts s) j = Some q -> p_ref p = p_ref q -> i = j.
Proof.
  intros N Hi Hj E.
  assert (Hi' : nth_error (map p_ref (parts s)) i = Some (p_ref p)) by (rewrite nth_ref, Hi; auto).
  assert (Hj' : nth_error (map p_ref (parts s)) j = Some (p_ref p)) by (rewrite nth_ref, Hj; simpl; congruence).
  eapply NoDup_nth_error; eauto; [|congruence].
  apply nth_error_Some. congruence.
Qed.

Lemma su_scan k s p : scanned_upto k s -> nth_error (parts s) k = Some p ->
  exists s', scan_part k s = Some s' /\ scanned_upto (S k) s'.
Proof.
  intros SU Hp. destruct (su_todo _ _ SU k (le_n k)) as [T1 T2].
  assert (Hp0 : nth_error (parts s0) k = Some p) by congruence.
  assert (Hh : heap s (p_ref p) = heap s0 (p_ref p)) by (apply T2; auto).
  assert (Hin : In p (parts s0)) by (eapply nth_error_In; eauto).
  assert (Hk : k < length (parts s)) by (apply nth_error_Some; congruence).
  destruct (scan_part_facts k s p Hp) as (s' & r & f' & E & H1 & H2 & H3 & H4 & H5 & H6 & H7 & H8).
  { rewrite Hh. apply (pt_rows _ PT). auto. }
  { apply (pt_names _ PT). auto. }
  exists s'. split; auto.
  assert (Hr : r = p_ref p \/ ~ In r (map p_ref (parts s))).
  { destruct H4 as [[H4 _]|[H4 _]]; auto. right. intros C. apply (su_alloc _ _ SU) in C. lia. }
  assert (Hput : forall i q, i <> k -> nth_error (parts s) i = Some q -> heap s' (p_ref q) = heap s (p_ref q)).
  { intros i q Hi Hq. rewrite H1. unfold put. destruct (Nat.eqb_spec (p_ref q) r) as [Eq|]; auto. exfalso.
    destruct Hr as [Hr|Hr].
    - apply Hi. eapply nodup_nth_ref; eauto; [apply (su_own _ _ SU)|congruence].
    - apply Hr. rewrite <- Eq. apply in_map. eapply nth_error_In; eauto. }
  constructor.
  - rewrite H2. erewrite set_nth_map; [apply (su_names _ _ SU)|exact Hp|reflexivity].
  - rewrite H2, map_set_nth. simpl. destruct Hr as [ ->|Hr].
    + rewrite set_nth_id; [apply (su_own _ _ SU)|]. rewrite nth_ref, Hp. reflexivity.
    + apply set_nth_nodup; auto. apply (su_own _ _ SU).
  - intros r' Hr'. rewrite H2, map_set_nth in Hr'. simpl in Hr'. apply in_set_nth in Hr' as [ ->|Hr'].
    + destruct H4 as [[-> ->]|[ -> ->]]; [|lia]. apply (su_alloc _ _ SU), in_map. eapply nth_error_In; eauto.
    + apply (su_alloc _ _ SU) in Hr'. destruct H4 as [[_ ->]|[_ ->]]; lia.
  - rewrite H3. apply (su_py _ _ SU).
  - intros i q Hi Hq. rewrite H2 in Hq. destruct (Nat.eq_dec i k) as [ ->|Hne].
    + rewrite set_nth_same in Hq by auto. injection Hq as <-. simpl. rewrite H1. unfold put. rewrite Nat.eqb_refl.
      split; auto. split.
      * intros n. rewrite H6, Hh. unfold knows. rewrite (names_in_at s0 k p Hp0), (uses_at s0 k p n Hp0). tauto.
      * intros p0 Hp0' x Hx. rewrite Hp0 in Hp0'. injection Hp0' as <-. apply H7. rewrite Hh. auto.
    + rewrite set_nth_other in Hq by auto. rewrite (Hput i q Hne Hq). apply (su_done _ _ SU); auto. lia.
  - intros i Hi. rewrite H2, set_nth_other by lia. destruct (su_todo _ _ SU i) as [U1 U2]; [lia|]. split; auto.
    intros q Hq. rewrite (Hput i q); [apply U2; auto|lia|auto].
Qed.

Lemma su_skip k s p : scanned_upto k s -> nth_error (parts s) k = Some p -> p_mangled p = false ->
  scanned_upto (S k) s.
Proof.
  intros SU Hp Hm. destruct (su_todo _ _ SU k (le_n k)) as [T1 T2].
  assert (Hp0 : nth_error (parts s0) k = Some p) by congruence.
  assert (Hh : heap s (p_ref p) = heap s0 (p_ref p)) by (apply T2; auto).
  constructor; try apply SU.
  - intros i q Hi Hq. destruct (Nat.eq_dec i k) as [ ->|Hne].
    + rewrite Hp in Hq. injection Hq as <-. rewrite Hh. split; [apply (pt_rows _ PT); eapply nth_error_In; eauto|].
      split.
      * intros n. unfold knows. rewrite (names_in_at s0 k p Hp0). split; auto. intros [H|H]; auto.
        rewrite <- (names_in_at s0 k p Hp0). eapply (pt_scan _ PT); eauto.
      * intros p0 Hp0' x Hx. rewrite Hp0 in Hp0'. injection Hp0' as <-. auto.
    + apply (su_done _ _ SU); auto. lia.
  - intros i Hi. apply (su_todo _ _ SU). lia.
Qed.

Lemma su_self : exists s, unmangle_self false s0 = Some s /\ (0 < length (parts s0) -> scanned_upto 1 s).
Proof.
  unfold unmangle_self. destruct (nth_error (parts s0) 0) as [p|] eqn:Hp.
  - destruct (p_mangled p || false) eqn:M.
    + destruct (su_scan 0 s0 p su_start Hp) as (s' & E & SU). exists s'. split; auto.
    + exists s0. split; auto. intros _. apply (su_skip 0 s0 p su_start Hp). rewrite orb_false_r in M. auto.
  - exists s0. split; auto. intros H. apply nth_error_None in Hp. lia.
Qed.

Lemma su_length k s : scanned_upto k s -> length (parts s) = length (parts s0).
Proof. intros SU. rewrite <- (map_length p_names), (su_names _ _ SU), map_length. reflexivity. Qed.

Lemma su_fold k m s : scanned_upto k s -> k + m <= length (parts s0) ->
  exists s', fold_left (unmangle_part false) (seq k m) (Some s) = Some s' /\ scanned_upto (k + m) s'.
Proof.
  revert k s. induction m as [|m IH]; intros k s SU L; simpl.
  - exists s. rewrite Nat.add_0_r. auto.
  - destruct (nth_error (parts s) k) as [p|] eqn:Hp.
    2:{ apply nth_error_None in Hp. rewrite (su_length _ _ SU) in Hp. lia. }
    destruct (p_mangled p) eqn:M.
    + destruct (su_scan k s p SU Hp) as (s1 & E & SU1). rewrite E.
      destruct (IH (S k) s1 SU1) as (s' & E' & SU'); [lia|]. exists s'. rewrite E'. split; auto.
      replace (k + S m) with (S k + m) by lia. auto.
    + destruct (IH (S k) s (su_skip k s p SU Hp M)) as (s' & E' & SU'); [lia|]. exists s'. rewrite E'. split; auto.
      replace (k + S m) with (S k + m) by lia. auto.
Qed.
End Together.
