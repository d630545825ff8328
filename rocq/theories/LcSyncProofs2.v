From Verif Require Export LcSyncProofs.

Lemma shown_nv f : map (fun r => (r_name r, r_value r)) (shown f) = nv f.
Proof. unfold shown, nv. destruct (has_best f); auto. rewrite map_map. reflexivity. Qed.
Lemma shown_names f : map r_name (shown f) = map r_name (rows f).
Proof. unfold shown. destruct (has_best f); auto. rewrite map_map. reflexivity. Qed.
Lemma frame_equals_names f g : frame_equals f g = true -> map r_name (rows f) = map r_name (rows g).
Proof.
  unfold frame_equals. intros H. apply andb_true_iff in H as [_ H].
  destruct (list_eq_dec row_eq_dec (shown f) (shown g)) as [E|]; [|discriminate].
  rewrite <- (shown_names f), <- (shown_names g), E. reflexivity.
Qed.

Lemma keep_first_names seen l n : In n (map r_name (keep_first seen l)) <-> In n (map r_name l) /\ ~ In n seen.
Proof.
  revert seen. induction l as [|r l IH]; intros seen; simpl; [tauto|].
  destruct (mem (r_name r) seen) eqn:M.
  - apply mem_In in M. rewrite IH. split; [tauto|]. intros [[<-|H] N]; tauto.
  - apply mem_false in M. simpl. rewrite IH. simpl. split.
    + intros [<-|[H N]]; tauto.
    + intros [[<-|H] N]; auto. destruct (string_dec (r_name r) n); auto. right. split; auto. intros [C|C]; auto.
Qed.
Lemma keep_first_nodup seen l : NoDup (map r_name (keep_first seen l)).
Proof.
  revert seen. induction l as [|r l IH]; intros seen; simpl; [constructor|].
  destruct (mem (r_name r) seen); auto. simpl. constructor; auto.
  rewrite keep_first_names. simpl. tauto.
Qed.
Lemma keep_first_first seen l1 r l2 : ~ In (r_name r) seen -> ~ In (r_name r) (map r_name l1) ->
  In r (keep_first seen (l1 ++ r :: l2)).
Proof.
  revert seen. induction l1 as [|x l1 IH]; intros seen N1 N2; simpl in *.
  - destruct (mem (r_name r) seen) eqn:M; [apply mem_In in M; tauto|]. left. auto.
  - destruct (mem (r_name x) seen) eqn:M; [apply IH; tauto|]. right. apply IH; [|tauto].
    simpl. intros [C|C]; tauto.
Qed.

Section Sync.
Variable s0 : lcm.
Hypothesis PT : put_together s0.
Hypothesis NK : no_part_knows_all s0.
Let L := length (parts s0).

Section After.
Variable s : lcm.
Hypothesis SU : scanned_upto s0 L s.
Let loc := next s.
Let J := joined (map (heap s) (map p_ref (parts s))).

Lemma L_len : length (parts s) = L.
Proof. apply (su_length s0 _ _ SU). Qed.
Lemma some_part i : i < L -> exists p, nth_error (parts s) i = Some p.
Proof.
  intros H. destruct (nth_error (parts s) i) eqn:E; eauto. apply nth_error_None in E. rewrite L_len in E. lia.
Qed.

Lemma J_names n : In n (map r_name (rows J)) <-> exists i, i < L /\ knows i n s0.
Proof.
  unfold J, joined. simpl. rewrite keep_first_names. split.
  - intros [H _]. apply in_map_iff in H as (r & <- & H). apply in_flat_map in H as (f & Hf & Hr).
    apply in_map_iff in Hf as (ref & <- & Href). apply in_map_iff in Href as (p & <- & Hp).
    apply In_nth_error in Hp as [i Hi]. assert (Li : i < L) by (rewrite <- L_len; apply nth_error_Some; congruence).
    exists i. split; auto. apply (su_done _ _ _ SU i p Li Hi). rewrite <- shown_names. apply in_map. auto.
  - intros (i & Li & K). split; auto. destruct (some_part i Li) as [p Hi].
    apply (su_done _ _ _ SU i p Li Hi) in K. rewrite <- shown_names in K. apply in_map_iff in K as (r & <- & Hr).
    apply in_map. apply in_flat_map. exists (heap s (p_ref p)). split; auto.
    apply in_map, in_map. eapply nth_error_In; eauto.
Qed.
Lemma J_wf : wf J.
Proof. apply keep_first_nodup. Qed.

(** The first part that knows a name decides its value. *)
Lemma J_first i n v p0 : i < L -> nth_error (parts s0) i = Some p0 -> In (n, v) (nv (heap s0 (p_ref p0))) ->
  (forall j, j < i -> ~ knows j n s0) -> In (n, v) (nv J).
Proof.
  intros Li Hp0 Hv Hn. destruct (some_part i Li) as [p Hi].
  destruct (su_done _ _ _ SU i p Li Hi) as (_ & _ & K). specialize (K p0 Hp0 _ Hv).
  rewrite <- shown_nv in K. apply in_map_iff in K as (r & Er & Hr). injection Er as E1 E2.
  apply in_split in Hr as (a & b & Hr).
  assert (exists l1 l2, flat_map shown (map (heap s) (map p_ref (parts s))) = l1 ++ r :: l2 /\ ~ In (r_name r) (map r_name l1)) as (l1 & l2 & El & Nl).
  { destruct (nth_error_split _ _ Hi) as (ps1 & ps2 & Eps & Lps).
    exists (flat_map shown (map (heap s) (map p_ref ps1)) ++ a),
      (b ++ flat_map shown (map (heap s) (map p_ref ps2))).
    split.
    - rewrite Eps, !map_app, flat_map_app. simpl. rewrite Hr, <- !app_assoc. reflexivity.
    - rewrite map_app, in_app_iff. intros [C|C].
      + apply in_map_iff in C as (r' & Er' & C). apply in_flat_map in C as (f & Hf & Hr').
        apply in_map_iff in Hf as (ref & <- & Href). apply in_map_iff in Href as (q & <- & Hq).
        apply In_nth_error in Hq as [j Hj]. assert (Lj : j < length ps1) by (apply nth_error_Some; congruence).
        assert (Hj' : nth_error (parts s) j = Some q) by (rewrite Eps, nth_error_app1; auto).
        apply (Hn j); [lia|]. apply (su_done _ _ _ SU j q); auto; [lia|].
        rewrite <- shown_names, <- E1, <- Er'. apply in_map. auto.
      + destruct (su_done _ _ _ SU i p Li Hi) as (W & _ & _). unfold wf in W.
        rewrite <- shown_names, Hr, map_app in W. simpl in W. apply NoDup_remove_2 in W.
        apply W. rewrite in_app_iff. auto. }
  unfold nv, J, joined. simpl rows. rewrite El. rewrite <- E1, <- E2.
  apply (in_map (fun r => (r_name r, r_value r))). apply keep_first_first; auto.
Qed.

Record synced (k : nat) (t : lcm) : Prop := {
  sy_names : map p_names (parts t) = map p_names (parts s0);
  sy_refs : map p_ref (parts t) = repeat loc k ++ skipn k (map p_ref (parts s));
  sy_nv : forall r, nv (heap t r) = nv (put loc J (heap s) r);
  sy_py : py_mangled t = true }.

Lemma nv_eq_names f g : nv f = nv g -> map r_name (rows f) = map r_name (rows g).
Proof. intros H. rewrite <- !nv_names, H. reflexivity. Qed.

Lemma synced_step k t : synced k t -> k < L -> synced (S k) (set_frame loc t k).
Proof.
  intros SY Hk. destruct (some_part k Hk) as [q Hq].
  assert (Lr : length (map p_ref (parts s)) = L) by (rewrite map_length; apply L_len).
  assert (Hsk : skipn k (map p_ref (parts s)) = p_ref q :: skipn (S k) (map p_ref (parts s))).
  { assert (Hn : nth_error (map p_ref (parts s)) k = Some (p_ref q)) by (rewrite nth_ref, Hq; auto).
    revert Hn. generalize (map p_ref (parts s)) as l. clear. intros l. revert k. induction l; destruct k; simpl; intros H; try discriminate; [congruence|]. apply (IHl k H). }
  assert (Hr : nth_error (map p_ref (parts t)) k = Some (p_ref q)).
  { rewrite (sy_refs _ _ SY), nth_error_app2 by (rewrite repeat_length; lia). rewrite repeat_length, Nat.sub_diag, Hsk. reflexivity. }
  rewrite nth_ref in Hr. destruct (nth_error (parts t) k) as [p|] eqn:Hp; [|discriminate].
  simpl in Hr. injection Hr as Hr.
  unfold set_frame. rewrite Hp.
  destruct (frame_equals (heap t (p_ref p)) (heap t loc)) eqn:FE.
  { exfalso. apply frame_equals_names in FE.
    rewrite (nv_eq_names _ _ (sy_nv _ _ SY (p_ref p))), (nv_eq_names _ _ (sy_nv _ _ SY loc)) in FE.
    unfold put in FE. rewrite Nat.eqb_refl in FE.
    destruct (Nat.eqb_spec (p_ref p) loc) as [C|_].
    { rewrite Hr in C. assert (p_ref q < next s); [|unfold loc in C; lia].
      apply (su_alloc _ _ _ SU). apply in_map. eapply nth_error_In; eauto. }
    rewrite Hr in FE. destruct (NK k Hk) as (j & n & Hj & Kj & Nk). apply Nk.
    apply (su_done _ _ _ SU k q Hk Hq). rewrite FE. apply J_names. exists j. auto. }
  set (t1 := mkLcm (heap t) (next t) (set_nth (parts t) k (mkPart loc (p_names p) (p_mangled p))) (py_mangled t)).
  assert (S1 : synced (S k) t1).
  { constructor.
    - simpl. rewrite (set_nth_map p_names _ _ _ p Hp) by auto. apply (sy_names _ _ SY).
    - simpl. rewrite map_set_nth, (sy_refs _ _ SY), Hsk. simpl.
      assert (forall (l : list nat) x y k, set_nth (repeat x k ++ y :: l) k x = x :: repeat x k ++ l) as G.
      { intros l x y. induction k0; simpl; auto. f_equal. auto. }
      rewrite G. reflexivity.
    - apply (sy_nv _ _ SY).
    - apply (sy_py _ _ SY). }
  assert (Q : quiet t1 ((if k =? 0 then mangle else mangle_part k) t1)).
  { destruct (k =? 0); [apply mangle_quiet|apply mangle_part_quiet]. }
  destruct Q as (Q1 & Q2 & Q3 & Q4 & Q5). destruct S1.
  constructor; congruence.
Qed.

Lemma two_parts : 2 <= L \/ L = 0.
Proof.
  destruct L as [|[|k]] eqn:E; auto; [|left; lia]. exfalso.
  destruct (NK 0) as (j & n & Hj & Kj & N0); [fold L; lia|]. fold L in Hj. assert (j = 0) by lia. subst j. auto.
Qed.

Lemma sync_synced : 0 < L -> synced L (sync_frames s).
Proof.
  intros HL. unfold sync_frames.
  assert (Lr : length (map p_ref (parts s)) = L) by (rewrite map_length; apply L_len).
  destruct (forallb (Nat.eqb (hd 0 (map p_ref (parts s)))) (tl (map p_ref (parts s)))) eqn:FB.
  { exfalso. destruct two_parts as [H2|H2]; [|lia]. pose proof (su_own _ _ _ SU) as ND.
    destruct (map p_ref (parts s)) as [|a [|b l]]; simpl in *; try lia.
    apply andb_true_iff in FB as [FB _]. apply Nat.eqb_eq in FB. subst b.
    inversion ND; subst. apply H1. left. auto. }
  cbn [next pred parts]. rewrite L_len.
  set (t0 := mkLcm _ _ _ _).
  assert (S0 : synced 0 t0).
  { constructor; simpl; auto; [apply (su_names _ _ _ SU)|apply (su_py _ _ _ SU)]. }
  assert (G : forall k t a, a + k = L -> synced a t -> synced L (fold_left (set_frame loc) (seq a k) t)).
  { induction k as [|k IH]; intros t a Ha SY; simpl.
    - rewrite Nat.add_0_r in Ha. subst a. auto.
    - apply IH; [lia|]. apply synced_step; auto. lia. }
  apply (G L t0 0); auto.
Qed.

(** All references are the same, and the frame there has the joined values. *)
Record shared (t : lcm) : Prop := {
  sh_names : map p_names (parts t) = map p_names (parts s0);
  sh_refs : map p_ref (parts t) = repeat loc L;
  sh_wf : wf (heap t loc);
  sh_nv : Permutation (nv J) (nv (heap t loc)) }.

Lemma synced_shared t : synced L t -> shared t.
Proof.
  intros []. assert (Lr : length (map p_ref (parts s)) = L) by (rewrite map_length; apply L_len).
  assert (E : nv (heap t loc) = nv J) by (rewrite sy_nv0; unfold put; rewrite Nat.eqb_refl; auto).
  constructor; auto.
  - rewrite sy_refs0, skipn_all2, app_nil_r; auto. lia.
  - unfold wf. rewrite (nv_eq_names _ _ E). apply J_wf.
  - rewrite E. auto.
Qed.

Lemma shared_names t n : shared t -> In n (map r_name (rows (heap t loc))) <-> exists i, i < L /\ knows i n s0.
Proof.
  intros []. rewrite <- J_names, <- !nv_names. split; apply Permutation_in; [symmetry|]; apply Permutation_map; auto.
Qed.

Lemma shared_ref t i p : shared t -> nth_error (parts t) i = Some p -> p_ref p = loc /\ i < L.
Proof.
  intros [] H. assert (E : nth_error (map p_ref (parts t)) i = Some (p_ref p)) by (rewrite nth_ref, H; auto).
  rewrite sh_refs0 in E. assert (Hi : i < L).
  { rewrite <- (repeat_length loc L). apply nth_error_Some. congruence. }
  split; auto. apply nth_error_In in E. apply repeat_spec in E. auto.
Qed.

Lemma shared_unmangle t i : shared t -> exists t', unmangle_part false (Some t) i = Some t' /\ shared t'.
Proof.
  intros SH. unfold unmangle_part. destruct (nth_error (parts t) i) as [p|] eqn:Hp; [|eauto].
  destruct (p_mangled p); [|eauto].
  destruct (shared_ref t i p SH Hp) as [Er Hi].
  assert (Hn : exists p0, nth_error (parts s0) i = Some p0 /\ p_names p0 = p_names p).
  { assert (E : nth_error (map p_names (parts t)) i = Some (p_names p)) by (rewrite nth_pnames, Hp; auto).
    rewrite (sh_names _ SH), nth_pnames in E. destruct (nth_error (parts s0) i) as [p0|] eqn:E0; [|discriminate].
    exists p0. injection E as E. auto. }
  destruct Hn as (p0 & Hp0 & Epn).
  destruct (scan_part_facts i t p Hp) as (t' & r & f' & E & H1 & H2 & H3 & H4 & H5 & H6 & H7 & H8).
  { rewrite Er. apply (sh_wf _ SH). }
  { rewrite <- Epn. apply (pt_names _ PT). eapply nth_error_In; eauto. }
  destruct H8 as (K1 & K2 & K3).
  { intros n Hm. rewrite Er. apply (shared_names t n SH). exists i. split; auto. right.
    apply (uses_at s0 i p0 n Hp0). rewrite Epn. auto. }
  exists t'. split; auto. rewrite Er in *. rewrite K1 in *.
  assert (Hl : heap t' loc = f') by (rewrite H1; unfold put; rewrite Nat.eqb_refl; auto).
  constructor.
  - rewrite H2, (set_nth_map p_names _ _ _ p Hp) by auto. apply (sh_names _ SH).
  - rewrite H2, map_set_nth. simpl. rewrite set_nth_id; [apply (sh_refs _ SH)|].
    rewrite nth_ref, Hp. simpl. congruence.
  - rewrite Hl. auto.
  - rewrite Hl. eapply perm_trans; [apply (sh_nv _ SH)|auto].
Qed.

Lemma shared_fold l t : shared t -> exists t', fold_left (unmangle_part false) l (Some t) = Some t' /\ shared t'.
Proof.
  revert t. induction l as [|i l IH]; intros t SH; [simpl; eauto|].
  cbn [fold_left]. destruct (shared_unmangle t i SH) as (t1 & E & SH1). rewrite E. auto.
Qed.
End After.

(** The whole of [unmangle] on a model just put together. *)
Lemma unmangle_shared : 0 < L -> exists s t, scanned_upto s0 L s /\ unmangle false s0 = Some t /\ shared s t /\ py_mangled t = false.
Proof.
  intros HL. destruct (su_self s0 PT) as (s1 & E1 & SU1). specialize (SU1 HL).
  assert (L1 : length (parts s1) = L) by apply (su_length s0 _ _ SU1).
  destruct (su_fold s0 PT 1 (pred L) s1 SU1) as (s & E2 & SU); [fold L; lia|].
  replace (1 + pred L) with L in SU by lia.
  destruct (shared_fold s SU (seq 1 (pred L)) _ (synced_shared s SU _ (sync_synced s SU HL))) as (t & E3 & SH).
  exists s, (mkLcm (heap t) (next t) (parts t) false). split; auto. split.
  - unfold unmangle. rewrite E1, (su_py _ _ _ SU1). cbn [orb]. rewrite L1, E2, E3. reflexivity.
  - split; auto. destruct SH. constructor; auto.
Qed.
End Sync.

(** Reading a name from a frame with distinct names. *)
Lemma find_value f n v : wf f -> In (n, v) (nv f) ->
  option_map r_value (find (fun r => String.eqb (r_name r) n) (rows f)) = Some v.
Proof.
  unfold wf, nv. generalize (rows f) as l. induction l as [|r l IH]; simpl; intros W H; [tauto|].
  inversion W; subst. destruct (String.eqb_spec (r_name r) n) as [E|E].
  - destruct H as [H|H]; [injection H as _ <-; auto|]. exfalso. apply H2. rewrite E.
    apply in_map_iff in H as (r' & E' & Hr). injection E' as E1 _. rewrite <- E1. apply in_map. auto.
  - destruct H as [H|H]; [injection H as H _; congruence|]. auto.
Qed.
Lemma set_at_nv f n v : In n (map r_name (rows f)) ->
  In (n, v) (nv (mkFrame (map (fun x => if String.eqb (r_name x) n then with_value v x else x) (rows f)) (has_best f))).
Proof.
  unfold nv. simpl. intros H. apply in_map_iff in H as (r & <- & Hr). rewrite map_map.
  apply in_map_iff. exists r. split; auto. rewrite String.eqb_refl. reflexivity.
Qed.
Lemma set_at_names f n v : map r_name (map (fun x => if String.eqb (r_name x) n then with_value v x else x) (rows f)) = map r_name (rows f).
Proof. rewrite map_map. apply map_ext. intros r. destruct (String.eqb (r_name r) n); auto. Qed.
