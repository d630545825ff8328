(** The parameters of a latent class model and its parts (C61). *)
From Verif Require Export LcSyncProofs2.

(** After a latent class model is put together, every parameter any part knows is set in all the
    parts by setting it in the latent class model, provided no part by itself already knows all the
    parameters. *)
Theorem C61_set_value_reaches_all_parts_partial s0 :
  put_together s0 -> no_part_knows_all s0 -> 0 < length (parts s0) ->
  exists t, unmangle false s0 = Some t /\
    forall i j n v, i < length (parts s0) -> j < length (parts s0) -> knows j n s0 ->
      value_in i n (set_value n v t) = Some v.
Proof.
  intros PT NK HL. destruct (unmangle_shared s0 PT NK HL) as (s & t & SU & E & SH & _).
  exists t. split; auto. intros i j n v Hi Hj Kn.
  assert (Hlen : length (parts t) = length (parts s0))
    by (rewrite <- (map_length p_names), (sh_names _ _ _ SH), map_length; auto).
  unfold set_value. destruct (nth_error (parts t) 0) as [p|] eqn:Hp.
  2:{ apply nth_error_None in Hp. lia. }
  unfold value_in, set_value_at. cbn [parts heap].
  destruct (nth_error (parts t) i) as [q|] eqn:Hq.
  2:{ apply nth_error_None in Hq. lia. }
  destruct (shared_ref s0 s t 0 p SH Hp) as [-> _]. destruct (shared_ref s0 s t i q SH Hq) as [-> _].
  unfold put. rewrite Nat.eqb_refl. apply find_value.
  - unfold wf. cbn [rows]. rewrite set_at_names. apply (sh_wf _ _ _ SH).
  - apply set_at_nv. apply (shared_names s0 s SU t n SH). exists j. auto.
Qed.

(** The value of each parameter is then, in every part, that of the first part that knows it (the
    latent class model, then the membership model, then the classes in order), if that part had a
    row for it. *)
Theorem C61_first_value_wins_partial s0 t i j n v p :
  put_together s0 -> no_part_knows_all s0 -> unmangle false s0 = Some t ->
  i < length (parts s0) -> j < length (parts s0) ->
  nth_error (parts s0) i = Some p ->
  In (n, v) (map (fun r => (r_name r, r_value r)) (rows (heap s0 (p_ref p)))) ->
  (forall k, k < i -> ~ knows k n s0) ->
  value_in j n t = Some v.
Proof.
  intros PT NK E Hi Hj Hp Hv Hn. destruct (unmangle_shared s0 PT NK) as (s & t' & SU & E' & SH & _); [lia|].
  rewrite E in E'. injection E' as <-.
  assert (Hlen : length (parts t) = length (parts s0))
    by (rewrite <- (map_length p_names), (sh_names _ _ _ SH), map_length; auto).
  unfold value_in. destruct (nth_error (parts t) j) as [q|] eqn:Hq.
  2:{ apply nth_error_None in Hq. lia. }
  destruct (shared_ref s0 s t j q SH Hq) as [-> _]. apply find_value; [apply (sh_wf _ _ _ SH)|].
  eapply Permutation_in; [apply (sh_nv _ _ _ SH)|]. apply (J_first s0 s SU i n v p Hi Hp Hv Hn).
Qed.

(** * Where sharing fails *)

Lemma ensure_best ns d f f' : ensure_names ns d f = Some f' ->
  has_best f' = has_best f /\ exists extra, rows f' = rows f ++ extra.
Proof.
  unfold ensure_names. destruct (filter _ ns) as [|x l].
  - intros H. injection H as <-. split; auto. exists []. rewrite app_nil_r. auto.
  - destruct (has_dup _); [discriminate|]. intros H. injection H as <-. simpl. eauto.
Qed.
Lemma scan_best m f f' : scan_all m f = Some f' ->
  has_best f' = has_best f /\ exists extra, Permutation (rows f ++ extra) (rows f').
Proof.
  unfold scan_all, obind.
  destruct (ensure_names (n_util m) plain_defaults f) as [f1|] eqn:E1; [|discriminate].
  destruct (ensure_names (n_quant m) plain_defaults f1) as [f2|] eqn:E2; [|discriminate].
  destruct (ensure_names (n_logsum m) logsum_defaults f2) as [f3|] eqn:E3; [|discriminate].
  intros H. injection H as <-. simpl.
  destruct (ensure_best _ _ _ _ E1) as [B1 [x1 X1]]. destruct (ensure_best _ _ _ _ E2) as [B2 [x2 X2]].
  destruct (ensure_best _ _ _ _ E3) as [B3 [x3 X3]].
  split; [congruence|]. exists (x1 ++ x2 ++ x3). rewrite X3, X2, X1, <- !app_assoc. apply sort_perm.
Qed.

(** Part 0 keeps its reference, no other part has it. *)
Definition apart (r0 : nat) (t : lcm) : Prop :=
  r0 < next t /\ forall i p, nth_error (parts t) i = Some p -> (p_ref p = r0 <-> i = 0).

Lemma nth_set_nth {A} (l : list A) i j x y : nth_error (set_nth l i x) j = Some y ->
  j = i /\ y = x \/ j <> i /\ nth_error l j = Some y.
Proof.
  intros H. destruct (Nat.eq_dec j i) as [ ->|N].
  - left. split; auto. assert (i < length l).
    { rewrite <- (set_nth_length l i x). apply nth_error_Some. congruence. }
    rewrite set_nth_same in H by auto. congruence.
  - right. rewrite set_nth_other in H by auto. auto.
Qed.
Lemma quiet_apart r0 s s' : quiet s s' -> apart r0 s -> apart r0 s'.
Proof.
  intros (Q1 & _ & Q3 & _) [A1 A2]. split; [lia|]. intros i p Hp.
  assert (E : nth_error (map p_ref (parts s)) i = Some (p_ref p)) by (rewrite <- Q1, nth_ref, Hp; auto).
  rewrite nth_ref in E. destruct (nth_error (parts s) i) as [q|] eqn:Hq; [|discriminate].
  simpl in E. injection E as <-. eauto.
Qed.
Lemma scan_apart r0 i s s' : apart r0 s -> i <> 0 -> scan_part i s = Some s' -> apart r0 s'.
Proof.
  intros [A1 A2] Hi. unfold scan_part. destruct (nth_error (parts s) i) as [p|] eqn:Hp.
  2:{ intros H. injection H as <-. split; auto. }
  destruct (scan_all _ _) as [f|]; [|discriminate]. intros H. injection H as <-. split; simpl.
  - destruct (negb _); lia.
  - intros j q Hq. apply nth_set_nth in Hq as [[-> ->]|[N Hq]]; simpl; eauto.
    destruct (negb _); [|eauto]. split; intros; lia.
Qed.
Lemma unmangle_part_apart r0 i s s' : apart r0 s -> i <> 0 -> unmangle_part false (Some s) i = Some s' -> apart r0 s'.
Proof.
  intros A Hi. unfold unmangle_part. destruct (nth_error (parts s) i) as [p|]; [|intros H; injection H as <-; auto].
  destruct (p_mangled p); [|intros H; injection H as <-; auto]. apply scan_apart; auto.
Qed.
Lemma fold_none l : fold_left (unmangle_part false) l None = None.
Proof. induction l; simpl; auto. Qed.
Lemma unmangle_fold_apart r0 l s s' : apart r0 s -> ~ In 0 l ->
  fold_left (unmangle_part false) l (Some s) = Some s' -> apart r0 s'.
Proof.
  revert s. induction l as [|i l IH]; intros s A N; [intros H; injection H as <-; auto|].
  cbn [fold_left]. destruct (unmangle_part false (Some s) i) as [s1|] eqn:E.
  - intros H. apply (IH s1); auto.
    + eapply (unmangle_part_apart r0 i s); eauto. intros C. apply N. left. auto.
    + intros C. apply N. right. auto.
  - rewrite fold_none. discriminate.
Qed.
Lemma set_frame_apart r0 loc i s : apart r0 s -> i <> 0 -> loc <> r0 -> apart r0 (set_frame loc s i).
Proof.
  intros [A1 A2] Hi Hl. unfold set_frame. destruct (nth_error (parts s) i) as [p|] eqn:Hp; [|split; auto].
  destruct (frame_equals _ _); [split; auto|].
  rewrite (proj2 (Nat.eqb_neq i 0)) by auto.
  eapply quiet_apart; [apply mangle_part_quiet|]. split; auto. simpl.
  intros j q Hq. apply nth_set_nth in Hq as [[-> ->]|[N Hq]]; simpl; eauto. split; intros; lia.
Qed.
Lemma set_frames_apart r0 loc l s : apart r0 s -> ~ In 0 l -> loc <> r0 -> apart r0 (fold_left (set_frame loc) l s).
Proof.
  revert s. induction l as [|i l IH]; intros s A N Hl; simpl; auto.
  apply IH; auto; [|intros C; apply N; right; auto].
  apply set_frame_apart; auto. intros C. apply N. left. auto.
Qed.
Lemma apart_isolated r0 t i n v : apart r0 t -> i <> 0 -> value_in i n (set_value n v t) = value_in i n t.
Proof.
  intros [A1 A2] Hi. unfold set_value. destruct (nth_error (parts t) 0) as [p|] eqn:Hp; auto.
  unfold value_in, set_value_at. cbn [parts heap]. destruct (nth_error (parts t) i) as [q|] eqn:Hq; auto.
  unfold put. destruct (Nat.eqb_spec (p_ref q) (p_ref p)) as [E|]; auto. exfalso.
  apply Hi, (A2 i q Hq). rewrite E. apply (A2 0 p Hp). auto.
Qed.

Lemma keep_first_all seen l1 l2 : NoDup (map r_name l1) -> (forall r, In r l1 -> ~ In (r_name r) seen) ->
  (forall r, In r l2 -> In (r_name r) seen \/ In (r_name r) (map r_name l1)) -> keep_first seen (l1 ++ l2) = l1.
Proof.
  revert seen. induction l1 as [|x l1 IH]; intros seen ND H1 H2; simpl.
  - induction l2 as [|y l2 IH2]; simpl; auto.
    destruct (H2 y) as [H|H]; [left; auto| |destruct H].
    rewrite (proj2 (mem_In _ _) H). apply IH2. intros r Hr. apply H2. right. auto.
  - inversion ND; subst. destruct (mem (r_name x) seen) eqn:M.
    { apply mem_In in M. exfalso. apply (H1 x); [left; auto|auto]. }
    f_equal. apply IH; auto.
    + intros r Hr [C|C]; [|eapply H1; eauto; right; auto]. apply H3. rewrite C. apply in_map. auto.
    + intros r Hr. destruct (H2 r Hr) as [H|[H|H]]; simpl; auto.
Qed.

Definition no_best_column (s : lcm) : Prop := forall p, In p (parts s) -> has_best (heap s (p_ref p)) = false.
Lemma scan_no_best i s s' : no_best_column s -> scan_part i s = Some s' -> no_best_column s'.
Proof.
  intros H. unfold scan_part. destruct (nth_error (parts s) i) as [p|] eqn:Hp; [|intros E; injection E as <-; auto].
  destruct (scan_all _ _) as [f|] eqn:Sc; [|discriminate]. intros E. injection E as <-.
  destruct (scan_best _ _ _ Sc) as [B _]. intros q Hq. simpl in *. unfold put.
  destruct (Nat.eqb_spec (p_ref q) (if negb (length (rows f) =? length (rows (heap s (p_ref p))))%nat then next s else p_ref p)) as [|N].
  - rewrite B. apply H. eapply nth_error_In; eauto.
  - apply in_set_nth in Hq as [ ->|Hq]; [simpl in N; congruence|auto].
Qed.
Lemma unmangle_no_best l s s' : no_best_column s -> fold_left (unmangle_part false) l (Some s) = Some s' -> no_best_column s'.
Proof.
  revert s. induction l as [|i l IH]; intros s H; [intros E; injection E as <-; auto|].
  cbn [fold_left]. destruct (unmangle_part false (Some s) i) as [s1|] eqn:E; [|rewrite fold_none; discriminate].
  apply IH. revert E. unfold unmangle_part. destruct (nth_error (parts s) i) as [p|]; [|intros E; injection E as <-; auto].
  destruct (p_mangled p); [|intros E; injection E as <-; auto]. apply scan_no_best; auto.
Qed.

(** A latent class model given a frame that already has all the parameters (say, one saved from an
    earlier run) shares it with none of its parts: setting a value in the latent class model changes
    what no part computes with. *)
Theorem C61_given_frame_is_not_shared_refuted s0 :
  put_together s0 -> 1 < length (parts s0) ->
  (forall p, In p (parts s0) -> has_best (heap s0 (p_ref p)) = false) ->
  (forall j n, knows j n s0 -> In n (names_in 0 s0)) ->
  forall t, unmangle false s0 = Some t ->
    forall i n v, i <> 0 -> value_in i n (set_value n v t) = value_in i n t.
Proof.
  intros PT HL HB HK t Et. destruct (su_self s0 PT) as (s1 & E1 & SU1). specialize (SU1 ltac:(lia)).
  set (L := length (parts s0)) in *.
  assert (L1 : length (parts s1) = L) by apply (su_length s0 _ _ SU1).
  destruct (su_fold s0 PT 1 (pred L) s1 SU1) as (s & E2 & SU); [fold L; lia|].
  replace (1 + pred L) with L in SU by lia.
  assert (Ls : length (parts s) = L) by apply (su_length s0 _ _ SU).
  assert (NB1 : no_best_column s1).
  { unfold unmangle_self in E1. destruct (nth_error (parts s0) 0) as [p|]; [|injection E1 as <-; auto].
    destruct (p_mangled p || false); [|injection E1 as <-; auto]. eapply scan_no_best; eauto. }
  assert (NB : no_best_column s) by (eapply unmangle_no_best; eauto).
  destruct (nth_error (parts s) 0) as [p0|] eqn:Hp0; [|apply nth_error_None in Hp0; lia].
  set (r0 := p_ref p0).
  assert (A : apart r0 s).
  { split; [apply (su_alloc _ _ _ SU), in_map; eapply nth_error_In; eauto|].
    intros i p Hp. split; intros H; [|subst i; unfold r0; congruence].
    eapply nodup_nth_ref; eauto. apply (su_own _ _ _ SU). }
  destruct (su_done _ _ _ SU 0 p0 ltac:(lia) Hp0) as (W0 & N0 & _).
  (* the joined frame is the one part 0 has *)
  set (J := joined (map (heap s) (map p_ref (parts s)))).
  assert (EqJ : frame_equals (heap s r0) J = true).
  { unfold frame_equals. assert (B : has_best J = false).
    { unfold J, joined. simpl. destruct (existsb has_best _) eqn:X; auto. apply existsb_exists in X as (f & Hf & Bf).
      apply in_map_iff in Hf as (r & <- & Hr). apply in_map_iff in Hr as (p & <- & Hp). rewrite NB in Bf; auto. }
    assert (B0 : has_best (heap s r0) = false) by (apply NB; eapply nth_error_In; eauto).
    rewrite B, B0. simpl.
    assert (Sh : shown (heap s r0) = shown J).
    { unfold shown at 2. rewrite B. unfold J, joined. cbn [rows].
      destruct (parts s) as [|q ps] eqn:Eps; [discriminate|]. simpl in Hp0. injection Hp0 as ->. cbn [map flat_map].
      rewrite keep_first_all.
      - unfold shown. fold r0. rewrite B0, map_map. reflexivity.
      - rewrite shown_names. exact W0.
      - intros r _ [].
      - intros r Hr. right. rewrite shown_names. apply in_flat_map in Hr as (f & Hf & Hr).
        apply in_map_iff in Hf as (ref & <- & Href). apply in_map_iff in Href as (q & <- & Hq).
        apply In_nth_error in Hq as [i Hi].
        assert (Hi' : nth_error (parts s) (S i) = Some q) by (rewrite Eps; auto).
        assert (Hl : S i < L) by (rewrite <- Ls; simpl; apply -> Nat.succ_lt_mono; apply nth_error_Some; congruence).
        apply N0. left. apply (HK (S i)). apply (su_done _ _ _ SU (S i) q Hl Hi').
        rewrite <- shown_names. apply in_map. auto. }
    destruct (list_eq_dec row_eq_dec (shown (heap s r0)) (shown J)); auto. }
  (* so it keeps its own *)
  assert (AS : apart r0 (sync_frames s) /\ py_mangled (sync_frames s) = py_mangled (sync_frames s)).
  { split; auto. unfold sync_frames. destruct (forallb _ _); auto.
    cbn [next parts pred]. rewrite Ls. replace L with (S (pred L)) by lia. cbn [seq fold_left].
    set (t0 := mkLcm _ _ _ _).
    assert (Hs : set_frame (next s) t0 0 = t0).
    { unfold set_frame. cbn [t0 parts]. rewrite Hp0. cbn [t0 heap]. unfold put. rewrite Nat.eqb_refl.
      destruct (Nat.eqb_spec (p_ref p0) (next s)) as [C|_].
      - destruct A as [A1 _]. unfold r0 in A1. lia.
      - fold r0. fold J. rewrite EqJ. reflexivity. }
    rewrite Hs. apply set_frames_apart.
    - destruct A as [A1 A2]. split; simpl; auto.
    - rewrite in_seq. lia.
    - destruct A as [A1 _]. lia. }
  destruct AS as [AS _].
  unfold unmangle in Et. rewrite E1, (su_py _ _ _ SU1) in Et. cbn [orb] in Et. rewrite L1, E2 in Et.
  destruct (fold_left (unmangle_part false) (seq 1 (pred L)) (Some (sync_frames s))) as [t1|] eqn:E3; [|discriminate].
  injection Et as <-. intros i n v Hi. apply (apart_isolated r0); auto.
  assert (A1 : apart r0 t1) by (eapply unmangle_fold_apart; eauto; rewrite in_seq; lia).
  destruct A1 as [A1 A2]. split; auto.
Qed.

(** Once the parameters have been joined, later changes to the functions of a part are never joined
    again: whatever happens (short of [unmangle(force=True)]), the names the latent class model has
    stay what they are. *)
Definition settled (r0 : nat) (t : lcm) : Prop :=
  py_mangled t = false /\ r0 < next t /\
  exists p, nth_error (parts t) 0 = Some p /\ p_ref p = r0 /\ p_names p = mkNames [] [] [].

Lemma quiet_settled r0 s s' : quiet s s' -> settled r0 s -> settled r0 s' /\
  map r_name (rows (heap s' r0)) = map r_name (rows (heap s r0)).
Proof.
  intros (Q1 & Q2 & Q3 & Q4 & Q5) (S1 & S2 & p & Hp & Hr & Hn). split.
  - split; [congruence|]. split; [lia|].
    assert (E1 : nth_error (map p_ref (parts s')) 0 = Some r0) by (rewrite Q1, nth_ref, Hp; simpl; congruence).
    assert (E2 : nth_error (map p_names (parts s')) 0 = Some (mkNames [] [] [])) by (rewrite Q2, nth_pnames, Hp; simpl; congruence).
    rewrite nth_ref in E1. rewrite nth_pnames in E2. destruct (nth_error (parts s') 0) as [q|]; [|discriminate].
    simpl in *. exists q. split; auto. split; congruence.
  - apply nv_eq_names, Q5.
Qed.
Lemma scan_settled r0 i s s' : settled r0 s -> scan_part i s = Some s' -> settled r0 s' /\
  Permutation (map r_name (rows (heap s r0))) (map r_name (rows (heap s' r0))).
Proof.
  intros (S1 & S2 & p & Hp & Hr & Hn) E. unfold scan_part in E.
  destruct (nth_error (parts s) i) as [q|] eqn:Hq.
  2:{ injection E as <-. split; auto. split; auto. split; auto. eauto. }
  destruct (scan_all _ _) as [f|] eqn:Sc; [|discriminate]. injection E as <-.
  destruct (scan_best _ _ _ Sc) as (_ & extra & P).
  destruct (Nat.eqb_spec (length (rows f)) (length (rows (heap s (p_ref q))))) as [L|L]; cbn [negb].
  - assert (extra = []). { apply Permutation_length in P. rewrite app_length in P. destruct extra; auto. simpl in P. lia. }
    subst extra. rewrite app_nil_r in P. split.
    + split; auto. split; auto. cbn [parts].
      destruct (Nat.eq_dec i 0) as [ ->|Hi].
      * rewrite Hp in Hq. injection Hq as <-. eexists. rewrite set_nth_same by (apply nth_error_Some; congruence).
        split; [reflexivity|]. auto.
      * exists p. rewrite set_nth_other by auto. auto.
    + cbn [heap]. unfold put. destruct (Nat.eqb_spec r0 (p_ref q)) as [ ->|]; auto. apply Permutation_map. auto.
  - split.
    + split; auto. split; [cbn [next]; lia|]. cbn [parts].
      destruct (Nat.eq_dec i 0) as [ ->|Hi].
      * exfalso. rewrite Hp in Hq. injection Hq as <-. rewrite Hn in Sc. unfold scan_all, ensure_names, obind in Sc. simpl in Sc.
        injection Sc as <-. apply L. simpl. symmetry. apply Permutation_length, sort_perm.
      * exists p. rewrite set_nth_other by auto. auto.
    + cbn [heap]. unfold put. destruct (Nat.eqb_spec r0 (next s)); [lia|auto].
Qed.

Lemma happens_settled r0 s e : settled r0 s -> settled r0 (happens s e) /\
  Permutation (map r_name (rows (heap s r0))) (map r_name (rows (heap (happens s e) r0))).
Proof.
  intros S. destruct e as [i ns| | |i|n v]; simpl.
  - destruct (Nat.eqb_spec i 0); [auto|]. unfold edit_part. destruct (nth_error (parts s) i) as [p|] eqn:Hp; auto.
    set (s1 := mkLcm _ _ _ _).
    assert (S1 : settled r0 s1).
    { destruct S as (S1 & S2 & q & Hq & S3). split; auto. split; auto. exists q. split; auto. cbn [s1 parts].
      rewrite set_nth_other; auto. }
    destruct (quiet_settled r0 _ _ (mangle_part_quiet i s1) S1) as [A B]. split; auto. rewrite B. auto.
  - destruct (quiet_settled r0 _ _ (mangle_quiet s) S) as [A B]. split; auto. rewrite B. auto.
  - unfold unmangle. destruct (unmangle_self false s) as [s1|] eqn:E; auto.
    assert (X : settled r0 s1 /\ Permutation (map r_name (rows (heap s r0))) (map r_name (rows (heap s1 r0)))).
    { unfold unmangle_self in E. destruct (nth_error (parts s) 0) as [p|]; [|injection E as <-; auto].
      destruct (p_mangled p || false); [|injection E as <-; auto]. eapply scan_settled; eauto. }
    destruct X as [(X1 & X2) X3]. rewrite X1. cbn [orb]. split; auto. split; auto.
  - destruct (Nat.eqb_spec i 0); [auto|]. destruct (nth_error (parts s) i) as [p|]; auto.
    destruct (p_mangled p); auto. destruct (scan_part i s) as [s1|] eqn:E; auto. eapply scan_settled; eauto.
  - unfold set_value. destruct S as (S1 & S2 & p & Hp & Hr & Hn). rewrite Hp. split.
    + split; auto. split; auto. exists p. auto.
    + cbn [set_value_at heap]. unfold put. destruct (Nat.eqb_spec r0 (p_ref p)) as [ ->|]; auto.
      cbn [rows]. rewrite set_at_names. auto.
Qed.

Theorem C61_new_parameters_never_appear_refuted t es :
  py_mangled t = false ->
  (exists p, nth_error (parts t) 0 = Some p /\ p_ref p < next t /\ p_names p = mkNames [] [] []) ->
  forall n, In n (names_in 0 (fold_left happens es t)) <-> In n (names_in 0 t).
Proof.
  intros H1 (p & Hp & Ha & Hn).
  assert (S : settled (p_ref p) t) by (split; auto; split; auto; exists p; auto).
  assert (G : forall es s, settled (p_ref p) s -> settled (p_ref p) (fold_left happens es s) /\
    Permutation (map r_name (rows (heap s (p_ref p)))) (map r_name (rows (heap (fold_left happens es s) (p_ref p))))).
  { induction es0 as [|e es0 IH]; intros s Hs; simpl; auto. destruct (happens_settled _ s e Hs) as [A B].
    destruct (IH _ A) as [C D]. split; auto. eapply perm_trans; eauto. }
  destruct (G es t S) as [(_ & _ & q & Hq & Hr & _) P]. intros n. unfold names_in. rewrite Hp, Hq, Hr.
  split; apply Permutation_in; [symmetry|]; auto.
Qed.

(** * Cases that meet the hypotheses *)
Open Scope string_scope.
Definition ex_row (n : string) (v : num) : row := mkRow n v v v NInf PInf (Some 0%Z) NaN.
(** A latent class model (without rows), a membership model that uses [asc], two classes that use
    [cost] and [time]; class 2 has a row for [cost]. *)
Definition ex_model : lcm :=
  mkLcm (fun r => match r with 3 => mkFrame [ex_row "cost" PInf] false | _ => mkFrame [] false end) 4
    [mkPart 0 (mkNames [] [] []) true; mkPart 1 (mkNames ["asc"] [] []) true;
     mkPart 2 (mkNames ["time"] [] []) true; mkPart 3 (mkNames ["cost"; "time"] [] []) true] true.
Example C61_example : put_together ex_model /\ no_part_knows_all ex_model.
Proof.
  split.
  - constructor; simpl; auto.
    + repeat constructor; simpl; intuition lia.
    + intros p H. intuition (subst; simpl; lia).
    + intros p H. intuition (subst; simpl; repeat constructor; auto).
    + intros p H. intuition (subst; simpl; repeat constructor; simpl; intuition discriminate).
    + intros i p n H M. destruct i as [|[|[|[|i]]]]; simpl in H; try (injection H as <-; discriminate). destruct i; discriminate.
    + intros p H. injection H as <-. auto.
  - assert (U3 : forall n, knows 3 n ex_model <-> n = "cost" \/ n = "time").
    { intros n. unfold knows. rewrite (uses_at ex_model 3 _ n eq_refl). unfold mentions, names_in. simpl. split; [intuition auto|].
      intros [ ->| ->]; auto. }
    assert (U1 : forall n, knows 1 n ex_model <-> n = "asc").
    { intros n. unfold knows. rewrite (uses_at ex_model 1 _ n eq_refl). unfold mentions, names_in. simpl. split; [intuition auto|]. intros ->. auto. }
    assert (U2 : forall n, knows 2 n ex_model <-> n = "time").
    { intros n. unfold knows. rewrite (uses_at ex_model 2 _ n eq_refl). unfold mentions, names_in. simpl. split; [intuition auto|]. intros ->. auto. }
    assert (U0 : forall n, ~ knows 0 n ex_model).
    { intros n. unfold knows. rewrite (uses_at ex_model 0 _ n eq_refl). unfold mentions, names_in. simpl. tauto. }
    intros i Hi. simpl in Hi. destruct i as [|[|[|[|i]]]]; try lia.
    + exists 1, "asc". split; [simpl; lia|]. split; [apply U1; auto|auto].
    + exists 2, "time". split; [simpl; lia|]. split; [apply U2; auto|]. rewrite U1. discriminate.
    + exists 1, "asc". split; [simpl; lia|]. split; [apply U1; auto|]. rewrite U2. discriminate.
    + exists 1, "asc". split; [simpl; lia|]. split; [apply U1; auto|]. rewrite U3. intuition discriminate.
Qed.
(** The same with a complete frame given to the latent class model. *)
Definition ex_given : lcm :=
  mkLcm (fun r => match r with 0 => mkFrame [ex_row "asc" PInf; ex_row "cost" PInf] false | _ => mkFrame [] false end) 3
    [mkPart 0 (mkNames [] [] []) true; mkPart 1 (mkNames ["asc"] [] []) true; mkPart 2 (mkNames ["cost"] [] []) true] true.
Example C61_example_given : put_together ex_given /\
  (forall j n, knows j n ex_given -> In n (names_in 0 ex_given)) /\
  exists t, unmangle false ex_given = Some t /\ value_in 0 "cost" t = Some PInf /\
    value_in 2 "cost" t = Some PInf /\ value_in 0 "cost" (set_value "cost" NInf t) = Some NInf /\
    value_in 2 "cost" (set_value "cost" NInf t) = Some PInf.
Proof.
  assert (PT : put_together ex_given).
  { constructor; simpl; auto.
    + repeat constructor; simpl; intuition lia.
    + intros p H. intuition (subst; simpl; lia).
    + intros p H. intuition (subst; simpl; repeat constructor; simpl; intuition discriminate).
    + intros p H. intuition (subst; simpl; repeat constructor; simpl; intuition discriminate).
    + intros i p n H M. destruct i as [|[|[|i]]]; simpl in H; try (injection H as <-; discriminate). destruct i; discriminate.
    + intros p H. injection H as <-. auto. }
  split; auto. split.
  - intros j n [H|(p & Hp & H)].
    + unfold names_in in H. destruct j as [|[|[|j]]]; simpl in *; try tauto. destruct j; simpl in H; tauto.
    + destruct j as [|[|[|j]]]; simpl in Hp; try (injection Hp as <-; simpl in H); [simpl; tauto|simpl; tauto|simpl; tauto|].
      destruct j; discriminate.
  - remember (unmangle false ex_given) as u eqn:E. vm_compute in E. subst u.
    eexists. split; [reflexivity|]. split; [vm_compute; reflexivity|]. split; [vm_compute; reflexivity|].
    split; vm_compute; reflexivity.
Qed.
