From Verif Require Export CESpec.

Lemma ends_agree ptrs : ends_2d (windows ptrs) = ends_1d ptrs.
Proof.
  unfold ends_2d, windows, ends_1d. destruct ptrs as [|p l]; auto. simpl.
  revert p. induction l as [|q l IH]; intros p; simpl; auto. rewrite IH. auto.
Qed.
Lemma nth_ends ptrs c : nth_error (ends_1d ptrs) c = nth_error ptrs (S c).
Proof. unfold ends_1d. destruct ptrs; simpl; auto. destruct c; auto. Qed.
Lemma len_ends ptrs : length (ends_1d ptrs) = length ptrs - 1.
Proof. destruct ptrs; simpl; lia. Qed.

Section G.
Variable ptrs : list nat.
Variable n : nat.
Hypothesis G : good_pointers ptrs n.
Lemma ptrs_len : 1 <= length ptrs.
Proof. destruct G as [H _]. destruct ptrs; simpl in *; [discriminate|lia]. Qed.
Lemma ptrs_0 : nth 0 ptrs 0 = 0.
Proof. destruct G as [H _]. destruct ptrs; simpl in *; auto. congruence. Qed.
Lemma ptrs_last : nth (length ptrs - 1) ptrs 0 = n.
Proof. destruct G as [_ [H _]]. eapply nth_error_nth in H. eauto. Qed.
Lemma ptrs_mono i j : i < j -> j < length ptrs -> nth i ptrs 0 < nth j ptrs 0.
Proof.
  destruct G as [_ [_ H]]. intros Hij Hj. induction Hij.
  - auto.
  - assert (S m < length ptrs) by lia. assert (nth i ptrs 0 < nth m ptrs 0) by (apply IHHij; lia).
    specialize (H m H0). lia.
Qed.
Lemma in_case_unique c d r : in_case ptrs c r -> in_case ptrs d r -> c = d.
Proof.
  intros [H1 H2] [H3 H4]. destruct (Nat.lt_trichotomy c d) as [H|[H|H]]; auto.
  - destruct (Nat.eq_dec (S c) d); [subst; lia|]. assert (nth (S c) ptrs 0 < nth d ptrs 0) by (apply ptrs_mono; lia). lia.
  - destruct (Nat.eq_dec (S d) c); [subst; lia|]. assert (nth (S d) ptrs 0 < nth c ptrs 0) by (apply ptrs_mono; lia). lia.
Qed.
Lemma in_case_lt c r : in_case ptrs c r -> r < n.
Proof.
  intros [H1 H2]. rewrite <- ptrs_last. destruct (Nat.eq_dec (S c) (length ptrs - 1)) as [ <-|]; [lia|].
  assert (nth (S c) ptrs 0 < nth (length ptrs - 1) ptrs 0) by (apply ptrs_mono; lia). lia.
Qed.
Lemma in_case_exists r : r < n -> exists c, in_case ptrs c r.
Proof.
  intros Hr. assert (Hg : forall k, k < length ptrs -> r < nth k ptrs 0 -> exists c, in_case ptrs c r).
  { induction k as [|k IH]; intros Hk Hlt; [rewrite ptrs_0 in Hlt; lia|].
    destruct (Nat.lt_ge_cases r (nth k ptrs 0)) as [H|H]; [apply IH; auto; lia|]. exists k. split; lia. }
  apply (Hg (length ptrs - 1)); [pose proof ptrs_len; lia|rewrite ptrs_last; auto].
Qed.
(** the state before row [r]: the case of the previous row (case 0 at the start) *)
Definition at_row (r c : nat) : Prop := (r = 0 /\ c = 0) \/ (0 < r /\ in_case ptrs c (r - 1)).
Lemma next_case r c : r < n -> at_row r c ->
  exists e, nth_error (ends_1d ptrs) c = Some e /\
    in_case ptrs (if r =? e then S c else c) r /\ (if r =? e then S c else c) < length (ends_1d ptrs) /\
    (r =? e = true -> nth (S c) ptrs 0 = r /\ 0 < r) /\
    (r =? e = false -> r = 0 \/ in_case ptrs c (r - 1)).
Proof.
  intros Hr Ha. pose proof ptrs_len as HL.
  assert (Hc : S c < length ptrs /\ nth c ptrs 0 <= r /\ r <= nth (S c) ptrs 0).
  { destruct Ha as [[ -> ->]|[H1 [H2 H3]]]; [|lia].
    destruct (in_case_exists 0 Hr) as [d [D1 D2]]. split; [lia|]. rewrite ptrs_0. lia. }
  destruct Hc as [C1 [C2 C3]].
  exists (nth (S c) ptrs 0). rewrite nth_ends, len_ends. split; [apply nth_error_nth'; auto|].
  destruct (Nat.eqb_spec r (nth (S c) ptrs 0)) as [He|He].
  - assert (HS : S (S c) < length ptrs).
    { destruct (Nat.eq_dec (S c) (length ptrs - 1)) as [e|]; [|lia]. rewrite e, ptrs_last in He. lia. }
    assert (nth (S c) ptrs 0 < nth (S (S c)) ptrs 0) by (apply ptrs_mono; lia).
    split; [split; lia|]. split; [lia|]. split; [intros _; split; auto|discriminate].
    assert (nth c ptrs 0 < nth (S c) ptrs 0) by (apply ptrs_mono; lia). lia.
  - split; [split; lia|]. split; [lia|]. split; [discriminate|]. intros _. destruct Ha as [[ -> _]|[_ H]]; auto.
Qed.
Lemma at_row_next r c : in_case ptrs c r -> at_row (S r) c.
Proof. intros H. right. split; [lia|]. replace (S r - 1) with r by lia. auto. Qed.
End G.

(** dense conversion *)
Lemma dense_inv {A} ptrs n_alts altidx (data : list A) zero (d : A) :
  good_pointers ptrs (length data) -> length altidx = length data ->
  (forall r, r < length data -> nth r altidx 0 < n_alts) ->
  forall m, m <= length data ->
  exists c out, fold_left (dense_step (ends_1d ptrs) n_alts altidx data) (seq 0 m) (Some (0, fun _ _ => zero)) = Some (c, out) /\
    at_row ptrs m c /\
    (forall c a, (exists r, r < m /\ in_case ptrs c r /\ nth r altidx 0 = a /\ out c a = nth r data d /\
                    forall r', r < r' < m -> in_case ptrs c r' -> nth r' altidx 0 <> a) \/
                 (out c a = zero /\ forall r, r < m -> in_case ptrs c r -> nth r altidx 0 <> a)).
Proof.
  intros G HL Ha. induction m as [|m IH]; intros Hm.
  - exists 0, (fun _ _ => zero). split; auto. split; [left; auto|]. intros c a. right. split; auto. intros; lia.
  - destruct IH as [c [out [E [Hc Ho]]]]; [lia|].
    rewrite seq_S, fold_left_app, E. cbn [fold_left plus]. unfold dense_step.
    destruct (next_case ptrs (length data) G m c ltac:(lia) Hc) as [e [E1 [E2 [E3 _]]]]. rewrite E1.
    set (c' := if m =? e then S c else c) in *.
    rewrite (nth_error_nth' altidx 0) by lia. rewrite (nth_error_nth' data d) by lia.
    destruct (Nat.ltb_spec c' (length (ends_1d ptrs))); [|lia].
    destruct (Nat.ltb_spec (nth m altidx 0) n_alts) as [_|H']; [|specialize (Ha m); lia].
    simpl. eexists _, _. split; [reflexivity|]. split; [apply at_row_next; auto|].
    intros k a. unfold set2. destruct (Nat.eqb_spec k c') as [ ->|Hk]; [destruct (Nat.eqb_spec a (nth m altidx 0)) as [ ->|Hk]|]; simpl.
    + left. exists m. repeat split; auto; try lia; apply E2.
    + destruct (Ho c' a) as [[r [R1 [R2 [R3 [R4 R5]]]]]|[R1 R2]].
      * left. exists r. split; [lia|]. split; [auto|]. split; [auto|]. split; [auto|]. intros r' Hr'.
        destruct (Nat.eq_dec r' m) as [ ->|]; [intros _; congruence|apply R5; lia].
      * right. split; auto. intros r Hr. destruct (Nat.eq_dec r m) as [ ->|]; [intros _; congruence|apply R2; lia].
    + assert (Hn : ~ in_case ptrs k m). { intros H'. apply Hk. eapply in_case_unique; eauto. }
      destruct (Ho k a) as [[r [R1 [R2 [R3 [R4 R5]]]]]|[R1 R2]].
      * left. exists r. split; [lia|]. split; [auto|]. split; [auto|]. split; [auto|]. intros r' Hr'.
        destruct (Nat.eq_dec r' m) as [ ->|]; [intros; contradiction|apply R5; lia].
      * right. split; auto. intros r Hr. destruct (Nat.eq_dec r m) as [ ->|]; [intros; contradiction|apply R2; lia].
Qed.
Lemma bool_is_dense ends n_alts altidx :
  ce_bool_to_dense ends n_alts altidx = ce_to_dense 0 ends n_alts altidx (repeat 1 (length altidx)).
Proof.
  unfold ce_bool_to_dense, ce_to_dense. rewrite repeat_length.
  assert (H : forall l s, (forall r, In r l -> r < length altidx) -> fold_left (bool_step ends n_alts altidx) l s =
     fold_left (dense_step ends n_alts altidx (repeat 1 (length altidx))) l s).
  { induction l as [|r l IH]; simpl; intros s Hl; auto. rewrite IH by auto. f_equal.
    unfold bool_step, dense_step. destruct s as [[c out]|]; auto. destruct (nth_error ends c); auto.
    destruct (nth_error altidx r) eqn:E; auto.
    rewrite (nth_error_nth' (repeat 1 (length altidx)) 1) by (rewrite repeat_length; auto).
    rewrite nth_repeat. auto. }
  rewrite H; auto. intros r Hr. apply in_seq in Hr. lia.
Qed.

(** indexes from pointers *)
Lemma ptr_fold ptrs n : good_pointers ptrs n -> forall r c, in_case ptrs c r ->
  fold_left (ptr_step ptrs) (seq 0 (length ptrs - 1)) (fun _ => 0) r = c.
Proof.
  intros G r c Hc.
  assert (Hg : forall m, m <= length ptrs - 1 -> fold_left (ptr_step ptrs) (seq 0 m) (fun _ => 0) r = if c <? m then c else 0).
  { induction m as [|m IH]; intros Hm; auto. rewrite seq_S, fold_left_app. cbn [fold_left plus]. unfold ptr_step at 1.
    rewrite IH by lia. destruct (Nat.leb_spec (nth m ptrs 0) r), (Nat.ltb_spec r (nth (S m) ptrs 0)); cbn [andb].
    - assert (c = m) as -> by (eapply in_case_unique; eauto; split; lia). destruct (Nat.ltb_spec m (S m)); lia.
    - destruct (Nat.ltb_spec c m), (Nat.ltb_spec c (S m)); auto; try lia.
      assert (c = m) as -> by lia. destruct Hc. lia.
    - destruct (Nat.ltb_spec c m), (Nat.ltb_spec c (S m)); auto; try lia.
      assert (c = m) as -> by lia. destruct Hc. lia.
    - destruct (Nat.ltb_spec c m), (Nat.ltb_spec c (S m)); auto; try lia.
      assert (c = m) as -> by lia. destruct Hc. lia. }
  rewrite Hg by lia. destruct Hc. destruct (Nat.ltb_spec c (length ptrs - 1)); auto. lia.
Qed.

(** dissolve *)
Section Dissolve.
Context {A : Type}.
Variable same : A -> A -> bool.
Variable zero : A.
Hypothesis Hsame : forall x y, same x y = true -> x = y.
Variable ptrs : list nat.
Variable data : list A.
Variable d : A.
Hypothesis G : good_pointers ptrs (length data).
Hypothesis Hne : data <> [].
(** no variance among the rows before [m] as the code tests it *)
Definition quiet (m : nat) : Prop :=
  forall c r, r < m -> in_case ptrs c r -> (0 < nth c ptrs 0 -> r <> nth c ptrs 0) -> same (nth (nth c ptrs 0) data d) (nth r data d) = true.
Lemma dissolve_inv v0 : nth_error data 0 = Some v0 -> forall m, m <= length data ->
  (exists c out, fold_left (dissolve_step same (ends_1d ptrs) data) (seq 0 m) (Some (Some (0, fun i => if i =? 0 then v0 else zero))) = Some (Some (c, out)) /\
     at_row ptrs m c /\ quiet m /\
     out 0 = v0 /\ (forall k r, r < m -> in_case ptrs k r -> out k = nth (nth k ptrs 0) data d)) \/
  (fold_left (dissolve_step same (ends_1d ptrs) data) (seq 0 m) (Some (Some (0, fun i => if i =? 0 then v0 else zero))) = Some None /\ ~ quiet m).
Proof.
  intros H0. induction m as [|m IH]; intros Hm.
  - left. eexists _, _. split; [reflexivity|]. split; [left; auto|]. split; [|split; [auto|intros; lia]]. intros c r Hr. lia.
  - rewrite seq_S, fold_left_app. cbn [plus fold_left].
    destruct IH as [[c [out [ -> [Hc [Hq [Ho0 Ho]]]]]]|[ -> Hq]]; [lia| |].
    2:{ right. split; [reflexivity|]. intros H. apply Hq. intros c r Hr. apply H. lia. }
    unfold dissolve_step.
    destruct (next_case ptrs (length data) G m c ltac:(lia) Hc) as [e [E1 [E2 [E3 [E4 E5]]]]]. rewrite E1.
    rewrite (nth_error_nth' data d) by lia.
    destruct (m =? e) eqn:Ee.
    + destruct (E4 eq_refl) as [E6 E7]. destruct (Nat.ltb_spec (S c) (length (ends_1d ptrs))) as [_|]; [|lia].
      left. eexists _, _. split; [reflexivity|]. split; [apply at_row_next; auto|]. split; [|split; [auto|]].
      * intros k r Hr Hk Hnr. destruct (Nat.eq_dec r m) as [ ->|]; [|apply Hq; auto; lia].
        assert (k = S c) as -> by (eapply in_case_unique; eauto). exfalso. apply Hnr; lia.
      * intros k r Hr Hk. destruct (Nat.eqb_spec k (S c)) as [ ->|Hkc]; [rewrite E6; auto|].
        destruct (Nat.eq_dec r m) as [ ->|]; [exfalso; apply Hkc; eapply in_case_unique; eauto|]. apply (Ho k r); auto. lia.
    + assert (Ev : out c = nth (nth c ptrs 0) data d).
      { destruct (E5 eq_refl) as [ ->|Hp].
        - assert (c = 0) as ->. { eapply in_case_unique; [exact G|exact E2|]. destruct (in_case_exists ptrs (length data) G 0) as [k K]; [lia|].
            split; [destruct K; lia|]. rewrite (ptrs_0 ptrs _ G). destruct K as [K1 K2].
            assert (nth 0 ptrs 0 < nth 1 ptrs 0) by (apply (ptrs_mono _ _ G); lia). lia. }
          rewrite Ho0, (ptrs_0 ptrs _ G). symmetry. eapply nth_error_nth in H0. eauto.
        - destruct (Nat.eq_dec m 0) as [ ->|].
          + simpl in Hp. assert (c = 0) as ->. { eapply in_case_unique; [exact G|exact E2|]. split; [destruct Hp; lia|]. rewrite (ptrs_0 ptrs _ G).
              assert (nth 0 ptrs 0 < nth 1 ptrs 0) by (apply (ptrs_mono _ _ G); destruct Hp; lia). lia. }
            rewrite Ho0, (ptrs_0 ptrs _ G). symmetry. eapply nth_error_nth in H0. eauto.
          + apply (Ho c (m - 1)); auto. lia. }
      destruct (same (out c) (nth m data d)) eqn:Es.
      * left. eexists _, _. split; [reflexivity|]. split; [apply at_row_next; auto|]. split; [|split; [auto|]].
        -- intros k r Hr Hk Hnr. destruct (Nat.eq_dec r m) as [ ->|]; [|apply Hq; auto; lia].
           assert (k = c) as -> by (eapply in_case_unique; eauto). rewrite <- Ev. auto.
        -- intros k r Hr Hk. destruct (Nat.eq_dec r m) as [ ->|]; [|apply (Ho k r); auto; lia].
           assert (k = c) as -> by (eapply in_case_unique; eauto). auto.
      * right. split; [reflexivity|]. intros H. rewrite Ev in Es. rewrite (H c m) in Es; [discriminate|lia|auto|].
        intros Hp He. destruct (E5 eq_refl) as [ ->|Hp']; [lia|]. destruct Hp'. lia.
Qed.
End Dissolve.

(** pointers built by from_idce *)
Lemma codes_step codes : (forall r, S r < length codes -> nth (S r) codes 0 = nth r codes 0 \/ nth (S r) codes 0 = S (nth r codes 0)) ->
  nth 0 codes 0 = 0 -> forall m, m <= length codes -> 0 < m ->
  let ps := filter (fun i => (i =? 0) || negb (nth i codes 0 =? nth (i - 1) codes 0)) (seq 0 m) in
  length ps = S (nth (m - 1) codes 0) /\ (forall c, c < length ps -> nth c ps 0 < m /\ nth (nth c ps 0) codes 0 = c /\
     (forall r, r < m -> nth r codes 0 < c -> r < nth c ps 0) /\ (forall r, r < m -> c <= nth r codes 0 -> nth c ps 0 <= r)).
Proof.
  intros Hstep H0.
  assert (Hmon : forall j i, i <= j -> j < length codes -> nth i codes 0 <= nth j codes 0).
  { induction j as [|j IHj]; intros i Hi Hj; [assert (i = 0) as -> by lia; auto|].
    destruct (Nat.eq_dec i (S j)) as [ ->|]; auto. assert (nth i codes 0 <= nth j codes 0) by (apply IHj; lia).
    destruct (Hstep j Hj); lia. }
  induction m as [|m IH]; intros Hm Hm0; [lia|].
  destruct (Nat.eq_dec m 0) as [ ->|Hne].
  - simpl. split; [rewrite H0; auto|]. intros c Hc. assert (c = 0) as -> by lia. simpl. repeat split; auto; intros; try lia.
  - destruct IH as [I1 I2]; [lia|lia|]. cbv zeta. rewrite seq_S, filter_app. cbn [plus filter].
    set (ps := filter _ (seq 0 m)) in *. destruct (Nat.eqb_spec m 0); [lia|]. cbn [orb].
    specialize (Hstep (m - 1) ltac:(lia)). replace (S (m - 1)) with m in Hstep by lia.
    replace (S m - 1) with m by lia.
    destruct (Nat.eqb_spec (nth m codes 0) (nth (m - 1) codes 0)) as [Heq|Hneq]; cbn [negb].
    + rewrite app_nil_r. rewrite I1, Heq. split; auto. intros c Hc. rewrite <- I1 in Hc. destruct (I2 c Hc) as [J1 [J2 [J3 J4]]].
      split; [lia|]. split; auto. split.
      * intros r Hr Hlt. destruct (Nat.eq_dec r m) as [ ->|]; [|apply J3; auto; lia]. rewrite Heq in Hlt. rewrite I1 in Hc. lia.
      * intros r Hr Hle. destruct (Nat.eq_dec r m) as [ ->|]; [|apply J4; auto; lia]. lia.
    + assert (HS : nth m codes 0 = S (nth (m - 1) codes 0)) by (destruct Hstep; congruence).
      rewrite app_length, I1. simpl. split; [lia|]. intros c Hc.
      assert (Hlow : forall r, r < m -> nth r codes 0 < length ps).
      { intros r Hr. destruct (Nat.lt_ge_cases (nth r codes 0) (length ps)) as [|Hge]; auto. exfalso.
        assert (Hx : nth 0 ps 0 <= r) by (apply (I2 0); auto; lia).
        specialize (Hmon (m - 1) r ltac:(lia) ltac:(lia)). lia. }
      destruct (Nat.eq_dec c (length ps)) as [ ->|Hcl].
      * rewrite app_nth2 by lia. rewrite Nat.sub_diag. simpl. split; [lia|]. split; [lia|]. split.
        -- intros r Hr Hlt. destruct (Nat.eq_dec r m) as [ ->|]; lia.
        -- intros r Hr Hle. destruct (Nat.eq_dec r m) as [ ->|]; [lia|]. specialize (Hlow r ltac:(lia)). lia.
      * rewrite app_nth1 by lia. destruct (I2 c ltac:(lia)) as [J1 [J2 [J3 J4]]]. split; [lia|]. split; [auto|]. split.
        -- intros r Hr Hlt. destruct (Nat.eq_dec r m) as [ ->|]; [lia|apply J3; auto; lia].
        -- intros r Hr Hle. destruct (Nat.eq_dec r m) as [ ->|]; [lia|apply J4; auto; lia].
Qed.
