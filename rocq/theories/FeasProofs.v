(** Proofs for C69. *)
From Verif Require Import ParamModel ConsModel ConsSpec ConsProofs CovModel FeasModel FeasSpec.
From Verif Require BhhhModel BhhhProofs.
Open Scope R_scope.

Lemma nlt_nle_neg a b : a <> NaN -> b <> NaN -> nlt a b = negb (nle b a).
Proof. destruct a, b; simpl; congruence. Qed.
Lemma nlt_nan_l b : nlt NaN b = false. Proof. reflexivity. Qed.
Lemma nscale_num a k : 0 < k -> a <> NaN -> nscale a k <> NaN.
Proof. intros H1 H2. apply (proj2 (nscale_nonneg a k H1 H2)). Qed.
Lemma nsub_num a x : a <> NaN -> nsub a (Fin x) <> NaN /\ nsub (Fin x) a <> NaN.
Proof.
  intros H. split.
  - apply (proj2 (nsub_nonneg a (Fin x) H ltac:(discriminate) ltac:(eauto))).
  - apply (proj2 (nsub_nonneg (Fin x) a ltac:(discriminate) H ltac:(eauto))).
Qed.
Lemma pymin_num a b : a <> NaN -> b <> NaN -> pymin a b <> NaN.
Proof. unfold pymin. destruct (nlt b a); auto. Qed.
Lemma cfun_num c x : 0 < c_scale c -> numeric (c_spec c) -> cfun c x <> NaN.
Proof.
  intros Hk Hn. unfold cfun. destruct (c_spec c) as [a b lo hi|a b|a lo hi] eqn:Es; simpl in Hn.
  - apply pymin_num; unfold min_fun, max_fun; rewrite Es; discriminate.
  - discriminate.
  - apply pymin_num; unfold min_fun, max_fun; rewrite Es.
    + destruct lo as [m|]; [|discriminate]. apply nscale_num; auto. apply nsub_num. intros ->; tauto.
    + destruct hi as [m|]; [|discriminate]. apply nscale_num; auto. apply nsub_num. intros ->; tauto.
Qed.
Lemma meaningful_numeric f s v : meaningful f s v -> numeric s.
Proof. destruct s; simpl; auto. Qed.
Lemma broken_iff f c x : linked_to f c -> length x = length (rows f) ->
  meaningful f (c_spec c) (value_of (names (rows f)) x) ->
  is_broken x c = false <-> holds (c_spec c) (value_of (names (rows f)) x).
Proof.
  intros (sc & c0 & Hl & Es & Hk) Hx Hm. rewrite Es in *.
  rewrite <- (cfun_sign f sc c0 c x Hl Hk Hx Hm). unfold is_broken, nonneg.
  rewrite nlt_nle_neg; [|apply cfun_num; auto; rewrite Es; eapply meaningful_numeric; eauto|discriminate].
  destruct (nle (Fin 0) (cfun c x)); simpl; split; congruence.
Qed.

Lemma find_none {A} (p : A -> bool) l : find p l = None <-> forall a, In a l -> p a = false.
Proof.
  split; [apply find_none|]. intros H. destruct (find p l) as [a|] eqn:E; auto.
  apply find_some in E. rewrite H in E by tauto. destruct E; discriminate.
Qed.
Lemma has_values_nth f x i r : has_values f x -> nth_error (rows f) i = Some r -> r_value r = Fin (nth i x 0).
Proof.
  unfold has_values. intros H Hr.
  assert (E : nth_error (map r_value (rows f)) i = Some (r_value r)) by (rewrite nth_error_map, Hr; auto).
  rewrite H, nth_error_map in E. destruct (nth_error x i) as [v|] eqn:Ex; [|discriminate].
  simpl in E. injection E as <-. f_equal. symmetry. apply nth_error_nth. auto.
Qed.
Lemma has_values_length f x : has_values f x -> length x = length (rows f).
Proof. intros H. apply (f_equal (@length num)) in H. rewrite !map_length in H. auto. Qed.
Lemma has_values_pvals f x : has_values f x -> pvals f = x.
Proof.
  unfold has_values, pvals. generalize (rows f) as l. intros l. revert x.
  induction l as [|r l IH]; intros [|v x] H; simpl in *; try discriminate; auto.
  injection H as E H. rewrite E. f_equal. auto.
Qed.
Lemma bounds_iff f x : has_values f x -> numeric_bounds f ->
  (within_bounds f x <-> find is_over (rows f) = None /\ find is_under (rows f) = None).
Proof.
  intros Hv Hn. rewrite !find_none. unfold within_bounds.
  assert (K : forall i r, nth_error (rows f) i = Some r ->
    (nle (r_min r) (Fin (nth i x 0)) = true /\ nle (Fin (nth i x 0)) (r_max r) = true) <->
    (is_over r = false /\ is_under r = false)).
  { intros i r Hr. unfold is_over, is_under. rewrite (has_values_nth f x i r Hv Hr).
    assert (Hin : In r (rows f)) by (eapply nth_error_In; eauto).
    unfold numeric_bounds in Hn. rewrite Forall_forall in Hn. destruct (Hn r Hin) as [N1 N2].
    rewrite !nlt_nle_neg by (auto; discriminate).
    destruct (nle (r_min r) _), (nle _ (r_max r)); simpl; intuition congruence. }
  split.
  - intros H. split; intros r Hin; apply In_nth_error in Hin; destruct Hin as [i Hi];
      specialize (H i r Hi); apply (K i r Hi) in H; tauto.
  - intros [H1 H2] i r Hi. apply (K i r Hi). assert (In r (rows f)) by (eapply nth_error_In; eauto). auto.
Qed.
Lemma violation_iff f cs x : has_values f x -> numeric_bounds f -> ready f cs x ->
  (first_violation f cs = None <-> feasible f cs x).
Proof.
  intros Hv Hn (Hx & Hr). unfold feasible. rewrite (bounds_iff f x Hv Hn).
  assert (K : constraints_hold f cs x <-> find (is_broken (pvals f)) cs = None).
  { rewrite find_none, (has_values_pvals f x Hv). unfold constraints_hold. split; intros H c Hc; destruct (Hr c Hc) as [L M].
    - apply (broken_iff f c x L Hx M). auto.
    - apply (broken_iff f c x L Hx M). auto. }
  rewrite K. unfold first_violation.
  destruct (find is_over (rows f)); [split; [discriminate|intros [[? _] _]; discriminate]|].
  destruct (find is_under (rows f)); [split; [discriminate|intros [[_ ?] _]; discriminate]|].
  destruct (find (is_broken (pvals f)) cs); split; intuition discriminate.
Qed.

(** ** Setting values changes neither names, bounds nor links. *)
Lemma with_values_spec f x : length x = length (rows f) ->
  has_values (with_values f x) x /\ names (rows (with_values f x)) = names (rows f) /\
  length (rows (with_values f x)) = length (rows f) /\
  map r_min (rows (with_values f x)) = map r_min (rows f) /\ map r_max (rows (with_values f x)) = map r_max (rows f).
Proof.
  unfold has_values, with_values, names; cbn [rows]. generalize (rows f) as l. intros l. revert x.
  induction l as [|r l IH]; intros [|v x] H; simpl in *; try discriminate; auto.
  injection H as H. destruct (IH x H) as (A & B & C & D & E). repeat split; f_equal; auto.
Qed.
Lemma with_values_rows f x i : length x = length (rows f) ->
  nth_error (rows (with_values f x)) i = option_map (with_value (Fin (nth i x 0))) (nth_error (rows f) i).
Proof.
  unfold with_values; cbn [rows]. generalize (rows f) as l. intros l. revert x i.
  induction l as [|r l IH]; intros [|v x] [|i] H; simpl in *; try discriminate; auto.
Qed.
Lemma with_values_bound f x n sel : length x = length (rows f) ->
  (forall v r, sel (with_value v r) = sel r) -> bound_of sel n (with_values f x) = bound_of sel n f.
Proof.
  unfold bound_of, with_values; cbn [rows]. generalize (rows f) as l. intros l H Hs. revert x H.
  induction l as [|r l IH]; intros [|v x] H; simpl in *; try discriminate; auto.
  destruct (String.eqb _ n); [apply Hs|apply IH; auto].
Qed.
Lemma with_values_link f x sc c : length x = length (rows f) -> link_model (with_values f x) sc c = link_model f sc c.
Proof.
  intros H. destruct (with_values_spec f x H) as (_ & B & C & _). unfold link_model. rewrite B, C.
  unfold ratio_coef.
  destruct (c_spec c); auto;
    rewrite !(with_values_bound f x _ r_min), !(with_values_bound f x _ r_max) by auto; auto.
Qed.
Lemma with_values_meaningful f x s v : length x = length (rows f) -> meaningful (with_values f x) s v <-> meaningful f s v.
Proof.
  intros H. destruct s; simpl; try tauto. unfold den_ok.
  rewrite !(with_values_bound f x _ r_min) by auto. tauto.
Qed.
Lemma with_values_linked f x c : length x = length (rows f) -> linked_to (with_values f x) c <-> linked_to f c.
Proof.
  intros H. unfold linked_to.
  split; intros (sc & c0 & A & B); exists sc, c0; (split; [|auto]).
  - rewrite <- A. symmetry. apply with_values_link; auto.
  - rewrite <- A. apply with_values_link; auto.
Qed.
Lemma violated_at_iff f cs x : numeric_bounds f -> ready f cs x ->
  (violated_at f cs x = false <-> feasible f cs x).
Proof.
  intros Hn Hr. assert (Hx := proj1 Hr). destruct (with_values_spec f x Hx) as (A & B & C & D & E).
  unfold violated_at. transitivity (first_violation (with_values f x) cs = None).
  { destruct (first_violation _ _); split; congruence. }
  rewrite (violation_iff (with_values f x) cs x A).
  - unfold feasible, within_bounds, constraints_hold. rewrite B.
    assert (K : (forall i r, nth_error (rows (with_values f x)) i = Some r ->
        nle (r_min r) (Fin (nth i x 0)) = true /\ nle (Fin (nth i x 0)) (r_max r) = true) <->
      (forall i r, nth_error (rows f) i = Some r ->
        nle (r_min r) (Fin (nth i x 0)) = true /\ nle (Fin (nth i x 0)) (r_max r) = true)).
    { split; intros H i r Hi.
      - assert (G := with_values_rows f x i Hx). rewrite Hi in G. apply (H i _ G).
      - rewrite with_values_rows in Hi by auto. destruct (nth_error (rows f) i) as [r0|] eqn:E0; [|discriminate].
        injection Hi as <-. apply (H i r0 E0). }
    rewrite K. tauto.
  - unfold numeric_bounds. rewrite Forall_forall. intros r Hin. apply In_nth_error in Hin. destruct Hin as [i Hi].
    rewrite with_values_rows in Hi by auto. destruct (nth_error (rows f) i) as [r0|] eqn:E0; [|discriminate].
    injection Hi as <-. unfold numeric_bounds in Hn. rewrite Forall_forall in Hn. apply (Hn r0). eapply nth_error_In; eauto.
  - destruct Hr as [_ Hr]. split; [congruence|]. intros c Hc. destruct (Hr c Hc) as [L M].
    rewrite B. split; [apply with_values_linked; auto|]. apply with_values_meaningful; auto.
Qed.

(** ** The solver's problem *)
Lemma bounds_admit f x : within_bounds f x <->
  forall i lo hi, nth_error (map (fun r => (r_min r, r_max r)) (rows f)) i = Some (lo, hi) ->
      nle lo (Fin (nth i x 0)) = true /\ nle (Fin (nth i x 0)) hi = true.
Proof.
  unfold within_bounds. split; intros H i.
  - intros lo hi E. rewrite nth_error_map in E. destruct (nth_error (rows f) i) as [r|] eqn:Er; [|discriminate].
    injection E as <- <-. apply H; auto.
  - intros r E. apply H. rewrite nth_error_map, E. auto.
Qed.
Lemma functions_iff f cs x : ready f cs x -> (constraints_hold f cs x <-> forall c, In c cs -> nonneg (cfun c x)).
Proof.
  intros (Hx & Hr). split; intros H c Hc; destruct (Hr c Hc) as [(sc & c0 & Hl & Es & Hk) M]; specialize (H c Hc);
    rewrite Es in *; apply (cfun_sign f sc c0 c x Hl Hk Hx M); auto.
Qed.
Lemma satisfies_app a b x : satisfies (a ++ b) x <-> satisfies a x /\ satisfies b x.
Proof. apply Forall_app. Qed.
Lemma linear_all f cs x : ready f cs x -> Forall two_names cs ->
  (satisfies (flat_map linear_form cs) x <-> forall c, In c cs -> nonneg (cfun c x)).
Proof.
  intros (Hx & Hr) H2. induction cs as [|c cs IH]; simpl.
  - split; [intros _ c []|intros _; constructor].
  - rewrite satisfies_app. inversion H2; subst.
    assert (IH' := IH (fun c Hc => Hr c (or_intror Hc)) ltac:(auto)). rewrite IH'.
    destruct (Hr c (or_introl eq_refl)) as [(sc & c0 & Hl & Es & Hk) M].
    assert (L : satisfies (linear_form c) x <-> nonneg (cfun c x)).
    { apply (linear_iff f sc c0 c x Hl Hk Hx). unfold two_names in *. rewrite Es in *.
      destruct (c_spec c0); auto. }
    rewrite L. split.
    + intros [A B] d [->|Hd]; auto.
    + intros H. split; auto.
Qed.

(** ** The numba optimizer *)
Lemma numba_loop_verdict held eval direction violated cct ncases rem fuel s a iter steplen steps cur e cpen st ll tol iters steps' msg st' :
  BhhhModel.numba_loop held eval direction violated cct ncases rem fuel s a iter steplen steps cur e cpen st
    = Some (BhhhModel.Fit ll tol iters steps' msg st') ->
  match msg with
  | BhhhModel.Success | BhhhModel.SoftMaxIter => BhhhModel.intens st' = 0 \/ violated (BhhhModel.vals st') = false
  | BhhhModel.ConstrainedSuccess => violated (BhhhModel.vals st') = false
  | BhhhModel.MaxIter => True
  end.
Proof.
  assert (V : forall st, BhhhModel.violated_ic violated st = false -> BhhhModel.intens st = 0 \/ violated (BhhhModel.vals st) = false).
  { intros st0 H. unfold BhhhModel.violated_ic in H. destruct (Req_EM_T _ _); auto. }
  assert (C : forall a tol b, BhhhModel.converged a tol b = true -> b = false).
  { intros a0 t b H. unfold BhhhModel.converged in H. destruct (Rle_dec _ _); [|discriminate]. destruct b; [discriminate|reflexivity]. }
  assert (S : forall a i b, BhhhModel.soft_stop a i b = true -> b = false).
  { intros a0 i b H. unfold BhhhModel.soft_stop in H. destruct (BhhhModel.na_soft a0); [|discriminate].
    apply andb_true_iff in H. destruct H as [_ H]. destruct b; [discriminate|reflexivity]. }
  revert iter steplen steps cur e cpen st.
  induction rem as [|rem IH]; cbn [BhhhModel.numba_loop]; intros iter steplen steps cur e cpen st E.
  - destruct (BhhhModel.converged _ _ _) eqn:Ec; inversion E; subst; auto. apply V. eapply C; eauto.
  - destruct (BhhhModel.converged _ _ _) eqn:Ec; [inversion E; subst; apply V; eapply C; eauto|].
    destruct (BhhhModel.soft_stop _ _ _) eqn:Eo; [inversion E; subst; apply V; eapply S; eauto|].
    destruct (BhhhModel.search _ _ _ _ _ _ _ _ _ _) as [[[p t] st1]|] eqn:Es; [|discriminate].
    destruct (nle _ _).
    + destruct (violated (BhhhModel.vals (BhhhModel.set_vals held cur st1))) eqn:Ev; [discriminate|].
      destruct (Rlt_dec _ _).
      * destruct (BhhhModel.sharpen _ _ _ _ _ _ _ _ _) as [[q st2]|] eqn:Esh; [|discriminate].
        destruct (BhhhModel.intensify _ _ _ _ _ _) as [[e' c'] st3] eqn:Ei. eapply IH; exact E.
      * destruct (Rlt_dec _ _); [inversion E; subst; auto|].
        destruct (BhhhModel.intensify _ _ _ _ _ _) as [[e' c'] st3] eqn:Ei. eapply IH; exact E.
    + destruct (BhhhModel.intensify _ _ _ _ _ _) as [[e' c'] st3] eqn:Ei. eapply IH; exact E.
Qed.
Lemma search_length held eval fuel s cur dir cll minlen t st e t' st' :
  BhhhModel.search held eval fuel s cur dir cll minlen t st = Some (e, t', st') ->
  length (BhhhModel.vals st') = length (BhhhModel.vals st).
Proof.
  revert t st; induction fuel as [|f IH]; cbn [BhhhModel.search]; intros t st E; [discriminate|].
  destruct (nlt _ _); [inversion E; subst; apply BhhhProofs.upd_length|].
  destruct (Rlt_dec _ _); [inversion E; subst; apply BhhhProofs.upd_length|].
  apply IH in E. rewrite E. apply BhhhProofs.upd_length.
Qed.
Lemma jumpstart_length held eval jdir t n chunks st :
  length (BhhhModel.vals (BhhhModel.jumpstart_numba held eval jdir t n chunks st)) = length (BhhhModel.vals st).
Proof.
  revert st; induction n; simpl; intros; auto. rewrite IHn. clear IHn.
  generalize (BhhhModel.vals st) at 1 as base. revert st. induction chunks; simpl; intros; auto.
  rewrite IHchunks. unfold BhhhModel.set_vals; simpl. apply BhhhProofs.upd_length.
Qed.
Lemma numba_loop_length held eval direction violated cct ncases rem fuel s a iter steplen steps cur e cpen st out :
  BhhhModel.numba_loop held eval direction violated cct ncases rem fuel s a iter steplen steps cur e cpen st = Some out ->
  length (BhhhModel.vals (BhhhModel.end_state out)) = length (BhhhModel.vals st).
Proof.
  revert iter steplen steps cur e cpen st.
  induction rem as [|rem IH]; cbn [BhhhModel.numba_loop]; intros iter steplen steps cur e cpen st E.
  - destruct (BhhhModel.converged _ _ _); inversion E; subst; auto.
  - destruct (BhhhModel.converged _ _ _); [inversion E; subst; auto|].
    destruct (BhhhModel.soft_stop _ _ _); [inversion E; subst; auto|].
    destruct (BhhhModel.search _ _ _ _ _ _ _ _ _ _) as [[[p t] st1]|] eqn:Es; [|discriminate].
    apply search_length in Es.
    destruct (nle _ _).
    + destruct (violated _) eqn:Ev; [inversion E; subst; simpl; rewrite BhhhProofs.upd_length; auto|].
      destruct (Rlt_dec _ _).
      * destruct (BhhhModel.sharpen _ _ _ _ _ _ _ _ _) as [[q st2]|] eqn:Esh; [|discriminate].
        apply BhhhProofs.sharpen_vals in Esh. destruct Esh as [Hv _].
        destruct (BhhhModel.intensify _ _ _ _ _ _) as [[e' c'] st3] eqn:Ei. apply BhhhProofs.intensify_vals in Ei. destruct Ei as [Hw _].
        apply IH in E. rewrite E, Hw, Hv. simpl. rewrite BhhhProofs.upd_length; auto.
      * destruct (Rlt_dec _ _); [inversion E; subst; simpl; rewrite BhhhProofs.upd_length; auto|].
        destruct (BhhhModel.intensify _ _ _ _ _ _) as [[e' c'] st3] eqn:Ei. apply BhhhProofs.intensify_vals in Ei. destruct Ei as [Hw _].
        apply IH in E. rewrite E, Hw. simpl. rewrite BhhhProofs.upd_length; auto.
    + destruct (BhhhModel.intensify _ _ _ _ _ _) as [[e' c'] st3] eqn:Ei. apply BhhhProofs.intensify_vals in Ei. destruct Ei as [Hw _].
      apply IH in E. rewrite E, Hw. auto.
Qed.
