(** C25-C30: the parameter frame. *)
From Verif Require Import ParamEval.
Local Open Scope R_scope.
Local Open Scope string_scope.

(** *** C25: set_values *)
(** An array of the right length without NaN among the free entries replaces exactly the values of
    the free parameters (of all of them with respect_holdfast=False). *)
Theorem C25_array_sets_free : forall m vs, length vs = length (rows (m_frame m)) ->
  no_nan_at free vs (rows (m_frame m)) ->
  exists m', set_values (VArray vs) true [] m = Ret tt m' /\ frame_only m m' /\
             values_replaced free vs (rows (m_frame m)) (rows (m_frame m')).
Proof. exact (fun m vs => set_values_ok m vs true). Qed.
Theorem C25_array_sets_all : forall m vs, length vs = length (rows (m_frame m)) ->
  no_nan_at (fun _ => True) vs (rows (m_frame m)) ->
  exists m', set_values (VArray vs) false [] m = Ret tt m' /\ frame_only m m' /\
             values_replaced (fun _ => True) vs (rows (m_frame m)) (rows (m_frame m')).
Proof. exact (fun m vs => set_values_ok m vs false). Qed.
(** Otherwise the call raises and nothing has changed. *)
Theorem C25_bad_array_changes_nothing : forall m vs,
  length vs <> length (rows (m_frame m)) \/ ~ no_nan_at free vs (rows (m_frame m)) ->
  set_values (VArray vs) true [] m = Exn m.
Proof. exact (fun m vs => set_values_bad m vs true). Qed.
(** Keywords use the corresponding column; 'best' raises when there is none. *)
Theorem C25_keywords : forall m a col,
  (a = VNull /\ col = r_null \/ a = VInit /\ col = r_init \/ a = VBest /\ col = r_best /\ has_best (m_frame m) = true) ->
  (forall r, In r (rows (m_frame m)) -> free r -> col r <> NaN) ->
  exists m', set_values a true [] m = Ret tt m' /\ frame_only m m' /\
    values_replaced free (map col (rows (m_frame m))) (rows (m_frame m)) (rows (m_frame m')).
Proof.
  intros m a col Ha Hn.
  assert (E : set_values a true [] m = set_values (VArray (map col (rows (m_frame m)))) true [] m).
  { destruct Ha as [[ -> ->]|[[ -> ->]|( -> & -> & E)]]; unfold set_values; cbn [resolve]; try rewrite E; auto. }
  rewrite E. apply (set_values_ok m _ true); [apply map_length|].
  intros i r Hi Hf Hc. rewrite nth_error_map, Hi in Hc. injection Hc as Hc. apply (Hn r); auto. eapply nth_error_In; eauto.
Qed.
Theorem C25_no_best_raises : forall m respect kw, has_best (m_frame m) = false ->
  set_values VBest respect kw m = Exn m.
Proof. intros m respect kw H. unfold set_values. simpl. rewrite H. auto. Qed.
(** A number is given to every free parameter. *)
Theorem C25_scalar : forall m v,
  exists m', set_values (VScalar v) true [] m = Ret tt m' /\ frame_only m m' /\
    values_replaced free (map (fun _ => v) (rows (m_frame m))) (rows (m_frame m)) (rows (m_frame m')).
Proof. exact (fun m v => scalar_ok m v true). Qed.
(** A dict sets the free parameters it names and nothing else; unknown names are ignored; held
    parameters never move, whatever respect_holdfast says.  (Names already scanned.) *)
Theorem C25_dict : forall m respect kw, m_mangled m = false -> NoDup (map fst kw) ->
  exists m', set_values VNone respect kw m = Ret tt m' /\ frame_only m m' /\
    Forall2 (fun r r' => same_but_value r r' /\
        (forall v, In (r_name r, v) kw -> free r -> r_value r' = v) /\
        (~ In (r_name r) (map fst kw) \/ ~ free r -> r_value r' = r_value r))
      (rows (m_frame m)) (rows (m_frame m')).
Proof.
  intros m respect kw Hm Hn.
  assert (E : exists m', set_values VNone respect kw m = Ret tt m' /\ frame_only m m' /\
                rows (m_frame m') = map (kw_row kw) (rows (m_frame m))).
  { unfold set_values. cbn [resolve set_array]. destruct kw as [|kv kw].
    - eexists. split; [reflexivity|]. split; [destruct m; repeat split|]. simpl. rewrite <- (map_id (rows (m_frame m))) at 1. auto.
    - cbn [m_mangled with_frame m_frame]. rewrite Hm. rewrite fold_set_kw.
      eexists. split; [reflexivity|]. split; [repeat split|]. auto. }
  destruct E as (m' & E & Hf & Hr). exists m'. split; auto. split; auto. rewrite Hr. clear -Hn.
  induction (rows (m_frame m)) as [|r l IH]; simpl; constructor; auto. split; [apply kw_row_same|]. split.
  - intros v Hv Hfr. apply kw_row_given; auto.
  - intros [H|H]; [rewrite kw_row_other|rewrite kw_row_held]; auto.
Qed.
(** NaN is rejected only in array form: as a scalar or in a dict it is accepted. *)
Theorem C25_nan_accepted_refuted : exists m, wf (m_frame m) /\ m_mangled m = false /\
  (exists m', set_values (VScalar NaN) true [] m = Ret tt m' /\ map r_value (rows (m_frame m')) = [NaN]) /\
  (exists m', set_values VNone true [("a", NaN)] m = Ret tt m' /\ map r_value (rows (m_frame m')) = [NaN]).
Proof.
  exists (mkModel (mkFrame [new_row plain_defaults "a"] false) (mkNames ["a"] [] []) false (Fin 0) NInf []).
  split; [repeat constructor; easy|]. split; [auto|]. split; eexists; split; reflexivity.
Qed.
(** A parameter given a value by name before the model mentions it is created without a holdfast
    entry, and no set_values call moves it afterwards, even once the model uses it. *)
Theorem C25_early_set_value_holds_refuted : exists m m1 m2 m3,
  m_names m = mkNames [] [] [] /\ set_value "a" (only_value (Fin 1)) m = Ret tt m1 /\
  (* the utility function is defined *)
  m2 = mkModel (m_frame m1) (mkNames ["a"] [] []) true (m_null_ll m1) (m_best_ll m1) (m_log m1) /\
  unmangle false m2 = Ret tt m3 /\
  set_values (VArray [Fin 5]) true [] m3 = Ret tt m3 /\ set_values VNone true [("a", Fin 5)] m3 = Ret tt m3 /\
  map r_value (rows (m_frame m3)) = [Fin 1] /\ map r_hold (rows (m_frame m3)) = [None].
Proof.
  eexists (mkModel (mkFrame [] false) (mkNames [] [] []) true (Fin 0) NInf []), _, _, _.
  split; [reflexivity|]. split; [reflexivity|]. split; [reflexivity|]. split; [reflexivity|].
  split; [reflexivity|]. split; [reflexivity|]. split; reflexivity.
Qed.
Example C25_example :
  let a := new_row plain_defaults "a" in
  let b := mkRow "b" (Fin 2) (Fin 2) (Fin 2) (Fin 2) (Fin 2) (Some 1%Z) NaN in
  let m := mkModel (mkFrame [a; b] false) (mkNames [] [] []) false (Fin 0) NInf [] in
  no_nan_at free [Fin 7; NaN] (rows (m_frame m)) /\
  exists m', set_values (VArray [Fin 7; NaN]) true [] m = Ret tt m' /\ map r_value (rows (m_frame m')) = [Fin 7; Fin 2].
Proof.
  split.
  - intros [|[|i]] r Hi Hf; simpl in *; try discriminate; try (injection Hi as <-; discriminate).
    destruct i; discriminate.
  - eexists. split; reflexivity.
Qed.

(** *** C26: scanning names *)
(** Registering names appends the missing ones with the given defaults, keeps existing rows as they
    are and in order, and leaves no name twice. *)
Theorem C26_ensure_names : forall ns d f, wf f -> NoDup ns ->
  exists extra, ensure_names ns d f = Some (mkFrame (rows f ++ extra) (has_best f)) /\
    wf (mkFrame (rows f ++ extra) (has_best f)) /\
    (forall n, In n ns -> In n (map r_name (rows f ++ extra))) /\
    (forall r, In r extra -> exists n, In n ns /\ ~ In n (map r_name (rows f)) /\
        fresh_row n (d_init d) (d_null d) (d_min d) (d_max d) r) /\
    ensure_names ns d (mkFrame (rows f ++ extra) (has_best f)) = Some (mkFrame (rows f ++ extra) (has_best f)).
Proof.
  intros ns d f Hw Hn. destruct (ensure_names_eq ns d f Hw Hn) as [E W]. eexists. split; [exact E|]. split; [exact W|].
  assert (Hall : forall n, In n ns -> In n (map r_name (rows f ++ map (new_row d) (missing_of ns f)))).
  { intros n H. rewrite map_app, in_app_iff, map_map. simpl. rewrite map_id.
    destruct (in_dec string_dec n (map r_name (rows f))); auto. right. apply missing_In; auto. }
  split; [exact Hall|]. split.
  - intros r Hr. apply in_map_iff in Hr. destruct Hr as (n & <- & Hin). apply missing_In in Hin. exists n.
    split; [apply Hin|]. split; [apply Hin|]. repeat split.
  - destruct (ensure_names_eq ns d _ W Hn) as [E2 _]. rewrite E2, (missing_nil ns (mkFrame _ _) Hall).
    simpl. rewrite app_nil_r. auto.
Qed.
(** A full scan keeps every existing row, adds each missing name once with the defaults of the
    first place it is used (utility, quantity, then logsum), sorts rows by name, and repeating it
    changes nothing. *)
Theorem C26_full_scan : forall mn f, wf f -> NoDup (n_util mn) -> NoDup (n_quant mn) -> NoDup (n_logsum mn) ->
  exists f', scan_all mn f = Some f' /\ wf f' /\ has_best f' = has_best f /\
    (forall r, In r (rows f) -> In r (rows f')) /\
    (forall n, In n (n_util mn) \/ In n (n_quant mn) \/ In n (n_logsum mn) -> In n (map r_name (rows f'))) /\
    (forall r, In r (rows f') -> In r (rows f) \/
       ~ In (r_name r) (map r_name (rows f)) /\
       ((In (r_name r) (n_util mn) \/ In (r_name r) (n_quant mn)) /\
          fresh_row (r_name r) (Fin 0) (Fin 0) NInf PInf r \/
        In (r_name r) (n_logsum mn) /\ ~ In (r_name r) (n_util mn) /\ ~ In (r_name r) (n_quant mn) /\
          fresh_row (r_name r) (Fin 1) (Fin 1) (Fin (1/1000)) (Fin 1) r)) /\
    (forall i j r r', (i < j)%nat -> nth_error (rows f') i = Some r -> nth_error (rows f') j = Some r' ->
       name_le (r_name r) (r_name r')) /\
    scan_all mn f' = Some f'.
Proof.
  intros mn f Hw H1 H2 H3. assert (Hm : names_ok mn) by (split; auto).
  destruct (scan_all_eq mn f Hw Hm) as [E Hd]. eexists. split; [exact E|].
  split; [eapply scan_wf; eauto|]. split; [auto|]. split; [intros r Hr; apply in_scanned; auto|].
  split. { intros n Hn. simpl. apply (Permutation_in n (Permutation_map r_name (sort_perm (scanned mn f)))).
           apply scanned_all_names; auto. }
  split. { intros r Hr. simpl in Hr. apply (Permutation_in r (Permutation_sym (sort_perm _))) in Hr.
    destruct (scanned_old mn f) as (x & Ex & Hx). rewrite Ex in Hr. apply in_app_iff in Hr. destruct Hr as [Hr|Hr]; auto.
    right. destruct (Hx r Hr) as (n & [[ -> Hn]|( -> & Hn & Hu & Hq)] & Hni); (split; [exact Hni|]).
    - left. split; [exact Hn|]. repeat split.
    - right. split; [exact Hn|]. split; [exact Hu|]. split; [exact Hq|]. repeat split. }
  split; [|eapply scan_idem; eauto].
  clear E Hd. simpl. intros i j r r' Hij Hi Hj. pose proof (sort_sorted (scanned mn f)) as Hs. revert i j Hij Hi Hj.
  induction Hs as [|x l Hx Hs IH]; intros [|i] [|j] Hij Hi Hj; simpl in *; try discriminate; try lia.
  - injection Hi as <-. apply Hx. eapply nth_error_In; eauto.
  - eapply IH; [|eauto|eauto]. lia.
Qed.
(** The names are collected in Python sets, whose iteration order is arbitrary: the result of the
    scan does not depend on it, nor on the order of the existing rows. *)
Theorem C26_order_independent : forall mn mn' f f',
  wf f -> NoDup (n_util mn) -> NoDup (n_quant mn) -> NoDup (n_logsum mn) ->
  Permutation (rows f) (rows f') -> has_best f = has_best f' ->
  Permutation (n_util mn) (n_util mn') -> Permutation (n_quant mn) (n_quant mn') ->
  Permutation (n_logsum mn) (n_logsum mn') ->
  scan_all mn f = scan_all mn' f'.
Proof. intros mn mn' f f' Hw H1 H2 H3. apply scan_order_free; auto. split; auto. Qed.
(** But existing rows do not keep their positions: a full scan re-sorts them, so values listed in
    the old order are then given to other parameters. *)
Theorem C26_order_kept_refuted : exists m m1 m2 vs,
  wf (m_frame m) /\ map r_name (rows (m_frame m)) = ["b"; "a"] /\
  unmangle false m = Ret tt m1 /\ map r_name (rows (m_frame m1)) = ["a"; "b"] /\
  vs = [Fin 1; Fin 2] /\ set_values (VArray vs) true [] m1 = Ret tt m2 /\
  map (fun r => (r_name r, r_value r)) (rows (m_frame m2)) = [("a", Fin 1); ("b", Fin 2)].
Proof.
  eexists (mkModel (mkFrame [new_row plain_defaults "b"; new_row plain_defaults "a"] false) (mkNames ["a"; "b"] [] []) true (Fin 0) NInf []), _, _, _.
  split; [repeat constructor; simpl; intuition congruence|]. repeat (split; [reflexivity|]). reflexivity.
Qed.
Example C26_example : exists f',
  scan_all (mkNames ["cost"; "time"] ["size"] ["mu"; "cost"])
           (mkFrame [mkRow "time" (Fin 3) (Fin 3) (Fin 0) NInf PInf (Some 0%Z) NaN] false) = Some f' /\
  map (fun r => (r_name r, r_value r)) (rows f') =
    [("cost", Fin 0); ("mu", Fin 1); ("size", Fin 0); ("time", Fin 3)].
Proof. eexists. split; reflexivity. Qed.

(** *** C27: locking *)
(** lock_value succeeds, and through every later history of calls that do not set this parameter by
    name and do not ask for held parameters to be overridden, the parameter stays as locked. *)
Theorem C27_locked_stays_locked : forall LL checks_best full n x m,
  wf (m_frame m) -> names_ok (m_names m) ->
  exists m1, lock_value n (Fin x) m = Ret tt m1 /\ param_locked n (Fin x) (m_frame m1) /\
    forall history, Forall (leaves_alone n) history ->
      param_locked n (Fin x) (m_frame (run LL checks_best full history m1)).
Proof.
  intros LL cb full n x m Hw Hn. destruct (lock_value_locks n x m Hw Hn) as (m1 & E & H). exists m1.
  split; auto. split; [apply H|]. intros os Hos. apply (lock_run LL cb full n x os m1 Hos H).
Qed.
(** Names are unique, so "the" parameter is the one found: every row of that name is the locked one. *)
Theorem C27_locked_value : forall n v f r, wf f -> param_locked n v f -> In r (rows f) -> r_name r = n ->
  r_value r = v /\ r_init r = v /\ r_null r = v /\ r_min r = v /\ r_max r = v.
Proof.
  intros n v f r Hw (r' & Hr' & Hn' & Hl) Hr Hn. assert (r = r').
  { destruct (find_row_complete n (rows f)) as (r2 & F2); [rewrite <- Hn; apply in_map; auto|].
    rewrite (find_row_unique _ _ _ r Hw F2 Hr Hn), (find_row_unique _ _ _ r' Hw F2 Hr' Hn'). auto. }
  subst r'. destruct Hl as (?&?&?&?&?&_). auto.
Qed.
(** set_values with respect_holdfast=False does move it. *)
Theorem C27_override_refuted : exists m m1,
  param_locked "a" (Fin 2) (m_frame m) /\ set_values (VArray [Fin 5]) false [] m = Ret tt m1 /\
  map r_value (rows (m_frame m1)) = [Fin 5].
Proof.
  eexists (mkModel (mkFrame [mkRow "a" (Fin 2) (Fin 2) (Fin 2) (Fin 2) (Fin 2) (Some 1%Z) NaN] false) (mkNames ["a"] [] []) false (Fin 0) NInf []), _.
  split; [|split; reflexivity]. eexists. split; [left; reflexivity|]. repeat split.
Qed.
Example C27_example :
  let m := mkModel (mkFrame [new_row plain_defaults "a"; new_row plain_defaults "b"] false) (mkNames ["a"; "b"; "c"] [] []) true (Fin 0) NInf [] in
  wf (m_frame m) /\ names_ok (m_names m) /\
  Forall (leaves_alone "a") [OpSetValues (VScalar (Fin 3)) true [("a", Fin 4)]; OpMangle; OpUnmangle true; OpSetCap 1; OpLikelihoodRatios None true].
Proof.
  split; [repeat constructor; simpl; intuition congruence|]. split.
  - repeat split; repeat constructor; simpl; intuition congruence.
  - repeat constructor; auto.
Qed.

(** *** C28: set_cap *)
Definition lower_of (a : num) (c : R) : num := match a with NInf => Fin (- c) | Fin x => Fin (Rmax x (- c)) | _ => a end.
Definition upper_of (b : num) (c : R) : num := match b with PInf => Fin c | Fin x => Fin (Rmin x c) | _ => b end.
(** Bounds [a,b] meet [-c,c]: some real number lies in both. *)
Definition meets (a b : num) (c : R) : Prop :=
  exists x, - c <= x <= c /\ nle a (Fin x) = true /\ nle (Fin x) b = true.
(** [x] is allowed by the bounds of a row. *)
Definition within (x : R) (r : row) : Prop := nle (r_min r) (Fin x) = true /\ nle (Fin x) (r_max r) = true.

Lemma cap_meet c r : 0 <= c -> r_min r <> NaN -> r_max r <> NaN -> nle (r_min r) (r_max r) = true ->
  meets (r_min r) (r_max r) c ->
  r_min (cap_row c r) = lower_of (r_min r) c /\ r_max (cap_row c r) = upper_of (r_max r) c.
Proof.
  intros Hc Ha Hb Hab (x & Hx & H1 & H2). unfold cap_row. cbn [r_min r_max].
  unfold nmax, nmin. destruct (r_min r) as [| |a|], (r_max r) as [| |b|]; cbn [is_nan orb nle lower_of upper_of] in *; try congruence;
  repeat match goal with |- context [Rle_dec ?a ?b] => destruct (Rle_dec a b); cbn [nle is_nan] in * end;
  repeat match goal with H : context [Rle_dec ?a ?b] |- _ => destruct (Rle_dec a b); cbn [nle is_nan] in * end;
  try congruence; try (exfalso; lra); split; f_equal; auto; unfold Rmax, Rmin;
  repeat match goal with |- context [Rle_dec ?a ?b] => destruct (Rle_dec a b); cbn [nle is_nan] in * end; lra.
Qed.
Lemma cap_disjoint c r : 0 <= c -> r_min r <> NaN -> r_max r <> NaN -> nle (r_min r) (r_max r) = true ->
  ~ meets (r_min r) (r_max r) c ->
  r_min (cap_row c r) = r_min r /\ r_max (cap_row c r) = r_max r.
Proof.
  intros Hc Ha Hb Hab Hm. unfold cap_row. cbn [r_min r_max].
  assert (E : nle (nmax (r_min r) (Fin (- c))) (nmin (r_max r) (Fin c)) = false).
  { apply not_true_is_false. intros E. apply Hm. clear Hm. revert E. unfold nmax, nmin, meets.
    destruct (r_min r) as [| |a|], (r_max r) as [| |b|]; cbn [is_nan orb nle] in *; try congruence.
    - exists (- c). repeat split; try lra; auto; destruct (Rle_dec b c) as [H|H]; cbn [nle] in *;
        repeat match goal with H : context [Rle_dec ?a ?b] |- _ => destruct (Rle_dec a b) end; try congruence; destruct (Rle_dec (- c) b); auto; lra.
    - exists (- c). repeat split; auto; lra.
    - intros E. exists (Rmax a (- c)). assert (E' : Rmax a (- c) <= Rmin b c).
      { revert E. destruct (Rle_dec a (- c)), (Rle_dec b c); cbn [nle];
          unfold Rmax, Rmin; repeat match goal with |- context [Rle_dec ?u ?v] => destruct (Rle_dec u v) end; intros; try congruence; lra. }
      pose proof (Rmax_l a (- c)). pose proof (Rmax_r a (- c)). pose proof (Rmin_l b c). pose proof (Rmin_r b c).
      split; [lra|]. split; match goal with |- context [Rle_dec ?u ?v] => destruct (Rle_dec u v); [auto|lra] end.
    - intros E. exists (Rmax a (- c)). assert (E' : Rmax a (- c) <= c).
      { revert E. destruct (Rle_dec a (- c)); cbn [nle];
          unfold Rmax, Rmin; repeat match goal with |- context [Rle_dec ?u ?v] => destruct (Rle_dec u v) end; intros; try congruence; lra. }
      pose proof (Rmax_l a (- c)). pose proof (Rmax_r a (- c)).
      split; [lra|]. split; auto; match goal with |- context [Rle_dec ?u ?v] => destruct (Rle_dec u v); [auto|lra] end. }
  rewrite E. destruct (r_min r), (r_max r); cbn [is_nan]; try congruence; auto.
Qed.
Lemma nle_fin a b : nle (Fin a) (Fin b) = true <-> a <= b.
Proof. cbn. destruct (Rle_dec a b); split; intros; auto; try congruence; lra. Qed.
Lemma lower_iff a c x : a <> NaN -> a <> PInf -> nle (lower_of a c) (Fin x) = true <-> nle a (Fin x) = true /\ - c <= x.
Proof.
  intros H1 H2. destruct a as [| |a|]; try congruence; cbn [lower_of]; rewrite nle_fin.
  - cbn. tauto.
  - rewrite nle_fin. pose proof (Rmax_l a (- c)). pose proof (Rmax_r a (- c)). split; [lra|].
    intros [A B]. apply Rmax_lub; auto.
Qed.
Lemma upper_iff a c x : a <> NaN -> a <> NInf -> nle (Fin x) (upper_of a c) = true <-> nle (Fin x) a = true /\ x <= c.
Proof.
  intros H1 H2. destruct a as [| |a|]; try congruence; cbn [upper_of]; rewrite nle_fin.
  - rewrite nle_fin. pose proof (Rmin_l a c). pose proof (Rmin_r a c). split; [lra|].
    intros [A B]. apply Rmin_glb; auto.
  - cbn. tauto.
Qed.
(** With both bounds present and in order: if some allowed number lies in [-c,c], exactly the allowed
    numbers in [-c,c] are allowed afterwards; otherwise the bounds are untouched; nothing else of
    the row changes, and the bounds stay in order. *)
Theorem C28_cap_is_intersection_partial : forall c r, 0 <= c ->
  r_min r <> NaN -> r_max r <> NaN -> nle (r_min r) (r_max r) = true ->
  let r' := cap_row c r in
  r_name r' = r_name r /\ r_value r' = r_value r /\ r_init r' = r_init r /\ r_null r' = r_null r /\
  r_hold r' = r_hold r /\ nle (r_min r') (r_max r') = true /\
  (meets (r_min r) (r_max r) c -> forall x, within x r' <-> within x r /\ - c <= x <= c) /\
  (~ meets (r_min r) (r_max r) c -> r_min r' = r_min r /\ r_max r' = r_max r).
Proof.
  intros c r Hc Ha Hb Hab r'. do 5 (split; [reflexivity|]).
  assert (M : meets (r_min r) (r_max r) c -> nle (r_min r') (r_max r') = true /\ forall x, within x r' <-> within x r /\ - c <= x <= c).
  { intros Hm. destruct (cap_meet c r Hc Ha Hb Hab Hm) as [E1 E2].
    assert (I : forall x, within x r' <-> within x r /\ - c <= x <= c).
    { intros x. unfold within, r'. rewrite E1, E2, lower_iff, upper_iff; auto.
      - tauto.
      - intros E. destruct Hm as (y & _ & _ & Y). rewrite E in Y. discriminate.
      - intros E. destruct Hm as (y & _ & Y & _). rewrite E in Y. discriminate. }
    split; [|exact I]. destruct Hm as (y & Hy & Y1 & Y2). destruct (proj2 (I y)) as [I1 I2]; [split; [split|]; auto|].
    eapply nle_trans; eauto. }
  assert (D : ~ meets (r_min r) (r_max r) c -> r_min r' = r_min r /\ r_max r' = r_max r) by (apply cap_disjoint; auto).
  split; [|split; [apply M|exact D]].
  destruct (Classical_Prop.classic (meets (r_min r) (r_max r) c)) as [Hm|Hm]; [apply M; auto|].
  destruct (D Hm) as [E1 E2]. congruence.
Qed.
(** set_cap applies this to every row of the scanned frame. *)
Theorem C28_every_row : forall c m m1, unmangle false m = Ret tt m1 ->
  exists m', set_cap c m = Ret tt m' /\ rows (m_frame m') = map (cap_row c) (rows (m_frame m1)) /\ frame_only m1 m'.
Proof. intros c m m1 H. unfold set_cap. rewrite H. eexists. split; [reflexivity|]. split; [auto|repeat split]. Qed.
(** Both bounds missing: they become -c and c. *)
Theorem C28_missing_bounds : forall c r, r_min r = NaN -> r_max r = NaN ->
  r_min (cap_row c r) = Fin (- c) /\ r_max (cap_row c r) = Fin c.
Proof. intros c r H1 H2. unfold cap_row, nmax, nmin. rewrite H1, H2. simpl. auto. Qed.
(** One bound missing: the other one is not capped, and the pair may even come out reversed. *)
Theorem C28_one_missing_bound_refuted :
  (exists r, r_min r = NaN /\ r_max r = Fin 100 /\ r_min (cap_row 25 r) = Fin (-25) /\ r_max (cap_row 25 r) = Fin 100) /\
  (exists r, r_min r = NaN /\ r_max r = Fin (-100) /\ r_min (cap_row 25 r) = Fin (-25) /\ r_max (cap_row 25 r) = Fin (-100) /\
             nle (r_min (cap_row 25 r)) (r_max (cap_row 25 r)) = false).
Proof.
  assert (E : Fin (- 25) = Fin (-25)) by (f_equal; lra). split.
  - exists (mkRow "a" (Fin 0) (Fin 0) (Fin 0) NaN (Fin 100) (Some 0%Z) NaN).
    unfold cap_row, nmax, nmin; cbn. auto.
  - exists (mkRow "a" (Fin 0) (Fin 0) (Fin 0) NaN (Fin (-100)) (Some 0%Z) NaN).
    unfold cap_row, nmax, nmin; cbn. repeat split; auto. destruct (Rle_dec _ _); auto. exfalso; lra.
Qed.
Example C28_example :
  let r := mkRow "a" (Fin 0) (Fin 0) (Fin 0) NInf (Fin 3) (Some 0%Z) NaN in
  0 <= 25 /\ nle (r_min r) (r_max r) = true /\ meets (r_min r) (r_max r) 25.
Proof. split; [lra|]. split; [auto|]. exists 0. cbn. repeat split; try lra. destruct (Rle_dec 0 3); auto; lra. Qed.

(** *** C29: diagnostics restore the parameters *)
(** The values at which loglike_null evaluates: null values for the free parameters, current values
    for the held ones. *)
Definition at_null (l : list row) : list (string * num) :=
  map (fun r => (r_name r, match r_hold r with Some 0%Z => r_null r | _ => r_value r end)) l.
Theorem C29_loglike_null_restores : forall LL checks_best full use_cache m m1,
  unmangle false m = Ret tt m1 -> (use_cache = false \/ m_null_ll m = Fin 0) ->
  (forall r, In r (rows (m_frame m1)) -> free r -> r_null r <> NaN /\ r_value r <> NaN) ->
  exists m', loglike_null LL checks_best full use_cache m = Ret (LL full (at_null (rows (m_frame m1)))) m' /\
    Forall2 same_but_best (rows (m_frame m1)) (rows (m_frame m')).
Proof.
  intros LL cb full b m m1 Hu Hb Hn. destruct (loglike_null_result LL cb full b m m1 Hu Hb Hn) as (m' & E & H & _).
  exists m'. split; auto. rewrite E. do 2 f_equal. unfold at_null. apply map_ext. intros r. f_equal.
  unfold to_null, is_free. destruct (r_hold r) as [z|]; auto. destruct z; auto.
Qed.
(** A cached value is returned even after the null values have changed. *)
Theorem C29_stale_null_refuted : exists LL m m1 m2 v,
  loglike_null LL numba_checks_best numba_full true m = Ret v m1 /\
  set_value "a" (mkFields None None (Some (Fin 5)) None None None) m1 = Ret tt m2 /\
  loglike_null LL numba_checks_best numba_full true m2 = Ret v m2 /\
  v <> LL numba_full (at_null (rows (m_frame m2))).
Proof.
  set (LL := fun (_ : sample) (vals : list (string * num)) => match vals with [(_, Fin x)] => Fin (x - 1) | _ => NaN end).
  set (m := mkModel (mkFrame [new_row plain_defaults "a"] false) (mkNames ["a"] [] []) false (Fin 0) NInf []).
  destruct (loglike_null_result LL numba_checks_best numba_full true m m) as (m1 & E & R1 & M1 & N1 & NL1).
  { reflexivity. } { right. reflexivity. } { intros r [ <-|[]] _. split; discriminate. }
  cbn [m m_frame rows map] in R1. inversion R1 as [|? r1 ? l Hr1 Hl Ex Er]; subst. inversion Hl; subst l. clear Hl R1.
  destruct Hr1 as (A1&A2&A3&A4&A5&A6&A7).
  eexists LL, m, m1, _, _. split; [exact E|]. split.
  { apply set_value_known. rewrite <- Er. simpl. rewrite A1. simpl. auto. }
  cbn [m m_frame rows map] in NL1. cbn in NL1. split.
  - unfold loglike_null. cbn [with_frame m_null_ll]. rewrite NL1.
    assert (Q : neqb (Fin (0 - 1)) (Fin 0) = false).
    { unfold neqb. cbn [nle]. destruct (Rle_dec (0 - 1) 0), (Rle_dec 0 (0 - 1)); auto; exfalso; lra. }
    rewrite Q. reflexivity.
  - cbn [with_frame m_frame rows]. rewrite <- Er. cbn [map]. rewrite A1. cbn [r_name new_row]. cbn [String.eqb Ascii.eqb Bool.eqb]. cbn.
    rewrite A7. cbn. intros H. injection H as H. lra.
Qed.
(** If a free parameter is NaN (a dict may set it so), loglike_null raises and leaves the
    parameters at their null values. *)
Theorem C29_nan_not_restored_refuted : exists LL m m1 m2,
  map r_value (rows (m_frame m)) = [Fin 3; Fin 4] /\
  set_values VNone true [("a", NaN)] m = Ret tt m1 /\ map r_value (rows (m_frame m1)) = [NaN; Fin 4] /\
  loglike_null LL numba_checks_best numba_full true m1 = Exn m2 /\
  map r_value (rows (m_frame m2)) = [Fin 0; Fin 0].
Proof.
  set (a v := mkRow "a" v (Fin 0) (Fin 0) NInf PInf (Some 0%Z) NaN).
  set (b v := mkRow "b" v (Fin 0) (Fin 0) NInf PInf (Some 0%Z) NaN).
  set (st l := mkModel (mkFrame l false) (mkNames ["a"; "b"] [] []) false (Fin 0) NInf []).
  exists (fun _ _ => NaN), (st [a (Fin 3); b (Fin 4)]), (st [a NaN; b (Fin 4)]).
  exists (mkModel (mkFrame [a (Fin 0); b (Fin 0)] false) (mkNames ["a"; "b"] [] []) false NaN NInf
            [Evaluated numba_full [("a", Fin 0); ("b", Fin 0)] NaN]).
  split; [reflexivity|]. split; [reflexivity|]. split; [reflexivity|]. split; [|reflexivity].
  unfold loglike_null. cbn [st m_null_ll].
  assert (E : neqb (Fin 0) (Fin 0) = true) by (unfold neqb; cbn [nle]; destruct (Rle_dec 0 0); auto; exfalso; lra).
  rewrite E. cbn [negb andb]. cbn. reflexivity.
Qed.
(** likelihood_ratio for one parameter: the difference to the log likelihood with that parameter at
    its null (or the reference) value; all settings are as before. *)
Theorem C29_likelihood_ratio_one : forall LL checks_best full n ref cur m r,
  m_mangled m = false -> wf (m_frame m) -> In r (rows (m_frame m)) -> r_name r = n ->
  (forall r, In r (rows (m_frame m)) -> r_init r <> NaN /\ r_null r <> NaN) ->
  let refv := match ref with Some v => v | None => r_null r end in
  exists m', likelihood_ratio1 LL checks_best full n ref cur m =
      Ret (if neqb refv (r_value r) then Fin 0
           else nsub cur (LL full (value_set n refv (values_of (m_frame m))))) m' /\
    Forall2 same_but_best (rows (m_frame m)) (rows (m_frame m')).
Proof.
  intros LL cb full n ref cur m r Hm Hw Hr Hn Hnn refv.
  destruct (find_row_complete n (rows (m_frame m))) as (r0 & Hf); [rewrite <- Hn; apply in_map; auto|].
  assert (r = r0) by (eapply find_row_unique; eauto). subst r0.
  destruct (lr1_result LL cb full n ref cur m r Hm Hw Hf) as (m' & E & _ & _ & _ & W). exists m'. split; auto.
  apply weak_best; auto.
Qed.
(** likelihood_ratio for all parameters: each entry is computed at the original values of the
    others, held parameters are skipped (NaN), and all settings are as before. *)
Theorem C29_likelihood_ratio_all : forall LL checks_best full ref include_hold m,
  m_mangled m = false -> wf (m_frame m) ->
  (forall r, In r (rows (m_frame m)) -> r_init r <> NaN /\ r_null r <> NaN) ->
  exists m' out, likelihood_ratios LL checks_best full ref include_hold m = Ret out m' /\
    Forall2 same_but_best (rows (m_frame m)) (rows (m_frame m')) /\
    Forall2 (fun r p =>
        let refv := match ref with Some v => v | None => r_null r end in
        fst p = r_name r /\
        (free r \/ include_hold = true -> snd p =
           if neqb refv (r_value r) then Fin 0
           else nsub (LL full (values_of (m_frame m))) (LL full (value_set (r_name r) refv (values_of (m_frame m))))) /\
        (~ free r -> include_hold = false -> snd p = NaN))
      (rows (m_frame m)) out.
Proof.
  intros LL cb full ref i m Hm Hw Hnn. unfold likelihood_ratios.
  destruct (loglike_unmangled LL cb full m Hm) as (m1 & E1 & M1 & N1 & NL1 & R1). unfold loglike. rewrite E1. cbn [bind].
  unfold unmangle at 1. rewrite M1. cbn [bind].
  assert (W1 := set_best_weak _ _ R1).
  assert (B1 := weak_best _ _ Hnn W1).
  assert (Hnn1 : forall r, In r (rows (m_frame m1)) -> r_init r <> NaN /\ r_null r <> NaN).
  { clear -B1 Hnn. induction B1 as [|a b l l' H _ IH]; intros r; [easy|]. intros [ <-|Hr].
    - destruct H as (_&_& -> & -> & _). apply Hnn. simpl; auto.
    - apply IH; auto. intros q Hq. apply Hnn. simpl; auto. }
  destruct (lrs_result LL cb full (names (rows (m_frame m1))) ref i (LL full (values_of (m_frame m))) m1 M1)
    as (m2 & out & E2 & _ & _ & _ & W2 & O2); auto.
  { eapply weak_wf; eauto. }
  { intros r Hr. apply Hnn1; auto. }
  rewrite E2. exists m2, out. split; [auto|]. split.
  - apply weak_best; auto. eapply weak_forall_trans; eauto.
  - assert (V : values_of (m_frame m1) = values_of (m_frame m)) by (apply weak_values; auto). rewrite V in O2.
    assert (Q : Forall2 (fun r p => p = (r_name r, if is_free r || i then lr_value LL full (values_of (m_frame m)) (LL full (values_of (m_frame m))) ref r else NaN)) (rows (m_frame m1)) out).
    { assert (Hd : NoDup (map r_name (rows (m_frame m1)))) by (eapply weak_wf; eauto).
      assert (Hu : forall r, In r (rows (m_frame m1)) -> find_row (r_name r) (rows (m_frame m1)) = Some r).
      { intros r Hr. destruct (find_row_complete (r_name r) (rows (m_frame m1))) as (r0 & F); [apply in_map; auto|].
        rewrite F. f_equal. symmetry. eapply find_row_unique; eauto. }
      unfold names in O2. revert O2. generalize out. clear -Hu. set (L := rows (m_frame m1)) in *.
      assert (G : forall l out, (forall r, In r l -> In r L) ->
         Forall2 (fun n p => exists r, find_row n L = Some r /\ p = (n, if is_free r || i then lr_value LL full (values_of (m_frame m)) (LL full (values_of (m_frame m))) ref r else NaN)) (map r_name l) out ->
         Forall2 (fun r p => p = (r_name r, if is_free r || i then lr_value LL full (values_of (m_frame m)) (LL full (values_of (m_frame m))) ref r else NaN)) l out).
      { induction l as [|r l IH]; intros out Hs HF; simpl in HF; inversion HF as [|? ? ? ? Hp HF']; subst; constructor.
        - destruct Hp as (r0 & F & ->). rewrite Hu in F by (apply Hs; simpl; auto). injection F as <-. auto.
        - apply IH; auto. intros q Hq. apply Hs; simpl; auto. }
      intros out0. apply G. auto. }
    clear -Q B1. revert out Q. induction B1 as [|a b l l' H _ IH]; intros out Q; inversion Q as [|? p ? ? Hp Q']; subst; constructor; auto.
    destruct H as (H1&H2&H3&H4&H5&H6&H7).
    assert (Hf : is_free b = is_free a) by (unfold is_free; rewrite H7; auto). cbn [fst snd]. split; [auto|]. split.
    + intros Hc. rewrite Hf. replace (is_free a || i) with true.
      * unfold lr_value. rewrite H1, H2, H4. reflexivity.
      * symmetry. destruct Hc as [Hc| ->]; [apply is_free_free in Hc; rewrite Hc; auto|apply orb_true_r].
    + intros Hc ->. rewrite Hf. destruct (is_free a) eqn:E; auto. apply is_free_free in E. easy.
Qed.
Example C29_example : let r := new_row plain_defaults "a" in let b := with_value (Fin 3) (new_row plain_defaults "b") in
  let m := mkModel (mkFrame [r; b] false) (mkNames ["a"; "b"] [] []) false (Fin 0) NInf [] in
  wf (m_frame m) /\ unmangle false m = Ret tt m /\
  (forall r, In r (rows (m_frame m)) -> free r /\ r_init r <> NaN /\ r_null r <> NaN /\ r_value r <> NaN).
Proof.
  split; [repeat constructor; simpl; intuition congruence|]. split; [reflexivity|].
  intros r [ <-|[ <-|[]]]; repeat split; discriminate.
Qed.

(** *** C30: the best seen *)
(** Numba engine: after any history of calls on a new model, the record of the best is right with
    respect to all evaluations of all cases since the last reset. *)
Definition all_cases_numba (s : sample) : Prop := s_start s = None /\ s_stop s = None /\ s_step s = None.
Lemma best_is_best_ext P Q m : (forall s, P s <-> Q s) -> best_is_best P m -> best_is_best Q m.
Proof.
  intros H (A & B & C). split; [|split; auto].
  - intros s vals ll Hi Hq. apply (A s vals ll); auto. apply H; auto.
  - intros Hne. destruct (C Hne) as (s & vals & Hi & Hp & Hb). exists s, vals. split; auto. split; auto. apply H; auto.
Qed.
Theorem C30_best_is_best : forall LL history m, fresh_model m -> names_ok (m_names m) ->
  best_is_best all_cases_numba (run LL numba_checks_best numba_full history m).
Proof.
  intros LL os m Hf Hn. eapply best_is_best_ext; [|apply (good_run LL numba_checks_best numba_full os m (good_fresh _ m Hf Hn))].
  intros s. unfold numba_checks_best, all_cases_numba. destruct (s_start s), (s_stop s), (s_step s); intuition congruence.
Qed.
(** Restoring the best: set_values('best') puts every free parameter that existed at the best
    evaluation at the value it had there. *)
Theorem C30_restores_best : forall LL history m m', fresh_model m -> names_ok (m_names m) ->
  set_values VBest true [] (run LL numba_checks_best numba_full history m) = Ret tt m' ->
  exists s vals, all_cases_numba s /\
    In (Evaluated s vals (m_best_ll (run LL numba_checks_best numba_full history m)))
       (since_reset (m_log (run LL numba_checks_best numba_full history m))) /\
    forall n v r, In (n, v) vals -> In r (rows (m_frame m')) -> r_name r = n -> free r -> r_value r = v.
Proof.
  intros LL os m m' Hf Hn E. pose proof (C30_best_is_best LL os m Hf Hn) as (A & B & C).
  pose proof (good_run LL numba_checks_best numba_full os m (good_fresh _ m Hf Hn)) as (Gw & _).
  set (M := run _ _ _ _ _) in *. unfold set_values in E. cbn [resolve] in E.
  destruct (has_best (m_frame M)) eqn:Hb; [|discriminate].
  destruct (C) as (s & vals & Hi & Hs & _ & Hv). { intros H. apply B in H. congruence. }
  exists s, vals. split; auto. split; auto. intros n v r Hnv Hr Hrn Hfr.
  cbn [set_array] in E. rewrite map_length, Nat.eqb_refl in E. destruct (any_nan _ _); [discriminate|].
  injection E as <-. simpl in Hr.
  assert (Q : assign (rows (m_frame M)) (mask true (rows (m_frame M))) (map r_best (rows (m_frame M)))
            = map (fun r => if is_free r then with_value (r_best r) r else r) (rows (m_frame M))).
  { unfold mask. rewrite <- (map_id (rows (m_frame M))) at 1 2. rewrite assign_map_eq. auto. }
  unfold mask in Q, Hr. rewrite Q in Hr. apply in_map_iff in Hr. destruct Hr as (r0 & <- & Hr0).
  destruct (Hv n v Hnv) as (r1 & Hr1 & N1 & B1).
  assert (Hn0 : r_name r0 = n) by (destruct (is_free r0); auto).
  assert (r0 = r1).
  { destruct (find_row_complete n (rows (m_frame M))) as (r2 & F2); [rewrite <- Hn0; apply in_map; auto|].
    rewrite (find_row_unique _ _ _ r0 Gw F2 Hr0 Hn0), (find_row_unique _ _ _ r1 Gw F2 Hr1 N1). auto. }
  subst r1. assert (F0 : is_free r0 = true).
  { destruct (is_free r0) eqn:Ef; auto. apply is_free_free in Hfr. congruence. }
  rewrite F0. simpl. auto.
Qed.
(** Cython engine: the record is right with respect to all evaluations with default start, stop and
    step; in particular if no fold of a cross-validation was evaluated. *)
Definition all_cases_cython (s : sample) : Prop := s_start s = Some 0%Z /\ s_stop s = Some (-1)%Z /\ s_step s = Some 1%Z.
Theorem C30_cython_partial : forall LL history m, fresh_model m -> names_ok (m_names m) ->
  best_is_best all_cases_cython (run LL cython_checks_best cython_full history m).
Proof.
  intros LL os m Hf Hn. eapply best_is_best_ext; [|apply (good_run LL cython_checks_best cython_full os m (good_fresh _ m Hf Hn))].
  intros s. unfold cython_checks_best, all_cases_cython. destruct (s_start s), (s_stop s), (s_step s);
    rewrite ?andb_true_iff, ?Z.eqb_eq; intuition congruence.
Qed.
(** But an evaluation restricted to one fold counts as a full one: after loglike(x=[1]) and
    loglike(x=[2], keep_only=0, subsample=2) the recorded best is the fold's, whose log likelihood on
    all cases is worse. *)
Theorem C30_cython_folds_refuted : exists LL m history,
  fresh_model m /\ names_ok (m_names m) /\
  ~ best_is_best (fun s => s = cython_full) (run LL cython_checks_best cython_full history m) /\
  map r_best (rows (m_frame (run LL cython_checks_best cython_full history m))) = [Fin 2] /\
  LL cython_full [("a", Fin 1)] = Fin (-10) /\ LL cython_full [("a", Fin 2)] = Fin (-12).
Proof.
  exists (fun s vals => if Z.eqb (s_keep_only s) 0 then Fin (-6) else
            match vals with [(_, Fin x)] => if Rle_dec x 1 then Fin (-10) else Fin (-12) | _ => NaN end).
  exists (mkModel (mkFrame [new_row plain_defaults "a"] false) (mkNames ["a"] [] []) false (Fin 0) NInf []).
  exists [OpLoglike (VArray [Fin 1]) [] cython_full;
          OpLoglike (VArray [Fin 2]) [] (mkSample (Some 0%Z) (Some (-1)%Z) (Some 1%Z) (-1) 0 2)].
  split; [repeat split; repeat constructor; easy|]. split; [repeat split; repeat constructor; easy|].
  cbn [run fold_left step].
  assert (E : loglike_at (fun s vals => if Z.eqb (s_keep_only s) 0 then Fin (-6) else
            match vals with [(_, Fin x)] => if Rle_dec x 1 then Fin (-10) else Fin (-12) | _ => NaN end) cython_checks_best (VArray [Fin 1]) [] cython_full
            (mkModel (mkFrame [new_row plain_defaults "a"] false) (mkNames ["a"] [] []) false (Fin 0) NInf [])
     = Ret (Fin (-10)) (mkModel (mkFrame [mkRow "a" (Fin 1) (Fin 0) (Fin 0) NInf PInf (Some 0%Z) (Fin 1)] true) (mkNames ["a"] [] []) false (Fin 0) (Fin (-10)) [Evaluated cython_full [("a", Fin 1)] (Fin (-10))])).
  { unfold loglike_at. cbn. destruct (Rle_dec 1 1); [|exfalso; lra]. cbn. reflexivity. }
  rewrite E. cbn [state_of].
  assert (E2 : forall LL : sample -> list (string * num) -> num, (forall s vals, s_keep_only s = 0%Z -> LL s vals = Fin (-6)) ->
    loglike_at LL cython_checks_best (VArray [Fin 2]) [] (mkSample (Some 0%Z) (Some (-1)%Z) (Some 1%Z) (-1) 0 2)
     (mkModel (mkFrame [mkRow "a" (Fin 1) (Fin 0) (Fin 0) NInf PInf (Some 0%Z) (Fin 1)] true) (mkNames ["a"] [] []) false (Fin 0) (Fin (-10)) [Evaluated cython_full [("a", Fin 1)] (Fin (-10))])
     = Ret (Fin (-6)) (mkModel (mkFrame [mkRow "a" (Fin 2) (Fin 0) (Fin 0) NInf PInf (Some 0%Z) (Fin 2)] true) (mkNames ["a"] [] []) false (Fin 0) (Fin (-6))
        [Evaluated (mkSample (Some 0%Z) (Some (-1)%Z) (Some 1%Z) (-1) 0 2) [("a", Fin 2)] (Fin (-6)); Evaluated cython_full [("a", Fin 1)] (Fin (-10))])).
  { intros LL HLL. unfold loglike_at. cbn. rewrite HLL by reflexivity. unfold check_if_best. cbn.
    destruct (Rle_dec (-6) (-10)); [exfalso; lra|]. reflexivity. }
  rewrite E2 by (intros s vals ->; reflexivity). cbn [state_of]. split.
  - intros (_ & _ & C). cbn [m_best_ll m_log since_reset] in C. destruct C as (s & vals & Hi & -> & _); [discriminate|].
    destruct Hi as [Hi|[Hi|[]]]; [discriminate|]. injection Hi as _ Hi. lra.
  - split; [reflexivity|]. cbn. destruct (Rle_dec 1 1), (Rle_dec 2 1); auto; exfalso; lra.
Qed.
Example C30_example : fresh_model (mkModel (mkFrame [new_row plain_defaults "a"; new_row plain_defaults "b"] false) (mkNames ["a"; "b"] [] []) true (Fin 0) NInf []) /\
  names_ok (mkNames ["a"; "b"] [] []).
Proof. split; repeat split; repeat constructor; simpl; intuition congruence. Qed.
