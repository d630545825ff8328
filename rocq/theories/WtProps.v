(** C46: scaling the weights changes only the normalization. *)
From Verif Require Import WtModel WtSpec WtProofs.
Open Scope R_scope.

(** Choices are not negative: then a zero total means nothing is chosen. *)
Theorem nonnegative_choices d : (forall r, In r (d_ch d) -> Forall (fun x => 0 <= x) r) -> zero_is_none d.
Proof. intros H r Hr. now apply sum_zero_nonneg, H. Qed.

(** An example: three cases, the second with a weight of two embedded in its choices, the last without
    choices. *)
Definition ex : dfs := mkD 3 [[1; 0]; [0; 2]; [0; 0]] (Some [Some 1; Some 2; Some 7]) 1.
Lemma ex_ok : well_formed ex /\ zero_is_none ex.
Proof.
  split; [ split; [ now right | reflexivity ] | ].
  apply nonnegative_choices. intros r [ <- |[ <- |[ <- |[] ] ] ]; repeat constructor; lra.
Qed.
Lemma ex_extract : extract ex = mkD 3 [[1; 0]; [0 / sum [0; 2]; 2 / sum [0; 2]]; [0; 0]]
  (Some [Some 1; Some (2 * sum [0; 2]); Some (7 * sum [0; 0])]) 1.
Proof.
  unfold extract, ex. cbn [d_ch d_wt d_n d_norm first_off].
  assert (off [1; 0] = false) by (apply off_false; unfold sum, lo, hi; cbn; lra).
  assert (off [0; 2] = true) by (apply off_true; unfold sum, lo, hi; cbn; lra).
  rewrite H, H0. cbn [option_map firstn skipn app map zip_wt ext_wt omul]. unfold ext_row, Req0.
  destruct (Req_EM_T (sum [0; 2]) 0) as [E|E]; [ unfold sum in E; cbn in E; lra | ].
  destruct (Req_EM_T (sum [0; 0]) 0) as [E2|E2]; [ | unfold sum in E2; cbn in E2; lra ].
  reflexivity.
Qed.
Lemma ex_scale : fst (autoscale_weights ex) = 5 / 3.
Proof.
  unfold autoscale_weights. rewrite ex_extract. cbn [d_wt d_n fst]. unfold osum, sum. cbn. field.
Qed.

(** C46. What every alternative of every case counts for does not change... *)
Theorem C46_mass_unchanged d c a : well_formed d -> zero_is_none d -> fst (autoscale_weights d) <> 0 ->
  (c < d_n d)%nat -> mass (snd (autoscale_weights d)) c a = mass d c a.
Proof.
  intros Hw Hz Hs Hc. rewrite <- (extract_mass d c a) by easy. unfold autoscale_weights in *.
  destruct (d_wt (extract d)) as [wt|] eqn:E; cbn [fst snd] in *; [ | easy ].
  now apply rescale_mass.
Qed.
Example C46_mass_met : well_formed ex /\ zero_is_none ex /\ fst (autoscale_weights ex) <> 0.
Proof. destruct ex_ok. rewrite ex_scale. split; [ easy | split; [ easy | lra ] ]. Qed.

(** ... so neither does the log likelihood (nor the gradient or the bhhh matrix, which are such sums). *)
Theorem C46_loglike_unchanged d f : well_formed d -> zero_is_none d -> fst (autoscale_weights d) <> 0 ->
  loglike (snd (autoscale_weights d)) f = loglike d f.
Proof.
  intros Hw Hz Hs. unfold autoscale_weights in *.
  assert (H0 : loglike (extract d) f = loglike d f).
  { apply loglike_ext; [ apply extract_n | ]. intros c Hc. rewrite extract_norm. f_equal. now apply extract_case_term. }
  destruct (d_wt (extract d)) as [wt|] eqn:E; cbn [fst snd] in *; [ | easy ].
  rewrite <- H0. apply loglike_ext; [ reflexivity | ]. intros c _. cbn [d_norm rescale]. now apply rescale_term.
Qed.

(** The average weight becomes one. *)
Theorem C46_average_one d : (0 < d_n d)%nat -> fst (autoscale_weights d) <> 0 ->
  mean_weight (snd (autoscale_weights d)) = 1.
Proof.
  intros Hn Hs. assert (HI : INR (d_n d) <> 0) by (apply not_0_INR; lia). unfold autoscale_weights, mean_weight in *.
  destruct (d_wt (extract d)) as [wt|] eqn:E; cbn [fst snd] in *; [ | now rewrite E ].
  cbn [rescale d_wt d_n]. rewrite osum_scale. rewrite extract_n in *. field. split; [ easy | ].
  intros H. apply Hs. rewrite H. unfold Rdiv. ring.
Qed.
(** The choices of each case now total zero or one. *)
Theorem C46_totals d : totals_normal (snd (autoscale_weights d)).
Proof.
  unfold autoscale_weights. destruct (d_wt (extract d)) as [wt|]; cbn [snd]; apply extract_totals.
Qed.
(** The scale that is returned goes into the normalization. *)
Theorem C46_norm d : d_norm (snd (autoscale_weights d)) = d_norm d * fst (autoscale_weights d).
Proof.
  unfold autoscale_weights. destruct (d_wt (extract d)) as [wt|]; cbn [fst snd rescale d_norm]; rewrite extract_norm; [ easy | ring ].
Qed.
(** Doing it again changes nothing. *)
Theorem C46_again d : well_formed d -> (0 < d_n d)%nat -> fst (autoscale_weights d) <> 0 ->
  autoscale_weights (snd (autoscale_weights d)) = (1, snd (autoscale_weights d)).
Proof.
  intros Hw Hn Hs. pose proof (C46_average_one d Hn Hs) as Hm. unfold autoscale_weights in Hm, Hs |- *.
  destruct (d_wt (extract d)) as [wt|] eqn:E; cbn [fst snd] in *.
  - set (k := osum wt / INR (d_n (extract d))) in *. set (d1 := rescale (extract d) wt k) in *.
    assert (E1 : extract d1 = d1).
    { eapply extract_fixed; [ apply rescale_wf; [ easy | now apply extract_wf ] | reflexivity | ].
      apply rescale_settled; [ easy | now apply extract_settled ]. }
    rewrite E1. unfold mean_weight in Hm. destruct (d_wt d1) as [w1|] eqn:Ew; [ | easy ].
    rewrite Hm. f_equal. unfold rescale.
    assert (Eid : map (option_map (fun w => w / 1)) w1 = w1).
    { transitivity (map (fun x : option R => x) w1); [ | apply map_id ]. apply map_ext. intros [x|]; cbn; [ f_equal; field | easy ]. }
    rewrite Eid, Rmult_1_r, <- Ew. now destruct d1.
  - assert (Ef : first_off (d_ch d) = None).
    { destruct (first_off (d_ch d)) as [i|] eqn:E1; [ | easy ]. rewrite (extract_some d i E1) in E. discriminate. }
    assert (E1 : extract d = d) by (unfold extract; now rewrite Ef). now rewrite !E1, <- E1, E.
Qed.

(** unscale_weights undoes it when no weights were embedded in the choices. *)
Theorem C46_unscale d wt : (forall r, In r (d_ch d) -> lo <= sum r <= hi) -> d_wt d = Some wt ->
  d_norm d = 1 -> fst (autoscale_weights d) <> 0 ->
  snd (unscale_weights (snd (autoscale_weights d))) = d.
Proof.
  intros Ht Ew En Hs.
  assert (E : extract d = d).
  { unfold extract. rewrite (proj2 (first_off_none (d_ch d))); [ easy | ].
    apply Forall_forall. intros r Hr. apply off_false. now apply Ht. }
  unfold autoscale_weights in *. rewrite E, Ew in *. cbn [fst snd] in *. set (k := osum wt / INR (d_n d)) in *.
  unfold unscale_weights, rescale. cbn [snd d_n d_ch d_wt d_norm option_map]. rewrite En, map_map.
  rewrite (map_ext (fun x => _) (fun x : option R => x)), map_id.
  - replace (1 * k / (1 * k)) with 1 by (field; lra). rewrite <- Ew, <- En. now destruct d.
  - intros [x|]; cbn; [ f_equal; field; easy | easy ].
Qed.
Example C46_unscale_met : let d := mkD 2 [[1; 0]; [0; 1]] (Some [Some 1; Some 3]) 1 in
  (forall r, In r (d_ch d) -> lo <= sum r <= hi) /\ fst (autoscale_weights d) = 2.
Proof.
  cbn [d_ch]. assert (H : forall r, In r [[1; 0]; [0; 1]] -> lo <= sum r <= hi).
  { intros r [ <- |[ <- |[] ] ]; unfold sum, lo, hi; cbn; lra. }
  split; [ exact H | ]. unfold autoscale_weights, extract. cbn [d_ch d_wt].
  rewrite (proj2 (first_off_none _)).
  - cbn [d_wt fst d_n]. unfold osum. cbn. field.
  - apply Forall_forall. intros r Hr. now apply off_false, H.
Qed.
(** Otherwise the weights do not come back: embedded weights stay extracted and cases without a choice
    have lost theirs. *)
Theorem C46_unscale_embedded_refuted :
  d_wt (snd (unscale_weights (snd (autoscale_weights ex)))) = Some [Some 1; Some 4; Some 0] /\
  d_wt ex = Some [Some 1; Some 2; Some 7].
Proof.
  split; [ | reflexivity ]. pose proof ex_scale as Hs. unfold autoscale_weights in Hs |- *.
  rewrite ex_extract in *. cbn [d_wt fst snd] in *. rewrite Hs.
  unfold unscale_weights, rescale. cbn [d_wt snd option_map map d_norm]. unfold sum. cbn [fold_left].
  repeat f_equal; field.
Qed.
(** The total weight is kept when no weights are embedded. *)
Theorem C46_total_weight d wt : (forall r, In r (d_ch d) -> lo <= sum r <= hi) -> d_wt d = Some wt ->
  fst (autoscale_weights d) <> 0 -> total_weight (snd (autoscale_weights d)) = total_weight d.
Proof.
  intros Ht Ew Hs.
  assert (E : extract d = d).
  { unfold extract. rewrite (proj2 (first_off_none (d_ch d))); [ easy | ].
    apply Forall_forall. intros r Hr. apply off_false. now apply Ht. }
  unfold autoscale_weights in *. rewrite E, Ew in *. cbn [fst snd] in *. unfold total_weight. rewrite Ew.
  cbn [rescale d_wt d_norm]. rewrite osum_scale. set (k := osum wt / INR (d_n d)) in *. clearbody k. field. easy.
Qed.

(** ** Histories of calls *)
Inductive op := Auto | Scale (s : R) | Unscale.
Definition apply_op (o : op) (d : dfs) : R * dfs :=
  match o with Auto => autoscale_weights d | Scale s => scale_weights s d | Unscale => unscale_weights d end.
(** A run in which no scale is zero. *)
Fixpoint runs (ops : list op) (d d' : dfs) : Prop :=
  match ops with
  | [] => d' = d
  | o :: ops => fst (apply_op o d) <> 0 /\ runs ops (snd (apply_op o d)) d'
  end.
(** From data with weights, every sequence of scaling, autoscaling and unscaling leaves what each choice
    counts for, and the log likelihood, unchanged. *)
Theorem C46_history ops d d' wt f : well_formed d -> zero_is_none d -> d_wt d = Some wt -> runs ops d d' ->
  d_n d' = d_n d /\ (forall c a, (c < d_n d)%nat -> mass d' c a = mass d c a) /\ loglike d' f = loglike d f.
Proof.
  revert d wt. induction ops as [|o ops IH]; intros d wt Hw Hz Ew Hr; cbn [runs] in Hr; [ now subst | ].
  destruct Hr as [Hs Hr].
  assert (Hstep : exists wt', d_wt (snd (apply_op o d)) = Some wt' /\ well_formed (snd (apply_op o d)) /\
    zero_is_none (snd (apply_op o d)) /\ d_n (snd (apply_op o d)) = d_n d /\
    (forall c a, (c < d_n d)%nat -> mass (snd (apply_op o d)) c a = mass d c a) /\
    loglike (snd (apply_op o d)) f = loglike d f).
  { assert (Hx : exists w, d_wt (extract d) = Some w).
    { unfold extract. destruct (first_off (d_ch d)); [ eexists; reflexivity | eauto ]. }
    destruct Hx as [w Ex].
    assert (H0 : loglike (extract d) f = loglike d f).
    { apply loglike_ext; [ apply extract_n | ]. intros c Hc. rewrite extract_norm. f_equal. now apply extract_case_term. }
    assert (Hres : forall k, k <> 0 -> let e := rescale (extract d) w k in exists wt', d_wt e = Some wt' /\ well_formed e /\
      zero_is_none e /\ d_n e = d_n d /\ (forall c a, (c < d_n d)%nat -> mass e c a = mass d c a) /\
      loglike e f = loglike d f).
    { intros k Hk e. eexists. split; [ reflexivity | ]. split; [ now apply rescale_wf, extract_wf | ].
      split; [ now apply extract_zero_is_none | ]. split; [ apply extract_n | ]. split.
      - intros c a Hc. unfold e. rewrite rescale_mass by easy. now apply extract_mass.
      - rewrite <- H0. apply loglike_ext; [ reflexivity | ]. intros c _. now apply rescale_term. }
    destruct o as [|s|]; cbn [apply_op] in *.
    - unfold autoscale_weights in *. rewrite Ex in *. cbn [fst snd] in *. now apply Hres.
    - unfold scale_weights in *. rewrite Ex in *. cbn [fst snd] in *. now apply Hres.
    - unfold unscale_weights in *. cbn [fst snd] in *. set (k := d_norm d) in *.
      eexists. split; [ cbn [d_wt]; rewrite Ew; reflexivity | ].
      split. { destruct Hw as [H1 H2]. split; cbn [d_ch d_wt d_n]; [ easy | ]. rewrite Ew in *. cbn. now rewrite map_length. }
      split; [ exact Hz | ]. split; [ reflexivity | ]. split.
      + intros c a _. unfold mass, choice, case_weight. cbn [d_wt d_ch d_norm]. rewrite Ew. cbn [option_map]. rewrite nth_omap.
        fold k. destruct (nth c wt None); cbn; [ f_equal; field; easy | easy ].
      + apply loglike_ext; [ reflexivity | ]. intros c _. unfold case_term, case_weight. cbn [d_wt d_ch d_norm].
        rewrite Ew. cbn [option_map]. rewrite nth_omap. fold k.
        destruct (nth c wt None); cbn; [ f_equal; field; easy | easy ]. }
  destruct Hstep as (wt' & E1 & E2 & E3 & E4 & E5 & E6).
  destruct (IH _ wt' E2 E3 E1 Hr) as (I1 & I2 & I3).
  split; [ congruence | ]. split; [ | congruence ].
  intros c a Hc. rewrite I2 by (now rewrite E4). now apply E5.
Qed.
Example C46_history_met : exists d', runs [Scale 2; Unscale] ex d'.
Proof.
  eexists. cbn [runs apply_op]. unfold scale_weights at 1, unscale_weights at 1. rewrite ex_extract. cbn [d_wt fst snd rescale d_norm].
  split; [ lra | ]. split; [ | reflexivity ].
  unfold scale_weights. rewrite ex_extract. cbn [d_wt fst snd rescale d_norm]. lra.
Qed.

(** Scaling data that has no weights multiplies the log likelihood. *)
Theorem C46_scale_without_weights_refuted s d f v : (forall r, In r (d_ch d) -> lo <= sum r <= hi) -> d_wt d = None ->
  loglike d f = Some v -> loglike (snd (scale_weights s d)) f = Some (v * s).
Proof.
  intros Ht Ew Hv.
  assert (E : extract d = d).
  { unfold extract. rewrite (proj2 (first_off_none (d_ch d))); [ easy | ].
    apply Forall_forall. intros r Hr. apply off_false. now apply Ht. }
  unfold scale_weights. rewrite E, Ew. destruct (Req_EM_T s 1) as [ -> |_]; cbn [snd]; [ rewrite Hv; f_equal; ring | ].
  unfold loglike in *. cbn [d_n d_norm].
  assert (Es : forall n, weighted_sum {| d_n := d_n d; d_ch := d_ch d; d_wt := None; d_norm := d_norm d * s |} f n = weighted_sum d f n).
  { induction n as [|n IH]; cbn [weighted_sum]; [ easy | ]. rewrite IH.
    unfold case_term, case_weight. cbn [d_wt d_ch]. now rewrite Ew. }
  rewrite Es. destruct (weighted_sum d f (d_n d)) as [t|]; cbn in *; [ | discriminate ].
  injection Hv as <-. f_equal. ring.
Qed.
(** Casewise values are not multiplied by the normalization: they do change. *)
Theorem C46_casewise_refuted : let d := mkD 1 [[1]] (Some [Some 2]) 1 in
  ll_casewise d (fun _ => [-1]) 0 = Some (-2) /\ ll_casewise (snd (autoscale_weights d)) (fun _ => [-1]) 0 = Some (-1).
Proof.
  intros d. assert (E : extract d = d).
  { unfold extract. rewrite (proj2 (first_off_none (d_ch d))); [ easy | ].
    apply Forall_forall. intros r [ <- |[] ]. apply off_false. unfold sum, lo, hi. cbn. lra. }
  unfold autoscale_weights. rewrite E. unfold d. cbn [d_wt snd d_n].
  unfold ll_casewise, case_term, case_weight, rescale, osum, dotl, sum. cbn. split; f_equal; field.
Qed.
