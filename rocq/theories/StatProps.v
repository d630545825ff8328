(** C70: the standard errors, t statistics and notes reported after estimation. *)
From Verif Require Import ParamModel ParamSpec ConsModel ConsSpec ConsProofs CovModel CovSpec CovProofs CovProps FeasModel FeasSpec FeasProofs StatModel StatSpec StatProofs.
From Verif Require ParamEval.
Open Scope R_scope.
Open Scope string_scope.

(** Nothing but statistics changes: names, values, bounds and holdfasts stay. *)
Theorem C70_values_kept : forall inverse cl hess bhhh t, map fst (report inverse cl hess bhhh t) = map fst t.
Proof. intros. apply report_rows. Qed.

(** The standard error of every free parameter is the square root of its variance in the reported
    covariance (after binding constraints), NaN when negative, and its t statistic is the difference
    to its null value over that; a parameter that a binding constraint mentions with a t statistic
    beyond 100000 is shown infinitely significant, without a standard error. The robust ones are the same
    of the robust covariance (of zero if the model has no bhhh), whatever the constraints. *)
Theorem C70_standard_errors : forall inverse cl hess bhhh t i r o v z,
  nth_error t i = Some (r, o) -> r_value r = Fin v -> r_null r = Fin z ->
  let f := frame_of t in let x := pvals f in let n := length t in
  exists o', nth_error (report inverse cl hess bhhh t) i = Some (r, o') /\
    (is_free r = true -> exists se tt,
       standard_error (reported_covariance inverse f cl x hess i i) se /\ t_statistic v z se tt /\
       (mentioned (all_constraints cl f) x (r_name r) -> shown se tt (s_se o') (s_t o')) /\
       (~ mentioned (all_constraints cl f) x (r_name r) -> s_se o' = se /\ s_t o' = tt)) /\
    standard_error (match bhhh with Some b => robust_covariance inverse (held f) n hess b i i | None => 0 end) (s_rse o') /\
    t_statistic v z (s_rse o') (s_rt o').
Proof.
  intros inverse cl hess bhhh t i r o v z Hi Hv Hz f x n.
  eexists. split; [apply report_row; eauto|]. cbv zeta. fold f x n.
  assert (M := mentioned_iff (all_constraints cl f) x (r_name r)).
  assert (N : all_constraints cl f = [] -> reported_covariance inverse f cl x hess = covariance inverse (held f) n hess).
  { intros E1. etransitivity; [apply (reported_eq inverse cl hess t)|]. fold f x n. rewrite E1. reflexivity. }
  split.
  - intros Hf. rewrite Hf.
    destruct (all_constraints cl f) as [|c cs] eqn:Ecs.
    + exists (nsqrt (covariance inverse (held f) n hess i i)), (t_of r (nsqrt (covariance inverse (held f) n hess i i))).
      rewrite (N eq_refl). split; [apply nsqrt_ok|]. split; [apply t_of_ok; auto|].
      split; [intros (c & [] & _)|]. intros _. split; reflexivity.
    + rewrite <- Ecs in *. clear N. set (V := reported_covariance inverse f cl x hess).
      exists (nsqrt (V i i)), (t_of r (nsqrt (V i i))). split; [apply nsqrt_ok|]. split; [apply t_of_ok; auto|].
      destruct (existsb (String.eqb (r_name r)) (flat_map parameters_of (binding (all_constraints cl f) x))) eqn:Em.
      * assert (Hm : mentioned (all_constraints cl f) x (r_name r)) by (apply M; auto).
        assert (B : negb (match binding (all_constraints cl f) x with [] => true | _ => false end) = true).
        { destruct (binding (all_constraints cl f) x); [discriminate Em|reflexivity]. }
        rewrite B. cbn [orb]. split; [|intros; contradiction].
        intros _. apply (clip_shown (constrained V i r _)).
      * assert (Hm : ~ mentioned (all_constraints cl f) x (r_name r)) by (rewrite <- M; discriminate).
        split; [intros; contradiction|]. intros _. destruct (_ || _)%bool; split; reflexivity.
  - set (rob := match bhhh with Some b => robust_covariance inverse (held f) n hess b | None => fun _ _ => 0 end).
    replace (match bhhh with Some b => robust_covariance inverse (held f) n hess b i i | None => 0 end) with (rob i i)
      by (unfold rob; destruct bhhh; auto).
    assert (R : forall A : stat, s_rse A = nsqrt (rob i i) -> s_rt A = t_of r (nsqrt (rob i i)) ->
       standard_error (rob i i) (s_rse A) /\ t_statistic v z (s_rse A) (s_rt A)).
    { intros A -> ->. split; [apply nsqrt_ok|apply t_of_ok; auto]. }
    apply R.
    + destruct (all_constraints cl f); [reflexivity|]. destruct (_ || _)%bool; [|reflexivity].
      destruct (existsb _ _), (is_free r); cbn [s_rse]; rewrite ?(proj1 (proj2 (clip_shown _))); reflexivity.
    + destruct (all_constraints cl f); [reflexivity|]. destruct (_ || _)%bool; [|reflexivity].
      destruct (existsb _ _), (is_free r); cbn [s_rt]; rewrite ?(proj1 (proj2 (proj2 (clip_shown _)))); reflexivity.
Qed.

(** When there are constraints or bounds (binding or not), what the statistics would have been without
    them is kept in the unconstrained columns; constraints never make a standard error larger. *)
Theorem C70_unconstrained : forall inverse cl hess bhhh t i r o v z,
  nth_error t i = Some (r, o) -> r_value r = Fin v -> r_null r = Fin z ->
  all_constraints cl (frame_of t) <> [] ->
  exists o' u ut, nth_error (report inverse cl hess bhhh t) i = Some (r, o') /\ s_unc o' = Some (u, ut) /\
    standard_error (covariance inverse (held (frame_of t)) (length t) hess i i) u /\ t_statistic v z u ut.
Proof.
  intros inverse cl hess bhhh t i r o v z Hi Hv Hz Hc.
  exists (snd (nth i (report inverse cl hess bhhh t) (r, o))).
  set (s := covariance inverse (held (frame_of t)) (length t) hess).
  exists (nsqrt (s i i)), (t_of r (nsqrt (s i i))).
  assert (E := report_row inverse cl hess bhhh t i r o Hi). rewrite (nth_error_nth _ _ (r, o) E).
  split; [exact E|]. split; [|split; [apply nsqrt_ok|apply t_of_ok; auto]].
  cbv zeta. cbn [snd]. destruct (all_constraints cl (frame_of t)); [contradiction|].
  destruct (_ || _)%bool; [|reflexivity].
  destruct (existsb _ _), (is_free r); cbn [s_unc]; rewrite ?(proj1 (proj2 (proj2 (proj2 (clip_shown _))))); reflexivity.
Qed.
Theorem C70_constraints_never_widen : forall inverse f cl x hess i,
  inverts inverse -> invertible_block (held f) (length (rows f)) hess ->
  symmetric (length (rows f)) hess -> psd (length (rows f)) hess -> (i < length (rows f))%nat ->
  0 <= reported_covariance inverse f cl x hess i i /\
  sqrt (reported_covariance inverse f cl x hess i i) <= sqrt (covariance inverse (held f) (length (rows f)) hess i i).
Proof.
  intros inverse f cl x hess i Hi Hb Hs Hp Hl.
  destruct (covariance_good inverse (held f) _ hess Hi Hb Hs Hp) as [Cs Cp].
  destruct (C39_binding_constraints _ (all_constraints cl f) x _ Cs Cp) as (_ & B2 & _ & _ & B5 & _).
  split; [|apply sqrt_le_1_alt; apply B5; auto].
  specialize (B2 (one i)). unfold variance in B2. rewrite cov_one in B2 by auto. exact B2.
Qed.

(** Held parameters, when there are constraints or bounds: no statistics, and said to be fixed. *)
Theorem C70_held : forall inverse cl hess bhhh t i r o,
  nth_error t i = Some (r, o) -> is_free r = false -> all_constraints cl (frame_of t) <> [] ->
  exists o', nth_error (report inverse cl hess bhhh t) i = Some (r, o') /\
    s_se o' = NaN /\ s_t o' = NaN /\ s_note o' = FixedValue.
Proof.
  intros inverse cl hess bhhh t i r o Hi Hf Hc. eexists. split; [apply report_row; eauto|]. cbv zeta.
  destruct (all_constraints cl (frame_of t)) as [|c cs] eqn:E; [contradiction|].
  replace (existsb (fun q => negb (is_free (fst q))) t) with true.
  2:{ symmetry. apply existsb_exists. exists (r, o). split; [eapply nth_error_In; eauto|]. simpl. rewrite Hf. auto. }
  rewrite orb_true_r, Hf. auto.
Qed.

(** The notes of a free parameter, when something binds or is held: those of the binding constraints
    that mention it, and no others. *)
Theorem C70_notes : forall inverse cl hess bhhh t i r o,
  let f := frame_of t in let x := pvals f in
  nth_error t i = Some (r, o) -> is_free r = true ->
  (exists c, In c (all_constraints cl f) /\ is_binding c x = true) \/
  (all_constraints cl f <> [] /\ exists q, In q t /\ is_free (fst q) = false) ->
  exists o' l, nth_error (report inverse cl hess bhhh t) i = Some (r, o') /\ s_note o' = Notes l /\
    forall nt, In nt l <-> exists c, In c (all_constraints cl f) /\ is_binding c x = true /\
                                     speaks_of (c_spec c) (r_name r) /\ nt = binding_note c x.
Proof.
  intros inverse cl hess bhhh t i r o f x Hi Hf Hx. eexists. exists (notes_of (all_constraints cl f) x (r_name r)).
  split; [apply report_row; eauto|]. split; [|intros; apply notes_in]. cbv zeta. fold f x.
  destruct (all_constraints cl f) as [|c cs] eqn:E.
  { destruct Hx as [(c & [] & _)|[H _]]; contradiction. }
  rewrite <- E in *. clear E.
  replace (negb (match binding (all_constraints cl f) x with [] => true | _ => false end) ||
     existsb (fun q => negb (is_free (fst q))) t)%bool with true; [rewrite Hf; auto|].
  symmetry. apply orb_true_iff. destruct Hx as [(c0 & Hc & Hb)|(_ & q & Hq & Hh)].
  - left. destruct (match binding (all_constraints cl f) x with [] => true | _ => false end) eqn:Eb; auto.
    rewrite (proj1 (binding_nil_iff _ _) Eb c0 Hc) in Hb. discriminate.
  - right. apply existsb_exists. exists q. rewrite Hh. auto.
Qed.
(** What a note says is true, up to the binding tolerance over the scale of the constraint, for
    constraints linked to the frame, with numeric bounds, ratios with both (positive) bounds. *)
Theorem C70_notes_true : forall f c x,
  linked_to f c -> length x = length (rows f) -> plain_bounds (c_spec c) -> is_binding c x = true ->
  nearly (binding_note c x) (value_of (names (rows f)) x) (c_tol c / c_scale c).
Proof.
  intros f c x (sc & c0 & Hl & Es & Hk) Hx Hp Hb.
  assert (L := link_spec f sc c0 c Hl). destruct L as (E1 & _ & _ & _ & L).
  assert (Hx' : length x = length (names (rows f))) by (rewrite names_length; auto).
  unfold binding_note, note_minimum, is_binding, cfun in *. unfold min_fun, max_fun in *.
  rewrite <- E1 in L. destruct (c_spec c) as [a b mn mx|a b|p mn mx] eqn:Ec; simpl in Hp.
  - destruct Hp as ((m & -> & Hm) & (M & -> & HM)). destruct L as (La & Lb & R1 & R2).
    rewrite (get_loc_value _ _ _ _ La Hx'), (get_loc_value _ _ _ _ Lb Hx') in *.
    set (va := value_of _ x a) in *. set (vb := value_of _ x b) in *.
    assert (S1 := ratio_scaling m _ Hm Hk). assert (S2 := ratio_scaling M _ HM Hk).
    assert (G1 : exists e, (e = 1 \/ e = -1) /\ va * c_minn c + vb * c_mind c = e * ((va - m * vb) * Rmax m (1/m)) * c_scale c).
    { unfold ratio_coef in R1. destruct (Req_EM_T m 0); [lra|]. destruct (nle (Fin 0) _).
      - injection R1 as <- <-. exists 1. split; auto. ring.
      - destruct (nle _ (Fin 0)); [|discriminate]. injection R1 as <- <-. exists (-1). split; auto. ring. }
    assert (G2 : exists e, (e = 1 \/ e = -1) /\ va * c_maxn c + vb * c_maxd c = e * ((va - M * vb) * Rmax M (1/M)) * c_scale c).
    { unfold ratio_coef in R2. destruct (Req_EM_T M 0); [lra|]. destruct (nle (Fin 0) _).
      - injection R2 as <- <-. exists (-1). split; auto. ring.
      - destruct (nle _ (Fin 0)); [|discriminate]. injection R2 as <- <-. exists 1. split; auto. ring. }
    assert (K : forall w e g, (e = 1 \/ e = -1) -> 0 < w -> nlt (nabs (Fin (e * (g * w) * c_scale c))) (Fin (c_tol c)) = true ->
       Rabs g * w < c_tol c / c_scale c).
    { intros w e g He Hw H. cbn [nabs] in H. apply nlt_fin in H. apply abs_lt_scale in H; auto.
      replace (Rabs g * w) with (Rabs (e * (g * w))); auto. rewrite !Rabs_mult, (Rabs_right w) by lra.
      replace (Rabs e) with 1; [ring|]. destruct He as [-> | ->]; [rewrite Rabs_R1|rewrite Rabs_left]; lra. }
    assert (W : forall r, 0 < r -> 0 < Rmax r (1/r)) by (intros r Hr; apply Rlt_le_trans with r; [auto|apply Rmax_l]).
    destruct G1 as (e1 & He1 & G1). destruct G2 as (e2 & He2 & G2). rewrite G1, G2 in *.
    destruct (nlt (Fin (e1 * _ * _)) (Fin (e2 * _ * _))) eqn:En.
    + rewrite (pymin_left _ _ (nlt_asym _ _ En)) in Hb. simpl. apply (K _ e1); auto.
    + simpl. unfold pymin in Hb. destruct (nlt (Fin (e2 * _ * _)) (Fin (e1 * _ * _))) eqn:En2; [apply (K _ e2); auto|].
      assert (EQ : e1 * ((va - m * vb) * Rmax m (1 / m)) * c_scale c = e2 * ((va - M * vb) * Rmax M (1 / M)) * c_scale c).
      { apply Rle_antisym; apply Rnot_lt_le; intros H; apply nlt_fin in H; congruence. }
      rewrite EQ in Hb. apply (K _ e2); auto.
  - destruct L as (La & Lb). rewrite (get_loc_value _ _ _ _ La Hx'), (get_loc_value _ _ _ _ Lb Hx') in Hb. simpl.
    cbn [nabs] in Hb. apply nlt_fin in Hb. apply abs_lt_scale in Hb; auto.
  - destruct Hp as [Pm PM]. rewrite (get_loc_value _ _ _ _ L Hx') in *. set (v := value_of _ x p) in *.
    assert (K : forall a, nlt (nabs (nscale a (c_scale c))) (Fin (c_tol c)) = true -> exists q, a = Fin q /\ Rabs q < c_tol c / c_scale c).
    { intros a H. destruct a as [| |q|]; unfold nscale in H; try (destruct (Req_EM_T _ _); [lra|]; destruct (Rlt_dec _ _); [|lra]); try discriminate.
      exists q. split; auto. cbn [nabs] in H. apply nlt_fin in H. apply abs_lt_scale; auto. }
    assert (A : forall m, nlt (nabs (nscale (nsub (Fin v) m) (c_scale c))) (Fin (c_tol c)) = true -> exists q, m = Fin q /\ Rabs (v - q) < c_tol c / c_scale c).
    { intros m H. apply K in H. destruct H as (q & E & H). destruct m as [| |u|]; try discriminate. injection E as <-. eauto. }
    assert (B : forall m, nlt (nabs (nscale (nsub m (Fin v)) (c_scale c))) (Fin (c_tol c)) = true -> exists q, m = Fin q /\ Rabs (v - q) < c_tol c / c_scale c).
    { intros m H. apply K in H. destruct H as (q & E & H). destruct m as [| |u|]; try discriminate. injection E as <-.
      exists u. split; auto. rewrite Rabs_minus_sym. auto. }
    destruct mn as [m|], mx as [M|].
    + destruct (nlt (nscale (nsub (Fin v) m) _) (nscale (nsub M (Fin v)) _)) eqn:En.
      * rewrite (pymin_left _ _ (nlt_asym _ _ En)) in Hb. destruct (A m Hb) as (q & -> & H). exact H.
      * unfold pymin in Hb. destruct (nlt (nscale (nsub M (Fin v)) _) (nscale (nsub (Fin v) m) _)) eqn:En2.
        { destruct (B M Hb) as (q & -> & H). exact H. }
        destruct (A m Hb) as (q & -> & H). assert (HM : M <> NaN) by congruence.
        destruct M as [| |u|]; cbn [nsub nscale] in En, En2; try congruence.
        -- exfalso. destruct (Req_EM_T _ _); [lra|]. destruct (Rlt_dec _ _); [|lra]. discriminate.
        -- simpl. assert (EQ : (v - q) * c_scale c = (u - v) * c_scale c).
           { apply Rle_antisym; apply Rnot_lt_le; intros H1; apply nlt_fin in H1; congruence. }
           apply Rmult_eq_reg_r in EQ; [|lra]. change (Rabs (v - u) < c_tol c / c_scale c). replace (v - u) with (- (v - q)) by lra. rewrite Rabs_Ropp. auto.
        -- exfalso. destruct (Req_EM_T _ _); [lra|]. destruct (Rlt_dec _ _); [|lra]. discriminate.
    + destruct (nlt (nscale (nsub (Fin v) m) _) PInf) eqn:En.
      * rewrite (pymin_left _ _ (nlt_asym _ _ En)) in Hb. destruct (A m Hb) as (q & -> & H). exact H.
      * exfalso. unfold pymin in Hb. destruct (nlt PInf _); [discriminate|]. destruct (A m Hb) as (q & -> & _).
        discriminate.
    + destruct (nlt PInf _) eqn:En.
      { destruct (nscale (nsub M (Fin v)) (c_scale c)); discriminate. }
      unfold pymin in Hb. destruct (nlt (nscale (nsub M (Fin v)) _) PInf) eqn:En2; [|discriminate].
      destruct (B M Hb) as (q & -> & H). exact H.
    + discriminate.
Qed.

(** A free parameter at one of its bounds is noted so, and shown infinitely far from its null value,
    without a standard error (unless it is at its null value: see below). *)
Theorem C70_at_bound : forall inverse cl hess bhhh t i r o v z,
  let f := frame_of t in let x := pvals f in let n := length t in
  nth_error t i = Some (r, o) -> NoDup (names (rows f)) -> has_values f x ->
  inverts inverse -> invertible_block (held f) n hess -> symmetric n hess -> psd n hess ->
  is_free r = true -> nle (r_min r) (r_max r) = true -> r_min r = Fin v \/ r_max r = Fin v ->
  r_value r = Fin v -> r_null r = Fin z ->
  exists o' l, nth_error (report inverse cl hess bhhh t) i = Some (r, o') /\ s_note o' = Notes l /\
    (exists c, In c (all_constraints cl f) /\ is_binding c x = true /\ speaks_of (c_spec c) (r_name r) /\ In (binding_note c x) l) /\
    (z < v -> s_se o' = NaN /\ s_t o' = PInf) /\ (v < z -> s_se o' = NaN /\ s_t o' = NInf) /\
    (v = z -> s_se o' = Fin 0 /\ s_t o' = NaN).
Proof.
  intros inverse cl hess bhhh t i r o v z f x n Hi Hn Hx Hinv Hb Hs Hp Hf Hle Hat Hv Hz.
  assert (Hri : nth_error (rows f) i = Some r) by (unfold f, frame_of; simpl; rewrite nth_error_map, Hi; auto).
  assert (Hxi : get x i = v).
  { assert (E := has_values_nth f x i r Hx Hri). rewrite Hv in E. injection E as E. symmetry. exact E. }
  assert (Hat' : r_min r = Fin (get x i) \/ r_max r = Fin (get x i)) by (rewrite Hxi; auto).
  assert (Hm := at_bound_mentioned cl f x i r Hn Hri Hf Hle Hat').
  assert (Hl : length (rows f) = n) by apply rows_length.
  assert (Hin : (i < n)%nat) by (rewrite <- Hl; apply nth_error_Some; congruence).
  destruct (C39_reported inverse f cl x hess Hn) as (_ & _ & Z); try rewrite Hl; auto.
  { rewrite <- Hl. apply has_values_length; auto. }
  destruct (Z i r Hri (or_intror (conj Hle Hat')) i) as [Z0 _]; [rewrite Hl; auto|].
  destruct Hm as (c & Hc & Hbi & Hpc).
  destruct (C70_standard_errors inverse cl hess bhhh t i r o v z Hi Hv Hz) as (o' & E & S & _).
  destruct (S Hf) as (se & tt & A & B & C & _). fold f x in A, C. rewrite Z0 in A.
  destruct A as [A _]. specialize (A (Rle_refl 0)). rewrite sqrt_0 in A. subst se. simpl in B. destruct B as (_ & B1 & B2 & B3).
  destruct (C (ex_intro _ c (conj Hc (conj Hbi Hpc)))) as (D1 & D2 & D3).
  destruct (C70_notes inverse cl hess bhhh t i r o Hi Hf) as (o'' & l & E' & N & NI); [left; exists c; auto|].
  rewrite E in E'. injection E' as <-. exists o', l. split; [auto|]. split; [auto|]. split.
  { exists c. split; [auto|]. split; [auto|]. split; [auto|]. apply NI. exists c. auto. }
  split; [|split]; intros H.
  - rewrite (B1 eq_refl H) in D1. apply D1. exact I.
  - rewrite (B2 eq_refl H) in D2. apply D2. exact I.
  - rewrite (B3 eq_refl H) in D3. apply D3; intros [].
Qed.

(** The likelihood ratios computed afterwards: for every parameter whose t statistic is not a finite
    number and that is not held, the loss of log likelihood from changing just that parameter to its null value;
    all settings end as they were. *)
Theorem C70_likelihood_ratios : forall LL checks_best full t m,
  rows (m_frame m) = map fst t -> m_mangled m = false -> wf (m_frame m) ->
  (forall r, In r (rows (m_frame m)) -> r_init r <> NaN /\ r_null r <> NaN) ->
  let cur := LL full (values_of (m_frame m)) in
  exists m' out, likelihood_ratios_over LL checks_best full (ratio_names t) None false cur m = Ret out m' /\
    Forall2 same_but_best (rows (m_frame m)) (rows (m_frame m')) /\
    (forall n v, In (n, v) out <-> exists r o, In (r, o) t /\ r_name r = n /\ (forall a, s_t o <> Fin a) /\
       v = if is_free r then (if neqb (r_null r) (r_value r) then Fin 0
                              else nsub cur (LL full (value_set n (r_null r) (values_of (m_frame m))))) else NaN).
Proof.
  intros LL cb full t m Hr Hm Hw Hnn cur.
  destruct (ParamEval.lrs_result LL cb full (ratio_names t) None false cur m Hm Hw) as (m' & out & E & _ & _ & _ & W & O).
  { intros r Hi. apply Hnn; auto. }
  { intros n Hi. unfold ratio_names in Hi. apply in_map_iff in Hi. destruct Hi as (q & <- & Hq). apply filter_In in Hq.
    rewrite Hr, map_map. apply in_map_iff. exists q. tauto. }
  exists m', out. split; [exact E|]. split; [apply ParamEval.weak_best; auto|].
  assert (NF : forall v, nonfinite v = true <-> forall a, v <> Fin a).
  { intros v. destruct v; simpl; split; intros; try discriminate; auto. exfalso. eapply H. reflexivity. }
  assert (U : forall r o, In (r, o) t -> find_row (r_name r) (rows (m_frame m)) = Some r).
  { intros r o Hi. assert (Hir : In r (rows (m_frame m))) by (rewrite Hr; apply in_map_iff; exists (r, o); auto).
    destruct (ParamEval.find_row_complete (r_name r) (rows (m_frame m))) as (r0 & F); [apply in_map; auto|].
    rewrite F. f_equal. symmetry. eapply ParamEval.find_row_unique; eauto. }
  assert (LR : forall r, ParamEval.lr_value LL full (values_of (m_frame m)) cur None r =
    if neqb (r_null r) (r_value r) then Fin 0 else nsub cur (LL full (value_set (r_name r) (r_null r) (values_of (m_frame m))))).
  { reflexivity. }
  intros n v. split.
  - intros Hi. destruct (In_nth_error _ _ Hi) as (k & Hk).
    assert (Q : exists n0, In n0 (ratio_names t) /\ exists r, find_row n0 (rows (m_frame m)) = Some r /\
      (n, v) = (n0, if is_free r || false then ParamEval.lr_value LL full (values_of (m_frame m)) cur None r else NaN)).
    { clear -O Hi. induction O as [|a b l l' H _ IH]; [contradiction|]. destruct Hi as [->|Hi].
      - exists a. split; [simpl; auto|exact H].
      - destruct (IH Hi) as (n0 & I0 & R0). exists n0. split; [simpl; auto|exact R0]. }
    destruct Q as (n0 & Hn0 & r & F & E0). injection E0 as -> Ev. unfold ratio_names in Hn0. apply in_map_iff in Hn0.
    destruct Hn0 as ([r1 o1] & En & Hq). apply filter_In in Hq. destruct Hq as [Hq1 Hq2]. simpl in *.
    assert (F1 := U _ _ Hq1). rewrite En in F1. rewrite F in F1. injection F1 as <-.
    exists r, o1. split; [auto|]. split; [auto|]. split; [apply NF; auto|]. rewrite orb_false_r, LR, En in Ev. exact Ev.
  - intros (r & o & Hi & En & Hnf & Ev).
    assert (Hin : In n (ratio_names t)).
    { unfold ratio_names. apply in_map_iff. exists (r, o). split; auto. apply filter_In. split; auto. apply NF; auto. }
    assert (F1 := U _ _ Hi). rewrite En in F1.
    assert (Q : exists p, In p out /\ exists r0, find_row n (rows (m_frame m)) = Some r0 /\
      p = (n, if is_free r0 || false then ParamEval.lr_value LL full (values_of (m_frame m)) cur None r0 else NaN)).
    { clear -O Hin. induction O as [|a b l l' H _ IH]; [contradiction|]. destruct Hin as [->|Hi].
      - exists b. split; [simpl; auto|exact H].
      - destruct (IH Hi) as (p & I0 & R0). exists p. split; [simpl; auto|exact R0]. }
    destruct Q as (p & Hp & r0 & F0 & ->). rewrite F1 in F0. injection F0 as <-. rewrite orb_false_r, LR, En, <- Ev in Hp. auto.
Qed.

(** ** Refuted. *)
Definition no_stat : stat := mkStat NaN NaN NaN NaN None Blank.
Definition inv1 : nat -> matrix -> matrix := fun _ m a b => / m a b.
Definition unit_hess : matrix := fun _ _ => 1.
(** Without constraints and bounds in the model a held parameter is reported with standard error zero
    and an infinite t statistic, and is not said to be fixed. *)
Definition held_row : row := mkRow "a" (Fin 1) (Fin 0) (Fin 0) NInf PInf (Some 1%Z) NaN.
Theorem C70_held_looks_significant_refuted : exists o',
  is_free held_row = false /\ report inv1 [] unit_hess (Some unit_hess) [(held_row, no_stat)] = [(held_row, o')] /\
  s_se o' = Fin 0 /\ s_t o' = PInf /\ s_note o' = Blank.
Proof.
  assert (Z : covariance inv1 (held (frame_of [(held_row, no_stat)])) 1 unit_hess 0%nat 0%nat = 0) by reflexivity.
  eexists. split; [reflexivity|]. split; [unfold report; cbn -[covariance robust_covariance]; reflexivity|].
  unfold plain. cbn [s_se s_t s_note no_stat]. change (length _) with 1%nat. rewrite Z.
  unfold t_of, nsqrt. destruct (Rlt_dec 0 0); [lra|]. rewrite sqrt_0. cbn [held_row r_value r_null nsub ndiv].
  destruct (Req_EM_T 0 0); [|lra]. destruct (Rlt_dec 0 (1 - 0)); [|lra]. auto.
Qed.
(** When nothing binds and nothing is held, notes of earlier estimations stay as they were. *)
Theorem C70_quiet_keeps_notes : forall inverse cl hess bhhh t i r o,
  let f := frame_of t in
  nth_error t i = Some (r, o) -> (forall c, In c (all_constraints cl f) -> is_binding c (pvals f) = false) ->
  (forall q, In q t -> is_free (fst q) = true) ->
  exists o', nth_error (report inverse cl hess bhhh t) i = Some (r, o') /\ s_note o' = s_note o.
Proof.
  intros inverse cl hess bhhh t i r o f Hi Hb Hf. eexists. split; [apply report_row; eauto|]. cbv zeta. fold f.
  destruct (all_constraints cl f) as [|c cs] eqn:Ec; [reflexivity|]. rewrite <- Ec in *.
  assert (B := proj2 (binding_nil_iff (all_constraints cl f) (pvals f)) Hb). rewrite B.
  replace (existsb (fun q => negb (is_free (fst q))) t) with false; [reflexivity|].
  symmetry. apply not_true_is_false. intros H. apply existsb_exists in H. destruct H as (q & Hq & H).
  rewrite (Hf q Hq) in H. discriminate.
Qed.
(** A parameter with bounds, inside them, that had been at its minimum at an earlier estimation: the
    note stays. *)
Definition inner_row : row := mkRow "a" (Fin 5) (Fin 0) (Fin 0) (Fin 1) (Fin 9) (Some 0%Z) NaN.
Definition old_stat : stat := mkStat NaN PInf NaN PInf None (Notes [AtLeast "a" (Some (Fin 1))]).
Lemma inner_bounds : all_constraints [] (frame_of [(inner_row, old_stat)]) =
  [mkCons (Fixed "a" (Some (Fin 1)) (Some (Fin 9))) (1/10000) 10 0 0 1 0 0 0 0].
Proof.
  unfold all_constraints, bounds_constraints, frame_of. cbn [map fst rows flat_map]. unfold bound_cons.
  cbn [inner_row is_free r_hold Z.eqb negb r_min r_max neqb nle andb]. reflexivity.
Qed.
Theorem C70_note_stale_refuted : exists o',
  report inv1 [] unit_hess (Some unit_hess) [(inner_row, old_stat)] = [(inner_row, o')] /\
  s_note o' = Notes [AtLeast "a" (Some (Fin 1))] /\
  (forall c, In c (all_constraints [] (frame_of [(inner_row, old_stat)])) -> is_binding c [5] = false) /\
  ~ nearly (AtLeast "a" (Some (Fin 1))) (fun _ => 5) 1.
Proof.
  set (t := [(inner_row, old_stat)]).
  assert (B : forall c, In c (all_constraints [] (frame_of t)) -> is_binding c [5] = false).
  { intros c Hc. unfold t in Hc. rewrite inner_bounds in Hc. destruct Hc as [ <-|[]].
    unfold is_binding, cfun, min_fun, max_fun, get. cbn [c_spec c_i c_scale nth nsub nscale].
    replace ((5 - 1) * 10) with 40 by lra. replace ((9 - 5) * 10) with 40 by lra. unfold pymin.
    replace (nlt (Fin 40) (Fin 40)) with false by (symmetry; apply not_true_is_false; intros H; apply nlt_fin in H; lra).
    cbn [nabs c_tol]. apply not_true_is_false. intros H. apply nlt_fin in H. rewrite Rabs_right in H; lra. }
  destruct (C70_quiet_keeps_notes inv1 [] unit_hess (Some unit_hess) t 0 inner_row old_stat eq_refl B) as (o' & E & N).
  { intros q [ <-|[]]. reflexivity. }
  assert (L : length (report inv1 [] unit_hess (Some unit_hess) t) = 1%nat).
  { rewrite <- (map_length fst), C70_values_kept. reflexivity. }
  destruct (report inv1 [] unit_hess (Some unit_hess) t) as [|q [|]]; try discriminate. cbn [nth_error] in E.
  injection E as ->. exists o'. split; [auto|]. split; [exact N|]. split; [exact B|].
  simpl. rewrite Rabs_right; lra.
Qed.
(** The robust statistics know nothing of binding constraints: at its minimum, the same parameter has
    no standard error but a robust one. *)
Definition edge_row : row := mkRow "a" (Fin 1) (Fin 0) (Fin 0) (Fin 1) PInf (Some 0%Z) NaN.
Lemma edge_block : invertible_block (held (frame_of [(edge_row, no_stat)])) 1 unit_hess.
Proof. exists unit_hess. intros [|a] [|b] Ha Hb; simpl in *; try lia. unfold block, unit_hess. ring. Qed.
Lemma edge_values : has_values (frame_of [(edge_row, no_stat)]) (pvals (frame_of [(edge_row, no_stat)])).
Proof. reflexivity. Qed.
Lemma edge_hess : symmetric 1 unit_hess /\ psd 1 unit_hess.
Proof. split; [intros i j _ _; reflexivity|]. intros u. unfold variance, cov, unit_hess. simpl. nra. Qed.
Theorem C70_robust_ignores_binding_refuted : forall inverse, inverts inverse -> exists o',
  nth_error (report inverse [] unit_hess (Some unit_hess) [(edge_row, no_stat)]) 0 = Some (edge_row, o') /\
  s_se o' = NaN /\ s_t o' = PInf /\ s_rse o' = Fin 1 /\ s_rt o' = Fin 1.
Proof.
  intros inverse Hinv. set (t := [(edge_row, no_stat)]).
  destruct edge_hess as [Hs Hp].
  assert (Hx := edge_values). assert (Hle : nle (r_min edge_row) (r_max edge_row) = true) by reflexivity.
  destruct (C70_at_bound inverse [] unit_hess (Some unit_hess) t 0 edge_row no_stat 1 0 eq_refl) as (o' & l & E & _ & _ & H & _ & _); auto.
  { repeat constructor; auto. }
  { apply edge_block. }
  destruct (H Rlt_0_1) as [S1 S2]. exists o'. split; [exact E|]. split; [auto|]. split; [auto|].
  destruct (C70_standard_errors inverse [] unit_hess (Some unit_hess) t 0 edge_row no_stat 1 0 eq_refl eq_refl eq_refl) as (o2 & E2 & _ & A & B).
  rewrite E in E2. injection E2 as <-.
  assert (V : robust_covariance inverse (held (frame_of t)) (length t) unit_hess unit_hess 0%nat 0%nat = 1).
  { set (h := held (frame_of t)). change (length t) with 1%nat.
    assert (I := Hinv 1%nat (gather h 1 unit_hess) ltac:(exists unit_hess; intros [|a] [|b] Ha Hb; try lia; vm_compute; ring)).
    assert (I1 := I 0%nat 0%nat Nat.lt_0_1 Nat.lt_0_1). cbn [sumn Nat.eqb] in I1.
    assert (G : gather h 1 unit_hess 0%nat 0%nat = 1) by reflexivity. rewrite G in I1.
    change (robust_covariance inverse h 1 unit_hess unit_hess 0%nat 0%nat) with
      (0 + (0 + inverse 1%nat (gather h 1 unit_hess) 0%nat 0%nat * gather h 1 unit_hess 0%nat 0%nat) * inverse 1%nat (gather h 1 unit_hess) 0%nat 0%nat).
    rewrite G. replace (inverse 1%nat (gather h 1 unit_hess) 0%nat 0%nat) with 1 by lra. lra. }
  rewrite V in A. destruct A as [A _]. rewrite sqrt_1 in A. specialize (A Rle_0_1). rewrite A in *. split; [auto|].
  destruct B as [B _]. rewrite B by lra. f_equal. lra.
Qed.
(** At its bound and at its null value: standard error zero and no t statistic. *)
Theorem C70_null_at_bound_refuted : forall inverse cl hess bhhh t i r o v,
  let f := frame_of t in let n := length t in
  nth_error t i = Some (r, o) -> NoDup (names (rows f)) -> has_values f (pvals f) ->
  inverts inverse -> invertible_block (held f) n hess -> symmetric n hess -> psd n hess ->
  is_free r = true -> nle (r_min r) (r_max r) = true -> r_min r = Fin v \/ r_max r = Fin v ->
  r_value r = Fin v -> r_null r = Fin v ->
  exists o', nth_error (report inverse cl hess bhhh t) i = Some (r, o') /\ s_se o' = Fin 0 /\ s_t o' = NaN.
Proof.
  intros inverse cl hess bhhh t i r o v f n Hi Hn Hx Hinv Hb Hs Hp Hf Hle Hat Hv Hz.
  destruct (C70_at_bound inverse cl hess bhhh t i r o v v Hi Hn Hx Hinv Hb Hs Hp Hf Hle Hat Hv Hz) as (o' & l & E & _ & _ & _ & _ & H).
  exists o'. destruct (H eq_refl). auto.
Qed.
(** A model without bhhh: robust standard errors of zero, and infinite robust t statistics. *)
Theorem C70_no_bhhh_refuted : forall inverse cl hess t i r o v z,
  nth_error t i = Some (r, o) -> r_value r = Fin v -> r_null r = Fin z -> z < v ->
  exists o', nth_error (report inverse cl hess None t) i = Some (r, o') /\ s_rse o' = Fin 0 /\ s_rt o' = PInf.
Proof.
  intros inverse cl hess t i r o v z Hi Hv Hz H.
  destruct (C70_standard_errors inverse cl hess None t i r o v z Hi Hv Hz) as (o' & E & _ & [A _] & B).
  specialize (A (Rle_refl 0)). rewrite sqrt_0 in A. rewrite A in B. destruct B as (_ & B & _).
  exists o'. auto.
Qed.

(** Not vacuous. *)
Example C70_example : nth_error [(edge_row, no_stat)] 0 = Some (edge_row, no_stat) /\ NoDup (names (rows (frame_of [(edge_row, no_stat)]))) /\
  has_values (frame_of [(edge_row, no_stat)]) (pvals (frame_of [(edge_row, no_stat)])) /\
  invertible_block (held (frame_of [(edge_row, no_stat)])) 1 unit_hess /\ symmetric 1 unit_hess /\ psd 1 unit_hess /\
  is_free edge_row = true /\ nle (r_min edge_row) (r_max edge_row) = true /\ r_min edge_row = Fin 1 /\ r_null edge_row = Fin 0 /\
  all_constraints [] (frame_of [(inner_row, old_stat)]) <> [].
Proof.
  split; [reflexivity|]. split; [repeat constructor; auto|]. split; [apply edge_values|]. split; [apply edge_block|].
  split; [apply edge_hess|]. split; [apply edge_hess|]. repeat split; auto. rewrite inner_bounds. discriminate.
Qed.
Example C70_ratio_example : ratio_names [(edge_row, mkStat NaN PInf NaN NaN None Blank)] = ["a"].
Proof. reflexivity. Qed.
