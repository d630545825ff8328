(** C66: evaluating a numba model: answers do not depend on what was asked before; arrays that are handed out are
    views of the model's work arrays; slices; penalties; labels. *)
From Coq Require Import FunctionalExtensionality Permutation Sorted.
From Verif Require Import SessViews LogitProofs LogitRun LogitProps LogitExProps UtilityProofs UtilityProps.
Open Scope R_scope.

(** ---------------------------------------------------------------- histories *)
(** Whatever the work arrays hold and whatever has been called before, with whatever parameters, cases and penalty
    intensity, every call shows what the stateless specification says. *)
Theorem C66_answers_ignore_history :
  forall m kids, tree_slots (x_st (m_x m)) kids ->
  forall ops s, transcript m s ops = expected m (v_par s) (v_int s) ops.
Proof. intros m kids T ops s. apply (transcript_expected m kids T). Qed.
(** Two models of the same data with different pasts but the same values and intensity answer alike. *)
Theorem C66_same_question_same_answer :
  forall m kids, tree_slots (x_st (m_x m)) kids ->
  forall s1 s2 past1 past2 q x sl,
  let t1 := after m s1 past1 in let t2 := after m s2 past2 in
  v_par t1 = v_par t2 -> v_int t1 = v_int t2 ->
  transcript m t1 [OCall q x sl] = transcript m t2 [OCall q x sl].
Proof.
  intros m kids T s1 s2 past1 past2 q x sl t1 t2 Hp Hi.
  rewrite !(transcript_expected m kids T), Hp, Hi. auto.
Qed.
(** The values and the intensity are those last set: evaluations change nothing else. *)
Theorem C66_settings_follow_operations :
  forall m kids, tree_slots (x_st (m_x m)) kids ->
  forall ops s, v_par (after m s ops) = fold_left par_after ops (v_par s) /\ v_int (after m s ops) = fold_left int_after ops (v_int s).
Proof.
  intros m kids T ops. induction ops as [|o ops IH]; intros s; [simpl; auto|].
  unfold after in *. simpl. assert (H := step_expected m kids T s o). destruct (step m s o) as [s' r].
  destruct H as (_ & H2 & H3). simpl. rewrite <- H2, <- H3. apply IH.
Qed.

(** Log likelihood and probabilities asked for in different histories fit together: the log likelihood is the
    weighted sum of the logarithms of the probabilities that [probability] returns. *)
Definition nth_cell (t : seen) (r c : nat) : R := match t with STable rows => val (nth c (nth r rows []) None) | _ => 0 end.
Lemma table_cell {A} (f : A -> nat -> option R) (l : list A) n r c d : (r < length l)%nat -> (c < n)%nat ->
  nth_cell (STable (map (fun i => map (f i) (seq 0 n)) l)) r c = val (f (nth r l d) c).
Proof.
  intros Hr Hc. unfold nth_cell. rewrite (nth_indep _ [] (map (f d) (seq 0 n))) by (rewrite map_length; auto).
  rewrite (map_nth (fun i => map (f i) (seq 0 n))).
  rewrite (nth_indep _ None (f (nth r l d) 0%nat)) by (rewrite map_length, seq_length; auto).
  rewrite map_nth, seq_nth by auto. auto.
Qed.
Definition fits (m : nmodel) (par : nat -> R) : Prop :=
  mu_positive (x_st (m_x m)) par /\
  forall i, (i < m_n m)%nat -> let c := m_case m i in let x := m_x m in
    av_matches (x_st x) (fst (utilities par (x_hold x) (n_alts (x_st x)) (x_q x) (x_qs x) (x_ca x) (x_co x) (dc_av c) (dc_data c) (dc_co c))) (dc_av c) /\
    (forall a, (a < n_alts (x_st x))%nat -> dc_ch c a <> 0 -> dc_av c a = true).
Theorem C66_loglike_fits_probability :
  forall m kids par, tree_slots (x_st (m_x m)) kids -> fits m par ->
  forall s s', v_par s = par -> v_par s' = par -> v_int s = 0 -> v_int s' = 0 ->
  exists t, transcript m s' [OCall (Qprob false) None null_slice] = [t] /\
  transcript m s [OCall Qll None null_slice] =
    [SNum (Some (Rsum (fun i => dc_wt (m_case m i) *
        Rsum (fun a => dc_ch (m_case m i) a * ln (nth_cell t i a)) (seq 0 (n_alts (x_st (m_x m))))) (seq 0 (m_n m)) * m_norm m))].
Proof.
  intros m kids par T [Hm Hf] s s' Hp Hp' Hi Hi'. rewrite !(transcript_expected m kids T), Hp, Hp', Hi, Hi'.
  cbn [expected expected_one par_after answer]. rewrite positions_all. eexists. split; [reflexivity|]. f_equal. f_equal.
  unfold total, sum_all, scale_o.
  assert (E : forall i, (i < m_n m)%nat -> case_ll m 0 par i = Some (dc_wt (m_case m i) *
     Rsum (fun a => dc_ch (m_case m i) a * ln (r_prob (one m par i) a)) (seq 0 (n_alts (x_st (m_x m)))))).
  { intros i Hin. destruct (Hf i Hin) as [H1 H2]. unfold case_ll, one, master, pen_of.
    rewrite (C06_loglike _ kids); auto. destruct (Req_EM_T 0 0); [|lra]. f_equal. lra. }
  replace (forallb is_fin (map (case_ll m 0 par) (seq 0 (m_n m)))) with true.
  2:{ symmetry. apply forallb_forall. intros y Hy. apply in_map_iff in Hy as [i [<- Hin]]. apply in_seq in Hin. rewrite E by lia. auto. }
  f_equal. f_equal. rewrite Rsum_map. apply Rsum_ext. intros i Hin. apply in_seq in Hin. rewrite E by lia. simpl val. f_equal.
  apply Rsum_ext. intros a Ha. apply in_seq in Ha. f_equal. f_equal.
  rewrite (table_cell (fun i a => Some (r_prob (one m par i) a)) (seq 0 (m_n m)) _ i a 0%nat) by (rewrite ?seq_length; lia).
  simpl. rewrite seq_nth by lia. auto.
Qed.
(** Every row that [probability] returns, in any history and for any slice, sums to one. *)
Theorem C66_probability_rows_sum_to_one :
  forall m kids s, tree_slots (x_st (m_x m)) kids -> fits m (v_par s) ->
  (forall i, (i < m_n m)%nat -> exists a, (a < n_alts (x_st (m_x m)))%nat /\ dc_av (m_case m i) a = true) ->
  forall sl, s_step sl <> Some 0%Z -> exists rows, transcript m s [OCall (Qprob false) None sl] = [STable rows] /\
    forall row, In row rows -> length row = n_alts (x_st (m_x m)) /\ Rsum val row = 1.
Proof.
  intros m kids s T [Hm Hf] Ha sl Hs. rewrite (transcript_expected m kids T).
  cbn [expected expected_one par_after answer]. destruct (positions (m_n m) sl) as [idx|] eqn:E.
  2:{ exfalso. unfold positions in E. destruct (s_step sl) as [z|]; [|discriminate]. destruct (Z.eqb_spec z 0); [congruence|discriminate]. }
  eexists. split; [reflexivity|]. intros row Hr. apply in_map_iff in Hr as [i [<- Hin]].
  apply (positions_range _ _ _ _ E) in Hin. rewrite map_length, seq_length. split; auto.
  rewrite Rsum_map. simpl. destruct (Hf i Hin) as [H1 H2].
  apply (C01_probabilities_sum_to_one _ kids); auto. apply mu_positive_valid. auto.
Qed.

(** ---------------------------------------------------------------- arrays handed out *)
(** An array that [probability] has returned keeps showing the same numbers as long as the parameter values stay the
    same, whatever else is called, for whatever cases. *)
Definition keeps_values (par : nat -> R) (ops : list op) : Prop :=
  forall pre o post, ops = pre ++ o :: post -> par_after (fold_left par_after pre par) o = par.
Lemma keeps_fold par ops : keeps_values par ops -> forall pre o post, ops = pre ++ o :: post -> fold_left par_after pre par = par.
Proof.
  intros H pre. induction pre as [|o' pre IH] using rev_ind; intros o post E; auto.
  rewrite fold_left_app. simpl. rewrite <- app_assoc in E. simpl in E. exact (H _ _ _ E).
Qed.
Theorem C66_held_probabilities :
  forall m kids, tree_slots (x_st (m_x m)) kids ->
  forall s nests x sl ops, let (s1, r) := step m s (OCall (Qprob nests) x sl) in
  keeps_values (v_par s1) ops -> look (after m s1 ops) r = look s1 r.
Proof.
  intros m kids T s nests x sl ops. simpl.
  destruct (runner m s x (mkF 0 true false false) sl) as [s1 [idx|]] eqn:E; simpl; auto. intros K.
  destruct (runner_rows _ _ _ _ _ _ _ E) as (Hp & Hpar & Hint & Hgen & Hoth & HW).
  f_equal. apply map_ext_in. intros i Hi. apply map_ext_in. intros a Ha. simpl. f_equal.
  assert (Hn : (a < n_nodes (x_st (m_x m)))%nat).
  { apply in_seq in Ha. assert (R1 := ts_root _ _ T). destruct nests; lia. }
  assert (Q0 : forall b, (b < n_nodes (x_st (m_x m)))%nat -> w_prob (v_heap s1 (v_gen s1) i) b = r_prob (one m (v_par s1) i) b).
  { intros b Hb. change (v_heap s1 (v_gen s1) i) with (v_work s1 i). rewrite HW. destruct (in_dec Nat.eq_dec i idx); [|tauto].
    rewrite (row_prob m kids T) by auto. rewrite Hpar. auto. }
  rewrite (Q0 a Hn).
  apply (after_keeps m kids T
    (fun j w => j = i -> forall b, (b < n_nodes (x_st (m_x m)))%nat -> w_prob w b = r_prob (one m (v_par s1) i) b)
    (fun par o => par_after par o = v_par s1)) with (i := i); auto.
  - intros par o f j w Hok Hf HQ w' Hu Hpr -> b Hb. rewrite Hpr, Hok.
    destruct o as [v|k| |y|q y sl']; simpl in Hf; try discriminate; injection Hf as <-.
    + apply (kern_prob (m_x m) kids T); auto.
    + destruct q; cbn [flags_of]; try (apply (kern_prob (m_x m) kids T); auto; fail);
        rewrite kern_prob_kept by (simpl; auto); auto.
Qed.
(** Likewise the arrays of [utility] and [logsums], if [quantity] is not called. *)
Definition no_quantity (o : op) : Prop := match o with OCall Qquant _ _ => False | _ => True end.
Theorem C66_held_utilities :
  forall m kids, tree_slots (x_st (m_x m)) kids ->
  forall s q x sl ops, q = Qutil \/ q = Qlogsums ->
  let (s1, r) := step m s (OCall q x sl) in
  keeps_values (v_par s1) ops -> Forall no_quantity ops -> look (after m s1 ops) r = look s1 r.
Proof.
  intros m kids T s q x sl ops Hq. cbn [step].
  destruct (runner m s x (flags_of q) sl) as [s1 [idx|]] eqn:E; simpl; auto. intros K NQ. rewrite Forall_forall in NQ.
  destruct (runner_rows _ _ _ _ _ _ _ E) as (Hp & Hpar & Hint & Hgen & Hoth & HW).
  assert (Q0 : forall i, In i idx -> w_util (v_heap s1 (v_gen s1) i) = r_utility (one m (v_par s1) i)).
  { intros i Hi. change (v_heap s1 (v_gen s1) i) with (v_work s1 i). rewrite HW. destruct (in_dec Nat.eq_dec i idx); [|tauto].
    rewrite row_util by (destruct Hq as [-> | ->]; simpl; auto). rewrite Hpar. auto. }
  assert (Q1 : forall i, In i idx -> w_util (v_heap (after m s1 ops) (v_gen s1) i) = r_utility (one m (v_par s1) i)).
  { intros i Hi.
    apply (after_keeps m kids T (fun j w => j = i -> w_util w = r_utility (one m (v_par s1) i))
      (fun par o => par_after par o = v_par s1 /\ no_quantity o)) with (i := i); auto.
    - intros par o f j w [Hok Hno] Hf HQ w' Hu Hpr ->. rewrite Hu, Hok.
      destruct o as [v|k| |y|q' y sl']; simpl in Hf; try discriminate; injection Hf as <-.
      + apply kern_util. auto.
      + destruct q'; cbn [no_quantity flags_of] in *; try tauto; apply kern_util; simpl; auto.
    - intros pre o post Eo. split; [exact (K _ _ _ Eo)|]. apply NQ. rewrite Eo. apply in_or_app. right. left. auto. }
  destruct Hq as [-> | ->]; simpl; f_equal; apply map_ext_in; intros i Hi; [apply map_ext_in; intros a Ha|f_equal]; rewrite Q0, Q1 by auto; auto.
Qed.
(** [loglike], [loglike_casewise], [utility], [quantity], [logsums] and settings do not touch an array of
    probabilities, even at other parameter values. *)
Definition spares_probability (o : op) : Prop :=
  match o with
  | OTolerance _ => False
  | OCall q _ _ => match q with Qll | Qll_casewise | Qutil | Qquant | Qlogsums => True | _ => False end
  | _ => True
  end.
Theorem C66_probabilities_spared :
  forall m kids, tree_slots (x_st (m_x m)) kids ->
  forall s nests x sl ops, let (s1, r) := step m s (OCall (Qprob nests) x sl) in
  Forall spares_probability ops -> look (after m s1 ops) r = look s1 r.
Proof.
  intros m kids T s nests x sl ops. simpl.
  destruct (runner m s x (mkF 0 true false false) sl) as [s1 [idx|]] eqn:E; simpl; auto. intros K. rewrite Forall_forall in K.
  f_equal. apply map_ext_in. intros i Hi. apply map_ext_in. intros a Ha. simpl. f_equal.
  apply (after_keeps m kids T
    (fun j w => j = i -> w_prob w a = w_prob (v_heap s1 (v_gen s1) i) a) (fun par o => spares_probability o)) with (i := i); auto.
  - intros par o f j w Hok Hf HQ w' Hu Hpr ->. rewrite Hpr.
    destruct o as [v|k| |y|q y sl']; simpl in Hf; try discriminate; injection Hf as <-; cbn [spares_probability] in Hok; try tauto.
    destruct q; cbn [flags_of] in *; try tauto; rewrite kern_prob_kept by (simpl; auto); auto.
  - intros pre o post Eo. apply K. rewrite Eo. apply in_or_app. right. left. auto.
Qed.
(** Once the model has made new work arrays, nothing it does reaches the arrays handed out before; and everything
    else that is returned (numbers, gradients, matrices, casewise arrays) is a copy and never changes. *)
Theorem C66_old_arrays_are_safe :
  forall m s o ops1 ops2, let (s1, r) := step m s o in
  look (after m (after m s1 (ops1 ++ [ORemake])) ops2) r = look (after m s1 ops1) r.
Proof.
  intros m s o ops1 ops2. destruct (step m s o) as [s1 r] eqn:E. destruct r as [| | | | | | |g f cols idx|]; auto.
  assert (G : (g <= v_gen s1)%nat).
  { destruct o as [v|k| |y|q y sl]; simpl in E; try discriminate.
    - destruct (runner m s y (flags_of q) sl) as [s' [l|]]; [|discriminate]. injection E as <- Er.
      destruct q; simpl in Er; try discriminate; injection Er as <- _ _ _; auto. }
  assert (H := after_gen m ops1 s1).
  simpl. f_equal. apply map_ext_in. intros i _. apply map_ext_in. intros a _. f_equal.
  rewrite old_memory; unfold after; rewrite fold_left_app; simpl; fold (after m s1 ops1); [|lia].
  rewrite upd_neq by lia. auto.
Qed.
Theorem C66_copies_never_change :
  forall m s o ops, let (s1, r) := step m s o in
  (match o with OCall (Qprob _) _ _ | OCall Qutil _ _ | OCall Qquant _ _ | OCall Qlogsums _ _ => False | _ => True end) ->
  look (after m s1 ops) r = look s1 r.
Proof.
  intros m s o ops. destruct (step m s o) as [s1 r] eqn:E. intros H.
  destruct o as [v|k| |y|q y sl]; simpl in E; try (injection E as <- <-; auto; fail).
  destruct (runner m s y (flags_of q) sl) as [s' [l|]]; injection E as <- <-; auto. destruct q; simpl in H; try tauto; auto.
Qed.

(** An example: two alternatives, the second with utility equal to parameter 0; two cases, the first with weight 2. *)
Definition ex_fixed : fixed := mkX ex_flat (fun _ => false) [] None [] [mkCo 1 1 0 None].
Definition ex_dcase (w : R) (c : nat) : dcase :=
  mkC (fun _ => true) (fun a => if (a =? c)%nat then 1 else 0) w (Dense (fun _ _ => 0)) (fun _ => 0).
Definition ex_m : nmodel := mkM ex_fixed 2 (fun i => if (i =? 0)%nat then ex_dcase 2 1 else ex_dcase 1 0)
  (fun _ _ => (0, fun _ => 0, fun _ => 0)) 1.
Example ex_m_tree : tree_slots (x_st (m_x ex_m)) ex_flat_kids.
Proof. apply ex_flat_tree. Qed.
Lemma ex_utilities par i a : (a < 2)%nat ->
  fst (utilities par (x_hold ex_fixed) 2 [] None [] [mkCo 1 1 0 None] (dc_av (m_case ex_m i)) (dc_data (m_case ex_m i)) (dc_co (m_case ex_m i))) a =
  Some (if (a =? 1)%nat then par 0%nat else 0).
Proof.
  intros Ha. assert (D : dc_data (m_case ex_m i) = Dense (fun _ _ => 0) /\ dc_av (m_case ex_m i) = (fun _ => true)).
  { unfold ex_m. simpl. destruct i; auto. }
  destruct D as [-> ->]. rewrite C11_utility_is_linear by auto. cbv beta iota. f_equal. unfold linear_ca, linear_co. simpl.
  destruct a as [|[|a]]; [| |lia]; unfold co_value; simpl; lra.
Qed.
Example ex_m_fits : forall par, fits ex_m par.
Proof.
  intros par. split.
  - intros k Hk. simpl in Hk. unfold mu_of. simpl. lra.
  - intros i Hi. assert (Av : dc_av (m_case ex_m i) = fun _ => true) by (unfold ex_m; simpl; destruct i; auto).
    split; [|intros; rewrite Av; auto]. intros a Ha. cbn [ex_m m_x ex_fixed x_st ex_flat n_alts] in Ha.
    change (fst (utilities par (x_hold (m_x ex_m)) (n_alts (x_st (m_x ex_m))) (x_q (m_x ex_m)) (x_qs (m_x ex_m)) (x_ca (m_x ex_m)) (x_co (m_x ex_m))
      (dc_av (m_case ex_m i)) (dc_data (m_case ex_m i)) (dc_co (m_case ex_m i))) a) with
      (fst (utilities par (x_hold ex_fixed) 2 [] None [] [mkCo 1 1 0 None] (dc_av (m_case ex_m i)) (dc_data (m_case ex_m i)) (dc_co (m_case ex_m i))) a).
    rewrite ex_utilities by auto. rewrite Av. unfold finite. split; congruence.
Qed.
Lemma ex_prob par i a : (i < 2)%nat -> (a < 2)%nat ->
  r_prob (one ex_m par i) a = (if (a =? 1)%nat then exp (par 0%nat) else 1) / (1 + exp (par 0%nat)).
Proof.
  intros Hi Ha. destruct (ex_m_fits par) as [Hm Hf]. destruct (Hf i Hi) as [H1 H2].
  unfold one, master. rewrite (C04_mnl_closed_form _ ex_flat_kids); auto.
  - cbn [Rsum fold_right seq ex_m m_x ex_fixed x_st ex_flat n_alts].
    change (x_q ex_fixed) with (@nil term).
    change (x_qs (m_x ex_m)) with (@None nat). change (x_q (m_x ex_m)) with (@nil term). change (x_ca (m_x ex_m)) with (@nil term).
    change (x_co (m_x ex_m)) with [mkCo 1 1 0 None]. change (x_hold (m_x ex_m)) with (x_hold ex_fixed).
    rewrite !ex_utilities by lia. cbn [Nat.eqb oexp].
    replace (0 / 1) with 0 by lra. rewrite exp_0. replace (par 0%nat / 1) with (par 0%nat) by lra.
    destruct a as [|[|a]]; [| |lia]; cbn [Nat.eqb oexp].
    + replace (0 / 1) with 0 by lra. rewrite exp_0. f_equal. lra.
    + replace (par 0%nat / 1) with (par 0%nat) by lra. f_equal. lra.
  - apply ex_m_tree.
  - exists 0%nat. split; [simpl; lia|]. unfold ex_m. simpl. destruct i; auto.
Qed.
(** The array returned by [probability] is a view: a later gradient evaluation at other values rewrites it. *)
Theorem C66_held_array_overwritten_refuted :
  exists m kids s x y ops, tree_slots (x_st (m_x m)) kids /\
  let (s1, r) := step m s (OCall (Qprob false) (Some x) null_slice) in
  ops = [OCall Qdll (Some y) null_slice] /\
  nth_cell (look s1 r) 0 1 = 1 / 2 /\ nth_cell (look (after m s1 ops) r) 0 1 = 3 / 4.
Proof.
  exists ex_m, ex_flat_kids, (mkSess (fun _ => 0) 0 0 (fun _ _ => zero_work)), (fun _ => 0), (fun _ => ln 3),
    [OCall Qdll (Some (fun _ => ln 3)) null_slice].
  split; [apply ex_m_tree|]. cbn [step].
  set (s0 := mkSess _ _ _ _).
  destruct (runner ex_m s0 (Some (fun _ => 0)) (flags_of (Qprob false)) null_slice) as [s1 o1] eqn:E1.
  destruct o1 as [idx|]; [|apply runner_error in E1 as [E1 _]; simpl in E1; rewrite positions_all in E1; discriminate].
  assert (A1 := call_answer ex_m ex_flat_kids ex_m_tree _ _ _ _ _ _ E1).
  destruct (runner_rows _ _ _ _ _ _ _ E1) as (P1 & Par1 & Int1 & Gen1 & _ & _).
  rewrite positions_all in P1. injection P1 as <-.
  split; auto. split.
  - rewrite A1. cbn [answer]. rewrite (table_cell (fun i a => Some (r_prob (one ex_m (fun _ => 0) i) a)) _ _ 0 1 0%nat) by (simpl; lia).
    cbn [val nth]. rewrite (ex_prob (fun _ => 0) 0 1) by lia. cbn [Nat.eqb]. rewrite exp_0. lra.
  - cbn [after fold_left step].
    destruct (runner ex_m s1 (Some (fun _ => ln 3)) (flags_of Qdll) null_slice) as [s2 o2] eqn:E2.
    destruct o2 as [idx|]; [|apply runner_error in E2 as [E2 _]; simpl in E2; rewrite positions_all in E2; discriminate].
    destruct (runner_rows _ _ _ _ _ _ _ E2) as (P2 & Par2 & Int2 & Gen2 & _ & HW2). rewrite positions_all in P2. injection P2 as <-.
    cbn [fst reply look]. rewrite <- Gen2.
    rewrite (table_cell (fun i a => cell FProb (v_heap s2 (v_gen s2) i) a) _ _ 0 1 0%nat) by (simpl; lia).
    cbn [val cell]. cbn [nth]. change (v_heap s2 (v_gen s2) 0%nat) with (v_work s2 0%nat).
    rewrite HW2. destruct (in_dec Nat.eq_dec 0%nat [0%nat; 1%nat]) as [Hin|Hin]; [|destruct Hin; left; auto].
    rewrite (row_prob ex_m ex_flat_kids ex_m_tree) by (simpl; auto). rewrite (ex_prob (fun _ => ln 3) 0 1) by lia. cbn [Nat.eqb]. rewrite exp_ln by lra. lra.
Qed.
(** [quantity] rewrites an array returned by [utility], even at the same values: the size of the first alternative
    (1: there are no size terms) stands where its utility (0) was. *)
Theorem C66_quantity_overwrites_utility_refuted :
  exists m kids s, tree_slots (x_st (m_x m)) kids /\
  let (s1, r) := step m s (OCall Qutil None null_slice) in
  nth_cell (look s1 r) 0 0 = 0 /\ nth_cell (look (after m s1 [OCall Qquant None null_slice]) r) 0 0 = 1.
Proof.
  exists ex_m, ex_flat_kids, (mkSess (fun _ => 0) 0 0 (fun _ _ => zero_work)).
  split; [apply ex_m_tree|]. cbn [step].
  set (s0 := mkSess _ _ _ _).
  destruct (runner ex_m s0 None (flags_of Qutil) null_slice) as [s1 o1] eqn:E1.
  destruct o1 as [idx|]; [|apply runner_error in E1 as [E1 _]; simpl in E1; rewrite positions_all in E1; discriminate].
  assert (A1 := call_answer ex_m ex_flat_kids ex_m_tree _ _ _ _ _ _ E1).
  destruct (runner_rows _ _ _ _ _ _ _ E1) as (P1 & Par1 & Int1 & Gen1 & _ & _).
  rewrite positions_all in P1. injection P1 as <-. split.
  - rewrite A1. cbn [answer].
    rewrite (table_cell (fun i a => r_utility (one ex_m (v_par s0) i) a) _ _ 0 0 0%nat) by (simpl; lia).
    cbn [nth]. unfold one, master.
    rewrite (C03_alternative_utility _ ex_flat_kids) by (try apply ex_m_tree; simpl; lia).
    assert (H := ex_utilities (fun _ => 0) 0 0 ltac:(lia)). cbn [Nat.eqb] in H.
    unfold s0. cbn [v_par].
    change (val (fst (utilities (fun _ => 0) (x_hold ex_fixed) 2 [] None [] [mkCo 1 1 0 None] (dc_av (m_case ex_m 0)) (dc_data (m_case ex_m 0)) (dc_co (m_case ex_m 0))) 0%nat) = 0).
    rewrite H. auto.
  - cbn [after fold_left step].
    destruct (runner ex_m s1 None (flags_of Qquant) null_slice) as [s2 o2] eqn:E2.
    destruct o2 as [idx|]; [|apply runner_error in E2 as [E2 _]; simpl in E2; rewrite positions_all in E2; discriminate].
    destruct (runner_rows _ _ _ _ _ _ _ E2) as (P2 & Par2 & Int2 & Gen2 & _ & HW2). rewrite positions_all in P2. injection P2 as <-.
    cbn [fst reply look]. rewrite <- Gen2.
    rewrite (table_cell (fun i a => cell FUtil (v_heap s2 (v_gen s2) i) a) _ _ 0 0 0%nat) by (simpl; lia).
    cbn [cell]. cbn [nth]. change (v_heap s2 (v_gen s2) 0%nat) with (v_work s2 0%nat).
    rewrite HW2. destruct (in_dec Nat.eq_dec 0%nat [0%nat; 1%nat]) as [Hin|Hin]; [|destruct Hin; left; auto].
    rewrite row_quant by auto. cbn. replace (0 / 1) with 0 by lra. apply exp_0.
Qed.

(** ---------------------------------------------------------------- slices *)
(** start, stop and step select cases the way Python slices do: in order, none twice, those from the start up to but
    not including the stop at multiples of the step; negative ends count from the end; ends beyond the data are
    limited to it. *)
Theorem C66_slice_selects :
  forall n s, (match s_step s with Some z => 0 < z | None => True end)%Z ->
  exists idx, positions n s = Some idx /\ StronglySorted lt idx /\ forall i, In i idx <-> selected n s i.
Proof. intros n s H. apply positions_selected. unfold step_of. destruct (s_step s); lia. Qed.
(** Whatever the slice (negative steps included), only cases that exist are taken, and none twice; a step of zero is
    an error. *)
Theorem C66_slice_valid :
  forall n s, (s_step s = Some 0%Z /\ positions n s = None) \/
  (s_step s <> Some 0%Z /\ exists idx, positions n s = Some idx /\ NoDup idx /\ forall i, In i idx -> (i < n)%nat).
Proof.
  intros n s. destruct (positions n s) as [idx|] eqn:E.
  - right. split.
    + intros H. unfold positions in E. rewrite H in E. discriminate.
    + exists idx. split; auto. split; [apply (positions_nodup _ _ _ E)|]. intros i. apply (positions_range _ _ _ _ E).
  - left. unfold positions in E. destruct (s_step s) as [z|]; [|discriminate]. destruct (Z.eqb_spec z 0); [subst; auto|discriminate].
Qed.
(** [::-1] is the whole in reverse. *)
Theorem C66_slice_reversed : forall n, positions n (mkS None None (Some (-1)%Z)) = Some (rev (seq 0 n)).
Proof.
  intros n. unfold positions. simpl. f_equal.
  assert (L : Z.to_nat (if (-1 <? Z.of_nat n - 1)%Z then ((Z.of_nat n - 1 - -1 - 1) / 1 + 1)%Z else 0%Z) = n).
  { destruct (Z.ltb_spec (-1) (Z.of_nat n - 1)); [rewrite Z.div_1_r|]; lia. }
  rewrite L. apply (nth_ext _ _ 0%nat 0%nat); [rewrite map_length, rev_length; auto|].
  rewrite map_length, seq_length. intros i Hi.
  rewrite (nth_indep _ 0%nat ((fun i => Z.to_nat (Z.of_nat n - 1 + Z.of_nat i * -1)) 0%nat)) by (rewrite map_length, seq_length; auto).
  rewrite (map_nth (fun i => Z.to_nat (Z.of_nat n - 1 + Z.of_nat i * -1))), seq_nth by auto.
  rewrite rev_nth by (rewrite seq_length; auto). rewrite seq_length, seq_nth by lia. lia.
Qed.
(** Casewise results of a slice are the corresponding entries of the casewise results of all cases. *)
Theorem C66_slice_rows :
  forall m kids s sl idx, tree_slots (x_st (m_x m)) kids -> positions (m_n m) sl = Some idx ->
  exists ll dll, length ll = m_n m /\ length dll = m_n m /\
    transcript m s [OCall Qll_casewise None null_slice] = [SNums ll] /\
    transcript m s [OCall Qll_casewise None sl] = [SNums (map (fun i => nth i ll None) idx)] /\
    transcript m s [OCall Qdll_casewise None null_slice] = [SVecs dll] /\
    transcript m s [OCall Qdll_casewise None sl] = [SVecs (map (fun i => nth i dll (fun _ => 0)) idx)].
Proof.
  intros m kids s sl idx T H. rewrite !(transcript_expected m kids T).
  cbn [expected expected_one par_after answer]. rewrite H, positions_all.
  eexists. eexists. split; [|split; [|split; [reflexivity|split; [|split; [reflexivity|]]]]].
  - rewrite map_length, seq_length. auto.
  - rewrite map_length, seq_length. auto.
  - f_equal. f_equal. apply map_ext_in. intros i Hi. apply (positions_range _ _ _ _ H) in Hi.
    set (F := fun i => scale_o (m_norm m) (case_ll m (v_int s) (v_par s) i)).
    rewrite (nth_indep _ None (F 0%nat)) by (rewrite map_length, seq_length; auto).
    change (F i = nth i (map F (seq 0 (m_n m))) (F 0%nat)). rewrite map_nth, seq_nth by auto. auto.
  - f_equal. f_equal. apply map_ext_in. intros i Hi. apply (positions_range _ _ _ _ H) in Hi.
    set (F := fun i p => m_norm m * case_dll m (dpen_of m (v_int s) (v_par s)) (v_par s) i p).
    rewrite (nth_indep _ (fun _ => 0) (F 0%nat)) by (rewrite map_length, seq_length; auto).
    change (F i = nth i (map F (seq 0 (m_n m))) (F 0%nat)). rewrite map_nth, seq_nth by auto. auto.
Qed.
(** Log likelihood, gradient and bhhh of slices that share the cases out among them add up to those of all cases. *)
Theorem C66_parts_add :
  forall m kids s sls idxs, tree_slots (x_st (m_x m)) kids ->
  map (positions (m_n m)) sls = map Some idxs -> Permutation (concat idxs) (seq 0 (m_n m)) ->
  exists (lls : list (option R)) (dlls : list (nat -> R)) (bhs : list (nat -> nat -> R)),
    map (fun sl => transcript m s [OCall Qll None sl]) sls = map (fun x => [SNum x]) lls /\
    transcript m s [OCall Qll None null_slice] = [SNum (sum_all lls)] /\
    map (fun sl => transcript m s [OCall Qdll None sl]) sls = map (fun x => [SVec x]) dlls /\
    transcript m s [OCall Qdll None null_slice] = [SVec (fun p => Rsum (fun d => d p) dlls)] /\
    map (fun sl => transcript m s [OCall Qbhhh None sl]) sls = map (fun x => [SMat x]) bhs /\
    transcript m s [OCall Qbhhh None null_slice] = [SMat (fun p q => Rsum (fun b => b p q) bhs)].
Proof.
  intros m kids s sls idxs T E Hperm.
  set (k := v_int s). set (par := v_par s). set (c := m_norm m). set (d := dpen_of m k par).
  set (LL := fun idx => scale_o c (total (case_ll m k par) idx)).
  set (DL := fun idx p => c * Rsum (fun i => case_dll m d par i p) idx).
  set (BH := fun idx p r => c * Rsum (fun i => case_bhhh m k d par i p r) idx).
  exists (map LL idxs), (map DL idxs), (map BH idxs).
  assert (G : forall q (F : list nat -> seen), (forall idx, answer m k par q idx = F idx) ->
    map (fun sl => transcript m s [OCall q None sl]) sls = map (fun idx => [F idx]) idxs).
  { intros q F HF. clear Hperm. revert idxs E. induction sls as [|sl sls IH]; intros [|idx idxs] E; try discriminate; auto.
    cbn [map] in *. injection E as E1 E2. rewrite (IH _ E2). f_equal.
    rewrite (transcript_expected m kids T). cbn [expected expected_one par_after]. rewrite E1. fold k par. rewrite HF. auto. }
  split; [|split; [|split; [|split; [|split]]]].
  - rewrite map_map. apply (G Qll (fun idx => SNum (LL idx))). auto.
  - rewrite (transcript_expected m kids T). cbn [expected expected_one par_after]. rewrite positions_all.
    cbn [answer]. fold k par c. f_equal. f_equal.
    transitivity (scale_o c (total (case_ll m k par) (concat idxs))).
    { unfold total. rewrite (sum_all_perm _ _ (Permutation_map _ Hperm)). auto. }
    rewrite total_concat, scale_sum, map_map. auto.
  - rewrite map_map. apply (G Qdll (fun idx => SVec (DL idx))). auto.
  - rewrite (transcript_expected m kids T). cbn [expected expected_one par_after]. rewrite positions_all.
    cbn [answer]. fold k par c d. f_equal. f_equal. apply functional_extensionality. intros p.
    rewrite <- (Rsum_perm _ _ _ Hperm), Rsum_concat, <- Rsum_scal, Rsum_map. auto.
  - rewrite map_map. apply (G Qbhhh (fun idx => SMat (BH idx))). auto.
  - rewrite (transcript_expected m kids T). cbn [expected expected_one par_after]. rewrite positions_all.
    cbn [answer]. fold k par c d. f_equal. f_equal. apply functional_extensionality. intros p. apply functional_extensionality. intros q.
    rewrite <- (Rsum_perm _ _ _ Hperm), Rsum_concat, <- Rsum_scal, Rsum_map. auto.
Qed.
(** The slices of jumpstart_bhhh (every kth case, from the 0th to the (k-1)th, model.py 1885-1892) share the cases
    out, for any number of cases and any k. *)
Theorem C66_interleaved_slices_share :
  forall n k, (0 < k)%nat -> exists idxs,
  map (positions n) (map (fun j => mkS (Some (Z.of_nat j)) None (Some (Z.of_nat k))) (seq 0 k)) = map Some idxs /\
  Permutation (concat idxs) (seq 0 n).
Proof. intros n k Hk. exact (comb_cover n k Hk). Qed.
(** So do [:z] and [z:], for any integer z. *)
Theorem C66_cut_shares :
  forall n z, exists idxs, map (positions n) [mkS None (Some z) None; mkS (Some z) None None] = map Some idxs /\
  Permutation (concat idxs) (seq 0 n).
Proof.
  intros n z. destruct (positions_cut n z) as (l1 & l2 & E1 & E2 & E). exists [l1; l2]. simpl. rewrite E1, E2. split; auto.
  rewrite app_nil_r, E. apply Permutation_refl.
Qed.
Example C66_interleaved_case : map (positions 5) (map (comb 2) (seq 0 2)) = map Some [[0; 2; 4]; [1; 3]]%nat.
Proof. reflexivity. Qed.
(** The documented defaults ("start 0", "stop -1", "step 1: to include all cases") leave out the last case. *)
Theorem C66_documented_defaults_refuted :
  forall n, (0 < n)%nat ->
  positions n (mkS (Some 0%Z) (Some (-1)%Z) (Some 1%Z)) = Some (seq 0 (n - 1)) /\ positions n null_slice = Some (seq 0 n).
Proof.
  intros n Hn. split; [|apply positions_all].
  destruct (positions_selected n (mkS (Some 0%Z) (Some (-1)%Z) (Some 1%Z))) as (idx & E & S1 & M); [reflexivity|]. rewrite E. f_equal.
  apply sorted_unique; auto; [apply seq_sorted|]. intros i. rewrite M, in_seq. unfold selected. cbn [s_start s_stop s_step]. rewrite Z.mod_1_r. unfold limit. cbn [Z.ltb Z.compare]. lia.
Qed.
(** leave_out, keep_only and subsample are accepted by loglike2 and have no effect. *)
Theorem C66_leave_out_ignored_refuted :
  forall m kids s a b c a' b' c' x sl, tree_slots (x_st (m_x m)) kids ->
  transcript m s [OCall (Qll2 a b c) x sl] = transcript m s [OCall (Qll2 a' b' c') x sl].
Proof. intros m kids s a b c a' b' c' x sl T. rewrite !(transcript_expected m kids T). auto. Qed.

(** ---------------------------------------------------------------- penalties *)
(** With a penalty, the log likelihood of a slice is lowered by the penalty once per case of the slice, and its
    gradient by the derivative of the penalty once per case. *)
Theorem C66_penalty_counts_once_per_case :
  forall m kids s s0 sl idx, tree_slots (x_st (m_x m)) kids -> positions (m_n m) sl = Some idx ->
  v_par s = v_par s0 -> v_int s <> 0 -> v_int s0 = 0 ->
  exists ll dll, transcript m s0 [OCall (Qll2 (-1) (-1) (-1)) None sl] = [SLl2 ll dll] /\
  let '(pen, dpen, _) := m_pen m (v_int s) (v_par s) in
  transcript m s [OCall (Qll2 (-1) (-1) (-1)) None sl] =
    [SLl2 (match ll with Some v => Some (v + m_norm m * (INR (length idx) * pen)) | None => None end)
          (fun p => dll p + m_norm m * (INR (length idx) * dpen p))].
Proof.
  intros m kids s s0 sl idx T H Hp Hk H0. rewrite !(transcript_expected m kids T).
  cbn [expected expected_one par_after answer]. rewrite H, H0, <- Hp. eexists. eexists. split; [reflexivity|].
  destruct (m_pen m (v_int s) (v_par s)) as [[pen d] b] eqn:E. f_equal. f_equal.
  - unfold total, sum_all. set (F0 := case_ll m 0 (v_par s)). set (F := case_ll m (v_int s) (v_par s)).
    assert (K : forall i, F i = match F0 i with Some v => Some (v + pen) | None => None end).
    { intros i. unfold F, F0, case_ll, pen_of. rewrite E. simpl. destruct (Req_EM_T (v_int s) 0); [contradiction|]. destruct (Req_EM_T 0 0); [|lra].
      destruct (r_loglike (one m (v_par s) i)); auto. f_equal. lra. }
    replace (forallb is_fin (map F idx)) with (forallb is_fin (map F0 idx)).
    2:{ clear - K. induction idx as [|i idx IH]; auto. cbn [map forallb]. rewrite IH, K. destruct (F0 i); auto. }
    destruct (forallb is_fin (map F0 idx)) eqn:Ef; auto. simpl. f_equal.
    assert (S1 : Rsum val (map F idx) = Rsum val (map F0 idx) + INR (length idx) * pen).
    { clear - K Ef. induction idx as [|i idx IH]; [simpl; lra|]. cbn [map forallb Rsum fold_right length] in *.
      apply andb_true_iff in Ef as [E1 E2]. fold (Rsum val (map F idx)). fold (Rsum val (map F0 idx)). rewrite (IH E2), K, S_INR.
      destruct (F0 i); [|discriminate]. simpl. lra. }
    rewrite S1. lra.
  - apply functional_extensionality. intros p. rewrite <- Rmult_plus_distr_l. f_equal.
    assert (S1 : Rsum (fun i => case_dll m (dpen_of m (v_int s) (v_par s)) (v_par s) i p) idx =
      Rsum (fun i => case_dll m (dpen_of m 0 (v_par s)) (v_par s) i p + d p) idx).
    { apply Rsum_ext. intros i _. unfold case_dll, dpen_of. rewrite E. simpl.
      destruct (Req_EM_T (v_int s) 0); [contradiction|]. destruct (Req_EM_T 0 0); lra. }
    rewrite S1, Rsum_plus. f_equal. clear. induction idx as [|i idx IH]; [simpl; lra|].
    cbn [length Rsum fold_right]. fold (Rsum (fun _ : nat => d p) idx). rewrite IH, S_INR. lra.
Qed.
(** A penalty that is zero, with zero derivative, still changes the bhhh matrix: a case's weight is counted twice.  For
    one case with one chosen alternative the matrix is multiplied by the weight. *)
Theorem C66_zero_penalty_squares_weights_refuted :
  forall m kids s s0 a, tree_slots (x_st (m_x m)) kids -> m_n m = 1%nat ->
  (a < n_alts (x_st (m_x m)))%nat -> (forall b, (b < n_alts (x_st (m_x m)))%nat -> dc_ch (m_case m 0%nat) b = if (b =? a)%nat then 1 else 0) ->
  v_par s = v_par s0 -> v_int s0 = 0 -> v_int s <> 0 -> (forall p, snd (fst (m_pen m (v_int s) (v_par s))) p = 0) ->
  exists B, transcript m s0 [OCall Qbhhh None null_slice] = [SMat B] /\
            transcript m s [OCall Qbhhh None null_slice] = [SMat (fun p q => dc_wt (m_case m 0%nat) * B p q)].
Proof.
  intros m kids s s0 a T H1 Ha Hc Hp H0 Hk Hd. rewrite !(transcript_expected m kids T).
  cbn [expected expected_one par_after answer]. rewrite H0, <- Hp, positions_all, H1. eexists. split; [reflexivity|].
  f_equal. f_equal. apply functional_extensionality. intros p. apply functional_extensionality. intros q.
  cbn [seq Rsum fold_right].
  destruct (C08_single_choice_outer_product (x_st (m_x m)) kids (v_par s)
    (fst (utilities (v_par s) (x_hold (m_x m)) (n_alts (x_st (m_x m))) (x_q (m_x m)) (x_qs (m_x m)) (x_ca (m_x m)) (x_co (m_x m)) (dc_av (m_case m 0%nat)) (dc_data (m_case m 0%nat)) (dc_co (m_case m 0%nat))))
    (snd (utilities (v_par s) (x_hold (m_x m)) (n_alts (x_st (m_x m))) (x_q (m_x m)) (x_qs (m_x m)) (x_ca (m_x m)) (x_co (m_x m)) (dc_av (m_case m 0%nat)) (dc_data (m_case m 0%nat)) (dc_co (m_case m 0%nat))))
    (dc_av (m_case m 0%nat)) (dc_ch (m_case m 0%nat)) (dc_wt (m_case m 0%nat)) (fun _ => None) (fun _ => 0) a T Ha Hc) as (g & G1 & G2).
  fold (one m (v_par s) 0%nat) in G1, G2. cbv zeta in G1, G2.
  unfold case_bhhh. destruct (Req_EM_T 0 0) as [_|]; [|lra]. destruct (Req_EM_T (v_int s) 0) as [|_]; [contradiction|].
  unfold case_dll, dpen_of. destruct (Req_EM_T (v_int s) 0) as [|_]; [contradiction|].
  rewrite !Hd. unfold one, master. rewrite !G1, G2. ring.
Qed.

(** ---------------------------------------------------------------- quantity *)
(** For dense data [quantity] returns the size of each available alternative and zero for the others. *)
Lemma dense_skip (av : nat -> bool) l : forall (s : ustate) a, av a = true ->
  fst (fold_left (fun s j => if av j then s else (upd (fst s) j None, snd s)) l s) a = fst s a.
Proof.
  induction l as [|j l IH]; intros s a Ha; simpl; auto. rewrite IH by auto.
  destruct (av j) eqn:Ej; auto. simpl. apply upd_neq. congruence.
Qed.
Lemma dense_none (av : nat -> bool) f l : forall (s : ustate) a, av a = false ->
  (forall j s, j <> a -> fst (f j s) a = fst s a) -> In a l \/ fst s a = None ->
  fst (fold_left (fun s j => if av j then f j s else (upd (fst s) j None, snd s)) l s) a = None.
Proof.
  induction l as [|j l IH]; intros s a Ha Hf Hin; simpl.
  - destruct Hin as [[]|]; auto.
  - apply IH; auto. destruct (Nat.eq_dec j a) as [-> |Hj].
    + right. rewrite Ha. simpl. apply upd_eq.
    + destruct Hin as [[|Hin]|Hn]; [congruence|auto|]. right. destruct (av j).
      * rewrite Hf; auto.
      * simpl. rewrite upd_neq; auto.
Qed.
Theorem C66_quantity_is_size :
  forall x par c (ca : nat -> nat -> R) a, dc_data c = Dense ca -> (a < n_alts (x_st x))%nat -> x_q x <> [] ->
  (forall b, (b < n_alts (x_st x))%nat -> dc_av c b = true -> 0 < size (x_q x) (ca b) par) ->
  q_scale_value par (x_qs x) <> 0 ->
  quantity_values x par c a = Some (if dc_av c a then size (x_q x) (ca a) par else 0).
Proof.
  intros x par c ca a Hd Ha Hq Hs Hsc. unfold quantity_values. rewrite Hd.
  destruct (Nat.ltb_spec a (n_alts (x_st x))); [|lia]. f_equal.
  destruct (dc_av c a) eqn:Ea.
  - assert (E := C13_size_value par (x_hold x) (n_alts (x_st x)) (x_q x) (x_qs x) [] [] (dc_av c) ca (fun _ => 0) a Ha Ea).
    assert (E2 := E ltac:(auto)). clear E. unfold utilities, utility_from_data_co, utility_from_data_ca, dense in E2. cbn [fold_left] in E2.
    unfold ca_alt in E2. cbn [fold_left] in E2. rewrite (dense_skip (dc_av c)) in E2 by auto. rewrite E2.
    unfold total_utility, log_size, linear_ca, linear_co. cbn [Rsum fold_right].
    destruct (x_q x) as [|t q] eqn:Eq; [congruence|]. rewrite <- Eq in *.
    replace (((match x_qs x with Some s => par s | None => 1 end * ln (size (x_q x) (ca a) par) + 0 + 0) / q_scale_value par (x_qs x)))
      with (ln (size (x_q x) (ca a) par)).
    + apply exp_ln. auto.
    + unfold q_scale_value in *. destruct (x_qs x); field; auto.
  - assert (E : fst (quantity_from_data_ca par (x_hold x) (n_alts (x_st x)) (x_q x) (x_qs x) (dc_av c) (Dense ca) (fun _ => Some 0, fun _ _ => 0)) a = None).
    { unfold quantity_from_data_ca, dense. apply (dense_none (dc_av c)); auto.
      - intros j s Hj. unfold q_alt. destruct (x_q x) as [|t q] eqn:Eq; auto.
        assert (G : forall l (s : ustate), fst (fold_left (q_step par (x_hold x) (x_qs x) j (ca j)) l s) a = fst s a).
        { induction l as [|t' l IH]; intros s'; simpl; auto. rewrite IH. destruct s' as [U D]. unfold q_step. simpl. unfold addU. apply upd_neq. auto. }
        specialize (G (t :: q) s). destruct (fold_left (q_step par (x_hold x) (x_qs x) j (ca j)) (t :: q) s) as [U1 D1]. simpl in *. rewrite upd_neq by auto. auto.
      - left. apply in_seq. lia. }
    rewrite E. auto.
Qed.
(** For sparse data an alternative without a row gets size one, not zero. *)
Theorem C66_absent_quantity_refuted :
  exists x par c, dc_data c = Sparse [(0%nat, fun _ => 5)] /\ n_alts (x_st x) = 2%nat /\ dc_av c 1%nat = false /\
  quantity_values x par c 1%nat = Some 1.
Proof.
  exists (mkX ex_flat (fun _ => false) [mkTerm 1 0 0] None [] []), (fun _ => 0),
    (mkC (fun a => (a =? 0)%nat) (fun _ => 0) 1 (Sparse [(0%nat, fun _ => 5)]) (fun _ => 0)).
  split; auto. split; auto. split; auto. unfold quantity_values. simpl. f_equal. replace (0 / 1) with 0 by lra. apply exp_0.
Qed.

(** ---------------------------------------------------------------- labels *)
(** A model with labels for its data: ids for the cases, codes and names for the nodes. *)
Definition labels_fit (m : nmodel) (lab : labels) (ids : list Z) : Prop :=
  l_ids lab = Some ids /\ length ids = m_n m /\ length (l_codes lab) = n_nodes (x_st (m_x m)) /\
  length (l_names lab) = n_nodes (x_st (m_x m)).
(** The columns of an answer. *)
Definition width (m : nmodel) (q : query) : nat :=
  match q with Qprob false => n_alts (x_st (m_x m)) | Qprob true | Qutil | Qquant => n_nodes (x_st (m_x m)) | _ => 0 end.
Lemma wrap_frame m lab ids sl idx w (f : nat -> nat -> option R) (lbl : list Z) :
  labels_fit m lab ids -> positions (m_n m) sl = Some idx -> length lbl = n_nodes (x_st (m_x m)) -> (w <= n_nodes (x_st (m_x m)))%nat ->
  take 0%Z sl ids = Some (map (fun i => nth i ids 0%Z) idx) /\
  make_frame (map (fun i => nth i ids 0%Z) idx) (firstn w lbl) w (map (fun i => map (f i) (seq 0 w)) idx) =
  WFrame (map (fun i => nth i ids 0%Z) idx) (firstn w lbl) (map (fun i => map (f i) (seq 0 w)) idx).
Proof.
  intros (H1 & H2 & H3 & H4) Hp Hl Hw. unfold take. rewrite H2, Hp. split; auto.
  unfold make_frame. rewrite !map_length, Nat.eqb_refl, firstn_length, Hl, Nat.min_l, Nat.eqb_refl by auto. auto.
Qed.
Lemma table_answer m kids s q x sl s' r idx : tree_slots (x_st (m_x m)) kids -> (exists b, q = Qprob b) \/ q = Qutil ->
  step m s (OCall q x sl) = (s', r) -> positions (m_n m) sl = Some idx ->
  exists g f, r = RView g f (seq 0 (width m q)) idx /\
  look s' r = answer m (v_int s) (match x with Some v => v | None => v_par s end) q idx.
Proof.
  intros T Hq E Hp. cbn [step] in E. destruct (runner m s x (flags_of q) sl) as [s1 [l|]] eqn:Er.
  - injection E as <- <-. rewrite (call_answer m kids T _ _ _ _ _ _ Er).
    destruct (runner_rows _ _ _ _ _ _ _ Er) as [Hp' _]. rewrite Hp in Hp'. injection Hp' as <-.
    destruct Hq as [[b ->]| ->]; [exists (v_gen s1), FProb; destruct b|exists (v_gen s1), FUtil]; simpl; auto.
  - apply runner_error in Er as [Er _]. congruence.
Qed.
(** The labelled forms of [probability] and [utility]: each row carries the id of its own case, each column the code (or
    name) of its own node, for every slice. *)
Definition row_values (m : nmodel) (par : nat -> R) (q : query) (i a : nat) : option R :=
  match q with Qprob _ => Some (r_prob (one m par i) a) | _ => r_utility (one m par i) a end.
Theorem C66_frames_are_labelled_rightly :
  forall m kids lab ids s q x sl idx, tree_slots (x_st (m_x m)) kids -> labels_fit m lab ids ->
  (exists b, q = Qprob b) \/ q = Qutil -> positions (m_n m) sl = Some idx ->
  let par := match x with Some v => v | None => v_par s end in
  let w := width m q in
  let rows := map (fun i => map (row_values m par q i) (seq 0 w)) idx in
  let caseids := map (fun i => nth i ids 0%Z) idx in
  snd (labelled m lab q x sl FmtFrame s) = WFrame caseids (firstn w (l_codes lab)) rows /\
  snd (labelled m lab q x sl FmtNames s) = WFrame caseids (firstn w (l_names lab)) rows /\
  (w = n_nodes (x_st (m_x m)) -> snd (labelled m lab q x sl FmtDataArray s) = WFrame caseids (l_codes lab) rows) /\
  snd (labelled m lab q x sl FmtIdca s) =
    WSeries (flat_map (fun i => map (fun a => (nth i ids 0%Z, nth a (l_codes lab) 0%Z, row_values m par q i a)) (seq 0 w)) idx).
Proof.
  intros m kids lab ids s q x sl idx T L Hq Hp par w rows caseids.
  unfold labelled. destruct (step m s (OCall q x sl)) as [s' r] eqn:E.
  destruct (table_answer m kids s q x sl s' r idx T Hq E Hp) as (g & f & Hr & Ha). fold par in Ha. fold w in Hr.
  assert (Hw : (w <= n_nodes (x_st (m_x m)))%nat).
  { assert (R1 := ts_root _ _ T). unfold w. destruct Hq as [[[|] ->]| ->]; simpl; lia. }
  assert (Ea : answer m (v_int s) par q idx = STable rows).
  { unfold rows, w. destruct Hq as [[[|] ->]| ->]; reflexivity. }
  rewrite Ha, Ea, Hr. cbn [snd]. rewrite seq_length.
  assert (Esl : match q with Qquant => null_slice | _ => sl end = sl) by (destruct Hq as [[b ->]| ->]; auto). rewrite Esl.
  destruct (wrap_frame m lab ids sl idx w (row_values m par q) (l_codes lab) L Hp (proj1 (proj2 (proj2 L))) Hw) as [Tk Mc].
  destruct (wrap_frame m lab ids sl idx w (row_values m par q) (l_names lab) L Hp (proj2 (proj2 (proj2 L))) Hw) as [_ Mn].
  fold caseids rows in Tk, Mc, Mn.
  unfold wrap. rewrite (proj1 L), Tk. rewrite Mc, Mn. split; auto. split; auto. split.
  - intros Ew. rewrite firstn_all2 in Mc; auto. rewrite (proj1 (proj2 (proj2 L))). lia.
  - f_equal. unfold stack, caseids, rows. clear - Hw L.
    assert (Hc : firstn w (l_codes lab) = map (fun a => nth a (l_codes lab) 0%Z) (seq 0 w)).
    { apply (nth_ext _ _ 0%Z 0%Z). { rewrite firstn_length, map_length, seq_length, (proj1 (proj2 (proj2 L))). lia. }
      intros i Hi. rewrite firstn_length in Hi.
      rewrite (nth_indep (map _ _) 0%Z ((fun a => nth a (l_codes lab) 0%Z) 0%nat)) by (rewrite map_length, seq_length; lia).
      rewrite (map_nth (fun a => nth a (l_codes lab) 0%Z)), seq_nth by lia. simpl.
      rewrite <- (firstn_skipn w (l_codes lab)) at 2. rewrite app_nth1; auto. rewrite firstn_length. lia. }
    rewrite Hc. induction idx as [|i idx IH]; auto. cbn [map combine flat_map]. rewrite <- IH. f_equal. cbn [fst snd].
    generalize (seq 0 w) as l. induction l as [|a l IHl]; auto. cbn [map combine]. rewrite IHl. auto.
Qed.
(** [quantity] with labels fails for a slice that leaves cases out. *)
Theorem C66_quantity_slice_refuted :
  forall m kids lab ids s x sl idx fmt, tree_slots (x_st (m_x m)) kids -> labels_fit m lab ids ->
  positions (m_n m) sl = Some idx -> length idx <> m_n m -> fmt <> FmtNone ->
  snd (labelled m lab Qquant x sl fmt s) = WRaise.
Proof.
  intros m kids lab ids s x sl idx fmt T (L1 & L2 & L3 & L4) Hp Hn Hf.
  unfold labelled. cbn [step]. destruct (runner m s x (flags_of Qquant) sl) as [s1 [l|]] eqn:Er.
  2:{ apply runner_error in Er as [Er _]. congruence. }
  destruct (runner_rows _ _ _ _ _ _ _ Er) as [Hp' _]. rewrite Hp in Hp'. injection Hp' as <-.
  cbn [reply look snd]. unfold wrap. rewrite L1. unfold take. rewrite positions_all, L2.
  assert (Ms : forall cols w rows, length rows = length idx -> make_frame (map (fun i => nth i ids 0%Z) (seq 0 (m_n m))) cols w rows = WRaise).
  { intros cols w rows Hl. unfold make_frame. rewrite map_length, seq_length. destruct (Nat.eqb_spec (m_n m) (length rows)); auto. congruence. }
  destruct fmt; auto; try congruence; rewrite Ms by (rewrite map_length; auto); auto.
Qed.
(** [probability] without nests cannot be returned as a DataArray: the node codes include the nests. *)
Theorem C66_probability_dataarray_refuted :
  forall m kids lab ids s x sl idx, tree_slots (x_st (m_x m)) kids -> labels_fit m lab ids ->
  positions (m_n m) sl = Some idx -> snd (labelled m lab (Qprob false) x sl FmtDataArray s) = WRaise.
Proof.
  intros m kids lab ids s x sl idx T (L1 & L2 & L3 & L4) Hp.
  unfold labelled. cbn [step]. destruct (runner m s x (flags_of (Qprob false)) sl) as [s1 [l|]] eqn:Er.
  2:{ apply runner_error in Er as [Er _]. congruence. }
  cbn [reply look snd]. unfold wrap. rewrite L1. unfold take. rewrite L2, Hp.
  unfold make_frame. rewrite L3, seq_length. assert (R1 := ts_root _ _ T).
  destruct (Nat.eqb_spec (n_nodes (x_st (m_x m))) (n_alts (x_st (m_x m)))); [lia|]. rewrite andb_false_r. auto.
Qed.
(** The 'idce' form needs a DataFrames object, which a model with a datatree does not have. *)
Theorem C66_idce_refuted :
  forall m lab s q x sl, l_av lab = None -> snd (labelled m lab q x sl FmtIdce s) = WRaise.
Proof.
  intros m lab s q x sl H. unfold labelled. destruct (step m s (OCall q x sl)) as [s' r]. cbn [snd].
  destruct (look s' r); auto. destruct r; auto. unfold wrap. destruct (match l_ids lab with Some _ => _ | None => _ end); auto.
  unfold make_frame. destruct (_ && _)%bool; auto. rewrite H. auto.
Qed.
(** Cases that meet the hypotheses above: labels for the example; a model with one weighted case and a penalty that is
    zero; a size of 3; a slice that leaves one of two cases out. *)
Example ex_labels : labels_fit ex_m (mkLab (Some [10; 20]%Z) [1; 2; 0]%Z [7; 8; 9]%Z None) [10; 20]%Z.
Proof. repeat split. Qed.
Example ex_zero_penalty : let m := mkM ex_fixed 1 (fun _ => ex_dcase 2 1) (fun _ _ => (0, fun _ => 0, fun _ => 0)) 1 in
  tree_slots (x_st (m_x m)) ex_flat_kids /\ m_n m = 1%nat /\
  (forall b, (b < n_alts (x_st (m_x m)))%nat -> dc_ch (m_case m 0%nat) b = if (b =? 1)%nat then 1 else 0) /\
  dc_wt (m_case m 0%nat) = 2 /\ (forall k v p, snd (fst (m_pen m k v)) p = 0).
Proof. split; [apply ex_flat_tree|]. repeat split. Qed.
Example ex_size : quantity_values (mkX ex_flat (fun _ => false) [mkTerm 1 0 0] None [] []) (fun _ => 0)
  (mkC (fun a => (a =? 0)%nat) (fun _ => 0) 1 (Dense (fun _ _ => 3)) (fun _ => 0)) 0%nat = Some 3.
Proof.
  rewrite (C66_quantity_is_size _ _ _ (fun _ _ => 3)); simpl; auto; unfold size; simpl; try congruence; intros; rewrite ?exp_0; try lra.
  f_equal. lra.
Qed.
Example ex_left_out : positions (m_n ex_m) (mkS (Some 1%Z) None None) = Some [1%nat].
Proof. reflexivity. Qed.
