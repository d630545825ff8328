From Coq Require Import FunctionalExtensionality Permutation.
From Verif Require Export SessSpec.
From Verif Require Import LogitProofs LogitRun LogitProps.

(** ---- the results of a case do not depend on what the output arrays held ---- *)
Section Indep.
Variable st : slots.
Variable kids : nat -> list nat.
Hypothesis T : tree_slots st kids.
Notation n := (n_nodes st).

Lemma logprob_ll_indep par U ch wt L : forall lp lp' ll,
  snd (fold_left (logprob_step st par U ch wt) L (lp, ll)) = snd (fold_left (logprob_step st par U ch wt) L (lp', ll)).
Proof.
  induction L as [|[up dn] L IH]; intros lp lp' ll; simpl; auto.
Qed.
Lemma logprob_lp_indep par U ch wt L : forall lp lp' ll (S : nat -> Prop),
  (forall k, S k -> lp k = lp' k) -> forall k, S k \/ In k (map snd L) ->
  fst (fold_left (logprob_step st par U ch wt) L (lp, ll)) k = fst (fold_left (logprob_step st par U ch wt) L (lp', ll)) k.
Proof.
  induction L as [|[up dn] L IH]; intros lp lp' ll S H k Hk; simpl.
  - destruct Hk as [Hk|[]]. auto.
  - apply (IH _ _ _ (fun j => S j \/ j = dn)).
    + intros j [Hj | ->]; unfold upd; [|rewrite Nat.eqb_refl; auto]. destruct (j =? dn)%nat; auto.
    + simpl in Hk. destruct Hk as [Hk|[Hk|Hk]]; auto.
Qed.
Lemma prob_indep avx cp cp' P P' : (forall k, In k (map snd (edges st)) -> cp k = cp' k) ->
  forall k, (k < n)%nat -> probabilities st avx cp P k = probabilities st avx cp' P' k.
Proof.
  intros Hcp. unfold probabilities.
  assert (G : forall a b, rev (edges st) = a ++ b -> forall k, k = (n - 1)%nat \/ In k (map snd a) ->
    fold_left (prob_step avx cp) a (upd P (n - 1) 1) k = fold_left (prob_step avx cp') a (upd P' (n - 1) 1) k).
  { intros a. induction a as [|e a IH] using rev_ind; intros b E k Hk.
    - destruct Hk as [-> |[]]. simpl. rewrite !upd_eq. auto.
    - rewrite !fold_left_app. simpl. rewrite <- app_assoc in E. simpl in E.
      destruct (rev_order st kids T a e b E) as [Hne Hb]. destruct e as [up dn]. simpl in Hne, Hb.
      assert (Hin : In (up, dn) (edges st)).
      { apply in_rev. rewrite E. apply in_or_app. right. left. auto. }
      assert (Hup : fold_left (prob_step avx cp) a (upd P (n - 1) 1) up = fold_left (prob_step avx cp') a (upd P' (n - 1) 1) up).
      { apply (IH _ E). apply (in_edges_iff st kids T) in Hin as [Hup _].
        destruct (Nat.eq_dec up (n - 1)); auto. right.
        destruct (parent_ex st kids T up) as [g [Hg Hgk]]; [lia|].
        assert (Hu : In (g, up) (rev (edges st))). { apply -> in_rev. apply (in_edges_iff st kids T). auto. }
        rewrite E in Hu. apply in_app_or in Hu as [Hu|[Hu|Hu]].
        + apply in_map_iff. exists (g, up). auto.
        + injection Hu as -> ->. congruence.
        + destruct Hb. apply in_map_iff. exists (g, up). auto. }
      assert (Hc : cp dn = cp' dn). { apply Hcp. apply in_map_iff. exists (up, dn). auto. }
      assert (Ho : k <> dn -> k = (n - 1)%nat \/ In k (map snd a)).
      { intros Hd. destruct Hk as [Hk|Hk]; auto. rewrite map_app in Hk. apply in_app_or in Hk as [Hk|[Hk|[]]]; auto. simpl in Hk. congruence. }
      simpl. destruct (avx dn).
      + destruct (Nat.eq_dec k dn) as [-> |Hd]; [rewrite !upd_eq; rewrite Hup, Hc; auto|].
        rewrite !upd_neq by auto. apply (IH _ E). auto.
      + destruct (Nat.eq_dec k dn) as [-> |Hd]; [rewrite !upd_eq; auto|].
        rewrite !upd_neq by auto. apply (IH _ E). auto. }
  intros k Hk. apply (G (rev (edges st)) []). { rewrite app_nil_r. auto. }
  destruct (Nat.eq_dec k (n - 1)); auto. right.
  destruct (parent_ex st kids T k) as [g [Hg Hgk]]; [lia|].
  apply in_map_iff. exists (g, k). split; auto. apply -> in_rev. apply (in_edges_iff st kids T). auto.
Qed.
Lemma dutil_indep par avx U cp cp' D : (forall k, In k (map snd (edges st)) -> cp k = cp' k) ->
  dutility_loop st par avx U cp D = dutility_loop st par avx U cp' D.
Proof.
  intros H. unfold dutility_loop. apply fold_ext_in. intros [up dn] D0 Hin. simpl.
  rewrite (H dn); auto. apply in_map_iff. exists (up, dn). auto.
Qed.
Lemma dprob_indep par ch U cp cp' P P' D : (forall k, In k (map snd (edges st)) -> cp k = cp' k) ->
  (forall k, (k < n)%nat -> P k = P' k) -> dprob_loop st par ch U cp P D = dprob_loop st par ch U cp' P' D.
Proof.
  intros H HP. unfold dprob_loop. apply fold_ext_in. intros [up dn] D0 Hin. apply in_rev in Hin. simpl.
  destruct (Req_EM_T (ch dn) 0); auto.
  rewrite (H dn) by (apply in_map_iff; exists (up, dn); auto).
  rewrite (HP up); auto. apply (in_edges_iff st kids T) in Hin. tauto.
Qed.
Lemma dll_indep ch P P' wt DP : (forall k, (k < n)%nat -> P k = P' k) -> dll_loop st ch P wt DP = dll_loop st ch P' wt DP.
Proof.
  intros HP. unfold dll_loop. apply fold_ext_in. intros a [d b] Hin. apply in_seq in Hin. simpl.
  rewrite (HP a); auto. assert (R := ts_root _ _ T). lia.
Qed.

(** The pieces of [run_case], from given contents. *)
Definition LP par u ch wt lp0 := logprob_loop st par (node_utilities st par u) (array_ch_cascade st ch) wt lp0.
Lemma cp_indep par u av ch wt lp0 lp0' k : In k (map snd (edges st)) ->
  cond_prob (array_av_cascade st av) (fst (LP par u ch wt lp0)) k = cond_prob (array_av_cascade st av) (fst (LP par u ch wt lp0')) k.
Proof.
  intros H. unfold cond_prob. destruct (array_av_cascade st av k); auto.
  unfold LP, logprob_loop. rewrite (logprob_lp_indep _ _ _ _ _ lp0 lp0' _ (fun _ => False)); auto. tauto.
Qed.
Lemma LP_ll par u ch wt lp0 lp0' : snd (LP par u ch wt lp0) = snd (LP par u ch wt lp0').
Proof. unfold LP, logprob_loop. apply logprob_ll_indep. Qed.
End Indep.

(** ---- the kernel ---- *)
Section Kern.
Variable x : fixed.
Variable kids : nat -> list nat.
Hypothesis T : tree_slots (x_st x) kids.
Variable par : nat -> R.
Variable c : dcase.
Notation st := (x_st x).
Let res := master st par (x_hold x) (x_q x) (x_qs x) (x_ca x) (x_co x) (dc_av c) (dc_data c) (dc_co c) (dc_ch c) (dc_wt c)
    (fun _ => None) (fun _ => 0).
Let us := utilities par (x_hold x) (n_alts st) (x_q x) (x_qs x) (x_ca x) (x_co x) (dc_av c) (dc_data c) (dc_co c).

Lemma res_util : r_utility res = node_utilities st par (fst us).
Proof. unfold res, master. apply out_utility. Qed.
Lemma kern_util f w : f_util f = 0%nat \/ f_util f = 2%nat -> w_util (kern x par f c w) = r_utility res.
Proof.
  intros H. rewrite res_util. unfold kern. fold us.
  destruct H as [-> | ->]; cbn [Nat.eqb]; auto.
  destruct (logprob_loop _ _ _ _ _ _) as [lp ll].
  destruct (f_prob f || f_grad f || f_bhhh f); auto. destruct (f_grad f || f_bhhh f); auto.
  destruct (dll_loop _ _ _ _ _) as [d b]. auto.
Qed.
Lemma kern_quant f w : f_util f = 3%nat -> w_util (kern x par f c w) = quantity_values x par c.
Proof. intros H. unfold kern. rewrite H. auto. Qed.
Lemma kern_ll f w : f_util f = 0%nat -> w_ll (kern x par f c w) = r_loglike res.
Proof.
  intros H. unfold res, master. rewrite out_loglike. fold us.
  change (logprob_loop st par (node_utilities st par (fst us)) (array_ch_cascade st (dc_ch c)) (dc_wt c) (fun _ => None))
    with (LP st par (fst us) (dc_ch c) (dc_wt c) (fun _ => None)).
  rewrite (LP_ll st par (fst us) (dc_ch c) (dc_wt c) _ (w_lp w)). unfold LP.
  unfold kern. rewrite H. cbn [Nat.eqb]. fold us.
  destruct (logprob_loop _ _ _ _ _ _) as [lp ll]. simpl.
  destruct (f_prob f || f_grad f || f_bhhh f); auto. destruct (f_grad f || f_bhhh f); auto.
  destruct (dll_loop _ _ _ _ _) as [d b]. auto.
Qed.
Lemma kern_prob f w : f_util f = 0%nat -> f_prob f || f_grad f || f_bhhh f = true ->
  forall k, (k < n_nodes st)%nat -> w_prob (kern x par f c w) k = r_prob res k.
Proof.
  intros H Hf k Hk. unfold res, master. rewrite out_prob. fold us.
  unfold kern. rewrite H. cbn [Nat.eqb]. fold us.
  assert (C := cp_indep st par (fst us) (dc_av c) (dc_ch c) (dc_wt c) (w_lp w) (fun _ => None)). unfold LP in C.
  destruct (logprob_loop _ _ _ _ _ (w_lp w)) as [lp ll]. simpl in C. rewrite Hf.
  assert (E : probabilities st (array_av_cascade st (dc_av c)) (cond_prob (array_av_cascade st (dc_av c)) lp) (w_prob w) k =
    probabilities st (array_av_cascade st (dc_av c)) (cond_prob (array_av_cascade st (dc_av c))
     (fst (logprob_loop st par (node_utilities st par (fst us)) (array_ch_cascade st (dc_ch c)) (dc_wt c) (fun _ => None)))) (fun _ => 0) k).
  { apply (prob_indep st kids T); auto. }
  destruct (f_grad f || f_bhhh f); auto. destruct (dll_loop _ _ _ _ _) as [d b]. auto.
Qed.
Lemma kern_deriv f w : f_util f = 0%nat -> f_grad f || f_bhhh f = true ->
  w_dll (kern x par f c w) = r_dloglike res /\ (f_bhhh f = true -> w_bh (kern x par f c w) = r_bhhh res).
Proof.
  intros H Hf. unfold res, master, run_case. fold us.
  unfold kern. rewrite H. cbn [Nat.eqb]. fold us.
  assert (C := cp_indep st par (fst us) (dc_av c) (dc_ch c) (dc_wt c) (w_lp w) (fun _ => None)). unfold LP in C.
  destruct (logprob_loop _ _ _ _ _ (w_lp w)) as [lp ll].
  destruct (logprob_loop _ _ _ _ _ (fun _ => None)) as [lp' ll']. simpl in C.
  replace (f_prob f || f_grad f || f_bhhh f) with true by (destruct (f_prob f), (f_grad f), (f_bhhh f); auto).
  rewrite Hf.
  rewrite (dutil_indep st par _ _ _ (cond_prob (array_av_cascade st (dc_av c)) lp')) by auto.
  assert (HP : forall k, (k < n_nodes st)%nat ->
    probabilities st (array_av_cascade st (dc_av c)) (cond_prob (array_av_cascade st (dc_av c)) lp) (w_prob w) k =
    probabilities st (array_av_cascade st (dc_av c)) (cond_prob (array_av_cascade st (dc_av c)) lp') (fun _ => 0) k).
  { apply (prob_indep st kids T). auto. }
  rewrite (dprob_indep st kids T par _ _ _ (cond_prob (array_av_cascade st (dc_av c)) lp') _ _ _ C HP).
  rewrite (dll_indep st kids T _ _ _ _ _ HP).
  destruct (dll_loop _ _ _ _ _) as [d b]. simpl. split; auto. intros ->. auto.
Qed.
(** What a call leaves alone. *)
Lemma kern_prob_kept f w : f_util f = 2%nat \/ f_util f = 3%nat \/ f_prob f || f_grad f || f_bhhh f = false ->
  w_prob (kern x par f c w) = w_prob w.
Proof.
  intros H. unfold kern. fold us.
  destruct (f_util f =? 3)%nat eqn:E3; auto. destruct (f_util f =? 1)%nat eqn:E1; auto.
  destruct (f_util f =? 2)%nat eqn:E2; auto.
  destruct (logprob_loop _ _ _ _ _ _) as [lp ll].
  destruct (f_prob f || f_grad f || f_bhhh f) eqn:Ef; auto.
  apply Nat.eqb_neq in E3, E2. destruct H as [H|[H|H]]; [congruence|congruence|discriminate].
Qed.
End Kern.

(** ---- slices ---- *)
Lemma positions_spec n s idx : positions n s = Some idx -> exists a step len, step <> 0%Z /\
  idx = map (fun i => Z.to_nat (a + Z.of_nat i * step)) (seq 0 len) /\
  forall i, (i < len)%nat -> (0 <= a + Z.of_nat i * step < Z.of_nat n)%Z.
Proof.
  unfold positions. set (step := match s_step s with Some z => z | None => 1%Z end).
  destruct (Z.eqb_spec step 0) as [|Hs]; [discriminate|]. intros [= <-].
  set (neg := (step <? 0)%Z).
  set (a := match s_start s with Some v => slice_end n neg v | None => if neg then (Z.of_nat n - 1)%Z else 0%Z end).
  set (b := match s_stop s with Some v => slice_end n neg v | None => if neg then (-1)%Z else Z.of_nat n end).
  set (len := if neg then (if (b <? a)%Z then ((a - b - 1) / (- step) + 1)%Z else 0%Z)
               else (if (a <? b)%Z then ((b - a - 1) / step + 1)%Z else 0%Z)).
  exists a, step, (Z.to_nat len). split; auto. split; auto.
  assert (Ha : if neg then (-1 <= a <= Z.of_nat n - 1)%Z else (0 <= a <= Z.of_nat n)%Z).
  { unfold a. destruct (s_start s) as [v|]; [unfold slice_end|destruct neg; lia].
    destruct neg; destruct (Z.ltb_spec v 0); try (destruct (Z.ltb_spec (v + Z.of_nat n) 0)); try (destruct (Z.leb_spec (Z.of_nat n) v)); lia. }
  assert (Hb : if neg then (-1 <= b <= Z.of_nat n - 1)%Z else (0 <= b <= Z.of_nat n)%Z).
  { unfold b. destruct (s_stop s) as [v|]; [unfold slice_end|destruct neg; lia].
    destruct neg; destruct (Z.ltb_spec v 0); try (destruct (Z.ltb_spec (v + Z.of_nat n) 0)); try (destruct (Z.leb_spec (Z.of_nat n) v)); lia. }
  intros i Hi. unfold len in Hi. destruct neg eqn:En.
  - assert (step < 0)%Z by (apply Z.ltb_lt; auto).
    destruct (Z.ltb_spec b a) as [Hab|Hab]; [|lia].
    assert (Hq := Z.mul_div_le (a - b - 1) (- step) ltac:(lia)).
    assert (Z.of_nat i <= (a - b - 1) / - step)%Z by lia.
    assert ((- step) * Z.of_nat i <= (- step) * ((a - b - 1) / - step))%Z by (apply Z.mul_le_mono_nonneg_l; lia).
    nia.
  - assert (0 < step)%Z by (apply Z.ltb_ge in En; lia).
    destruct (Z.ltb_spec a b) as [Hab|Hab]; [|lia].
    assert (Hq := Z.mul_div_le (b - a - 1) step ltac:(lia)).
    assert (Z.of_nat i <= (b - a - 1) / step)%Z by lia.
    assert (step * Z.of_nat i <= step * ((b - a - 1) / step))%Z by (apply Z.mul_le_mono_nonneg_l; lia).
    nia.
Qed.
Lemma positions_range n s idx i : positions n s = Some idx -> In i idx -> (i < n)%nat.
Proof.
  intros H Hi. destruct (positions_spec _ _ _ H) as (a & st & len & Hs & -> & Hr).
  apply in_map_iff in Hi as [j [<- Hj]]. apply in_seq in Hj. specialize (Hr j ltac:(lia)). lia.
Qed.
Lemma positions_nodup n s idx : positions n s = Some idx -> NoDup idx.
Proof.
  intros H. destruct (positions_spec _ _ _ H) as (a & st & len & Hs & -> & Hr). clear H.
  assert (G : forall l, NoDup l -> (forall i, In i l -> (i < len)%nat) -> NoDup (map (fun i => Z.to_nat (a + Z.of_nat i * st)) l)).
  { induction 1 as [|i l Hn Hd IH]; intros Hl; simpl; constructor; [|apply IH; intros; apply Hl; right; auto].
    intros Hin. apply in_map_iff in Hin as [j [Ej Hj]].
    assert (Hi := Hr i (Hl i (or_introl eq_refl))). assert (Hj' := Hr j (Hl j (or_intror Hj))).
    assert (Z.of_nat j * st = Z.of_nat i * st)%Z by lia.
    apply Z.mul_reg_r in H; auto. apply Nat2Z.inj in H. congruence. }
  apply G; [apply seq_NoDup|]. intros i Hi. apply in_seq in Hi. lia.
Qed.

(** ---- rows ---- *)
Lemma fold_rows (g : nat -> wcase -> wcase) idx : NoDup idx -> forall W i,
  fold_left (fun W i => upd W i (g i (W i))) idx W i = if in_dec Nat.eq_dec i idx then g i (W i) else W i.
Proof.
  induction 1 as [|j idx Hn Hd IH]; intros W i; simpl fold_left; auto.
  rewrite IH. destruct (in_dec Nat.eq_dec i idx) as [Hi|Hi]; destruct (in_dec Nat.eq_dec i (j :: idx)) as [Hi'|Hi'].
  - rewrite upd_neq by congruence. auto.
  - destruct Hi'. right. auto.
  - destruct Hi' as [-> |]; [|tauto]. rewrite upd_eq. auto.
  - rewrite upd_neq; auto. intros ->. apply Hi'. left. auto.
Qed.
(** The row of a case after a call. *)
Definition row_after (m : nmodel) (k : R) (par : nat -> R) (f : flags) (i : nat) (w : wcase) : wcase :=
  let w' := kern (m_x m) par f (m_case m i) w in
  if Req_EM_T k 0 then w' else penal (fst (fst (m_pen m k par))) (snd (fst (m_pen m k par))) w'.
Lemma runner_rows m s x f sl s' idx : runner m s x f sl = (s', Some idx) ->
  let par := match x with Some v => v | None => v_par s end in
  positions (m_n m) sl = Some idx /\ v_par s' = par /\ v_int s' = v_int s /\ v_gen s' = v_gen s /\ (forall g, g <> v_gen s -> v_heap s' g = v_heap s g) /\
  forall i, v_work s' i = if in_dec Nat.eq_dec i idx then row_after m (v_int s) par f i (v_work s i) else v_work s i.
Proof.
  intros H par. unfold runner in H. destruct (positions (m_n m) sl) as [l|] eqn:E; [|discriminate].
  injection H as <- <-. split; auto. split; auto. split; auto. split; auto.
  split; [intros g Hg; simpl; apply upd_neq; auto|]. intros i. unfold v_work at 1. simpl. rewrite upd_eq.
  assert (Hd := positions_nodup _ _ _ E). unfold pen_rows, run_rows, row_after. fold par.
  destruct (Req_EM_T (v_int s) 0) as [E0|E0].
  - rewrite (fold_rows (fun i w => kern (m_x m) par f (m_case m i) w)) by auto. auto.
  - destruct (m_pen m (v_int s) par) as [[pen d] b]. simpl.
    rewrite (fold_rows (fun _ w => penal pen d w)) by auto.
    rewrite (fold_rows (fun i w => kern (m_x m) par f (m_case m i) w)) by auto.
    destruct (in_dec Nat.eq_dec i l); auto.
Qed.
Lemma runner_error m s x f sl s' : runner m s x f sl = (s', None) ->
  positions (m_n m) sl = None /\ s' = mkSess (match x with Some v => v | None => v_par s end) (v_int s) (v_gen s) (v_heap s).
Proof. unfold runner. destruct (positions (m_n m) sl); intros [= <-]. auto. Qed.

(** ---- sums ---- *)
Lemma osum_gen l : forall a, fold_left oadd l a =
  match a with None => None | Some v => if forallb is_fin l then Some (v + Rsum val l) else None end.
Proof.
  induction l as [|y l IH]; intros a; simpl.
  - destruct a; auto. f_equal. lra.
  - rewrite IH. destruct a as [v|], y as [z|]; simpl; auto.
    destruct (forallb is_fin l); auto. f_equal. lra.
Qed.
Lemma osum_total (f : nat -> option R) l : osum (map f l) = total f l.
Proof.
  unfold osum, total, sum_all. rewrite osum_gen. destruct (forallb _ (map f l)); auto. f_equal. lra.
Qed.
Lemma vsum_total (f : nat -> nat -> R) l p : vsum (map f l) p = Rsum (fun i => f i p) l.
Proof. unfold vsum. rewrite (fold_left_Rplus (fun v : nat -> R => v p)). rewrite Rsum_map. lra. Qed.
Lemma msum_total (f : nat -> nat -> nat -> R) l p q : msum (map f l) p q = Rsum (fun i => f i p q) l.
Proof. unfold msum. rewrite (fold_left_Rplus (fun v : nat -> nat -> R => v p q)). rewrite Rsum_map. lra. Qed.

(** ---- answers ---- *)
Section Answers.
Variable m : nmodel.
Variable kids : nat -> list nat.
Hypothesis T : tree_slots (x_st (m_x m)) kids.

Lemma row_util k par f i w : f_util f = 0%nat \/ f_util f = 2%nat -> w_util (row_after m k par f i w) = r_utility (one m par i).
Proof. intros H. unfold row_after. destruct (Req_EM_T k 0); simpl; apply kern_util; auto. Qed.
Lemma row_quant k par f i w : f_util f = 3%nat -> w_util (row_after m k par f i w) = quantity_values (m_x m) par (m_case m i).
Proof. intros H. unfold row_after. destruct (Req_EM_T k 0); simpl; apply kern_quant; auto. Qed.
Lemma row_prob k par f i w : f_util f = 0%nat -> f_prob f || f_grad f || f_bhhh f = true ->
  forall a, (a < n_nodes (x_st (m_x m)))%nat -> w_prob (row_after m k par f i w) a = r_prob (one m par i) a.
Proof. intros H H' a Ha. unfold row_after. destruct (Req_EM_T k 0); simpl; apply (kern_prob (m_x m) kids T); auto. Qed.
Lemma row_ll k par f i w : f_util f = 0%nat -> w_ll (row_after m k par f i w) = case_ll m k par i.
Proof.
  intros H. unfold row_after, case_ll, pen_of. destruct (Req_EM_T k 0); simpl; rewrite (kern_ll (m_x m)) by auto; fold (one m par i).
  - destruct (r_loglike (one m par i)); auto. f_equal. lra.
  - destruct (r_loglike (one m par i)); auto.
Qed.
Lemma row_dll k par f i w p : f_util f = 0%nat -> f_grad f || f_bhhh f = true ->
  w_dll (row_after m k par f i w) p = case_dll m (dpen_of m k par) par i p.
Proof.
  intros H H'. destruct (kern_deriv (m_x m) kids T par (m_case m i) f w H H') as [E _].
  unfold row_after, case_dll, dpen_of. destruct (Req_EM_T k 0); simpl; rewrite E; fold (one m par i); lra.
Qed.
Lemma row_bh k par f i w p q : f_util f = 0%nat -> f_bhhh f = true ->
  w_bh (row_after m k par f i w) p q = case_bhhh m k (dpen_of m k par) par i p q.
Proof.
  intros H H'. destruct (kern_deriv (m_x m) kids T par (m_case m i) f w H) as [E1 E2]; [rewrite H', orb_true_r; auto|].
  specialize (E2 H').
  unfold row_after, case_bhhh, case_dll, dpen_of. destruct (Req_EM_T k 0); simpl; [rewrite E2|rewrite E1]; auto.
Qed.

Lemma map_in_ext {A B} (f g : A -> B) l : (forall x, In x l -> f x = g x) -> map f l = map g l.
Proof. apply map_ext_in. Qed.
Lemma call_answer s q x sl s' idx : runner m s x (flags_of q) sl = (s', Some idx) ->
  look s' (reply m s' q idx) = answer m (v_int s) (match x with Some v => v | None => v_par s end) q idx.
Proof.
  intros H. destruct (runner_rows _ _ _ _ _ _ _ H) as (Hp & Hpar & Hint & Hgen & _ & HW). set (par := match x with Some v => v | None => v_par s end) in *.
  assert (Hh : v_heap s' (v_gen s') = v_work s') by reflexivity.
  assert (HW' : forall i, In i idx -> v_work s' i = row_after m (v_int s) par (flags_of q) i (v_work s i)).
  { intros i Hi. rewrite HW. destruct (in_dec Nat.eq_dec i idx); tauto. }
  assert (Hll : f_util (flags_of q) = 0%nat ->
    osum (map (fun i => w_ll (v_work s' i)) idx) = total (case_ll m (v_int s) par) idx).
  { intros Hf. rewrite <- osum_total. f_equal. apply map_in_ext. intros i Hi. rewrite HW' by auto. apply row_ll. auto. }
  assert (Hdll : f_util (flags_of q) = 0%nat -> f_grad (flags_of q) || f_bhhh (flags_of q) = true ->
    (fun p => vsum (map (fun i => w_dll (v_work s' i)) idx) p * m_norm m) =
    (fun p => m_norm m * Rsum (fun i => case_dll m (dpen_of m (v_int s) par) par i p) idx)).
  { intros Hf Hg. apply functional_extensionality. intros p. rewrite vsum_total, Rmult_comm. f_equal.
    apply Rsum_ext. intros i Hi. rewrite HW' by auto. apply row_dll; auto. }
  assert (Hbh : f_util (flags_of q) = 0%nat -> f_bhhh (flags_of q) = true ->
    (fun p r => msum (map (fun i => w_bh (v_work s' i)) idx) p r * m_norm m) =
    (fun p r => m_norm m * Rsum (fun i => case_bhhh m (v_int s) (dpen_of m (v_int s) par) par i p r) idx)).
  { intros Hf Hg. apply functional_extensionality. intros p. apply functional_extensionality. intros r.
    rewrite msum_total, Rmult_comm. f_equal. apply Rsum_ext. intros i Hi. rewrite HW' by auto. apply row_bh; auto. }
  assert (Hut : f_util (flags_of q) = 0%nat \/ f_util (flags_of q) = 2%nat -> forall cols,
    map (fun i => map (cell FUtil (v_work s' i)) cols) idx = map (fun i => map (fun a => r_utility (one m par i) a) cols) idx).
  { intros Hf cols. apply map_in_ext. intros i Hi. apply map_in_ext. intros a _. simpl. rewrite HW', row_util by auto. auto. }
  assert (Rt := ts_root _ _ T).
  unfold reply, answer. destruct q; cbn [flags_of f_util f_prob f_grad f_bhhh look] in *; try rewrite Hh.
  - rewrite Hll; auto.
  - rewrite Hdll; auto.
  - f_equal. apply map_in_ext. intros i Hi. rewrite HW', row_ll by auto. auto.
  - f_equal. apply map_in_ext. intros i Hi. apply functional_extensionality. intros p.
    rewrite HW', row_dll by auto. lra.
  - rewrite Hbh; auto.
  - f_equal. apply map_in_ext. intros i Hi. apply map_in_ext. intros a Ha. simpl. rewrite HW' by auto.
    rewrite row_prob; auto. apply in_seq in Ha. destruct nests; lia.
  - rewrite Hut; auto.
  - f_equal. apply map_in_ext. intros i Hi. apply map_in_ext. intros a Ha. simpl. rewrite HW', row_quant by auto. auto.
  - rewrite Hut; auto.
  - rewrite Hll, Hdll; auto.
  - rewrite Hll, Hdll, Hbh; auto. f_equal. unfold penalty_value, pen_of. rewrite Hint, Hpar. auto.
Qed.
Lemma tolerance_answer s x : let (s', r) := tolerance m s x in
  look s' r = tol_answer m (v_int s) (match x with Some v => v | None => v_par s end) /\
  v_par s' = (match x with Some v => v | None => v_par s end) /\ v_int s' = v_int s.
Proof.
  unfold tolerance. set (par := match x with Some v => v | None => v_par s end). set (idx := seq 0 (m_n m)).
  set (W' := if Req_EM_T (v_int s) 0 then _ else _). split; [|auto].
  set (f := mkF 0 false true true) in *.
  assert (HW : forall i, In i idx -> W' i = (if Req_EM_T (v_int s) 0 then kern (m_x m) par f (m_case m i) (v_work s i)
     else penal (fst (fst (m_pen m (v_int s) par))) (snd (m_pen m (v_int s) par)) (kern (m_x m) par f (m_case m i) (v_work s i)))).
  { intros i Hi. unfold W'. assert (Hd : NoDup idx) by apply seq_NoDup. unfold run_rows. destruct (Req_EM_T (v_int s) 0).
    - rewrite (fold_rows (fun i w => kern (m_x m) par f (m_case m i) w)) by auto. destruct (in_dec Nat.eq_dec i idx); tauto.
    - destruct (m_pen m (v_int s) par) as [[pen d] b]. simpl.
      rewrite (fold_rows (fun _ w => penal pen b w)) by auto.
      rewrite (fold_rows (fun i w => kern (m_x m) par f (m_case m i) w)) by auto.
      destruct (in_dec Nat.eq_dec i idx); tauto. }
  simpl. unfold tol_answer. fold idx.
  assert (K : forall i, w_dll (kern (m_x m) par f (m_case m i) (v_work s i)) = r_dloglike (one m par i) /\
    w_bh (kern (m_x m) par f (m_case m i) (v_work s i)) = r_bhhh (one m par i) /\
    w_ll (kern (m_x m) par f (m_case m i) (v_work s i)) = r_loglike (one m par i)).
  { intros i. destruct (kern_deriv (m_x m) kids T par (m_case m i) f (v_work s i) eq_refl eq_refl) as [E1 E2].
    split; [exact E1|]. split; [exact (E2 eq_refl)|]. apply kern_ll. auto. }
  f_equal.
  - rewrite <- osum_total. f_equal. apply map_in_ext. intros i Hi. rewrite HW by auto. destruct (K i) as (_ & _ & K3).
    unfold case_ll, pen_of. destruct (Req_EM_T (v_int s) 0); simpl; rewrite K3; destruct (r_loglike (one m par i)); auto.
    f_equal. lra.
  - apply functional_extensionality. intros p. rewrite vsum_total. apply Rsum_ext. intros i Hi. rewrite HW by auto.
    destruct (K i) as (K1 & _ & _). unfold case_dll, dbind_of. destruct (Req_EM_T (v_int s) 0); simpl; rewrite K1; auto. lra.
  - apply functional_extensionality. intros p. apply functional_extensionality. intros q. rewrite msum_total. apply Rsum_ext.
    intros i Hi. rewrite HW by auto. destruct (K i) as (K1 & K2 & _). unfold case_bhhh, case_dll, dbind_of.
    destruct (Req_EM_T (v_int s) 0); simpl; [rewrite K2|rewrite K1]; auto.
Qed.

(** One operation. *)
Lemma step_expected s o : let (s', r) := step m s o in
  look s' r = expected_one m (v_par s) (v_int s) o /\ v_par s' = par_after (v_par s) o /\ v_int s' = int_after (v_int s) o.
Proof.
  destruct o as [v|k| |x|q x sl]; simpl step; try (simpl; auto; fail).
  - assert (H := tolerance_answer s x). destruct (tolerance m s x) as [s' r]. destruct H as (H1 & H2 & H3).
    rewrite H1, H2, H3. destruct x; simpl; auto.
  - destruct (runner m s x (flags_of q) sl) as [s' [idx|]] eqn:E.
    + destruct (runner_rows _ _ _ _ _ _ _ E) as (Hp & Hpar & Hint & _).
      rewrite (call_answer _ _ _ _ _ _ E). simpl. rewrite Hp, Hpar, Hint. destruct x; auto.
    + apply runner_error in E as [Hp ->]. simpl. rewrite Hp. destruct x; auto.
Qed.
Lemma transcript_expected ops : forall s, transcript m s ops = expected m (v_par s) (v_int s) ops.
Proof.
  induction ops as [|o ops IH]; intros s; simpl; auto.
  assert (H := step_expected s o). destruct (step m s o) as [s' r]. destruct H as (-> & H2 & H3).
  rewrite IH, H2, H3. auto.
Qed.
End Answers.
