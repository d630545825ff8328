(** C62: the parallel likelihood kernel of the Cython engine. *)
From Coq Require Import Lra.
From Verif Require Import SchedGlobal.
Open Scope R_scope.

Lemma selected_spec o c : selected o c = true <->
  ((0 <= o_leave o)%Z -> (c mod o_sub o)%Z <> o_leave o) /\ ((0 <= o_keep o)%Z -> (c mod o_sub o)%Z = o_keep o).
Proof.
  unfold selected. destruct (Z.leb_spec 0 (o_leave o)) as [H1|H1]; destruct (Z.leb_spec 0 (o_keep o)) as [H2|H2];
  destruct (Z.eqb_spec (c mod o_sub o) (o_leave o)) as [H3|H3]; destruct (Z.eqb_spec (c mod o_sub o) (o_keep o)) as [H4|H4]; cbn [andb negb];
  (split; [intros E; try discriminate E; split; intros K; try lia; auto|intros [A B]; try reflexivity; exfalso; try (apply (A H1); assumption); try (apply H4; apply B; assumption); try lia]).
Qed.
Lemma range_sample o stop : (0 < o_step o)%Z -> lists_sample o stop (filter (selected o) (case_range (o_start o) stop (o_step o))).
Proof.
  intros H. split; [apply NoDup_filter, case_range_NoDup; auto|]. intros c. rewrite filter_In, in_case_range, selected_spec by auto.
  unfold in_sample. split; [intros [H1 H2]|intros [H1 [H2 H3]]].
  - destruct H1 as [[L1 L2] M]. split; [|split; auto]. exists ((c - o_start o) / o_step o)%Z.
    split; [apply Z.div_pos; lia|]. pose proof (Z.div_mod (c - o_start o) (o_step o) ltac:(lia)). lia.
  - destruct H1 as [k [Hk ->]]. split; auto. split; [nia|]. replace (o_start o + k * o_step o - o_start o)%Z with (k * o_step o)%Z by lia. apply Z.mod_mul. lia.
Qed.
Lemma sample_perm o stop l1 l2 : lists_sample o stop l1 -> lists_sample o stop l2 -> Permutation l1 l2.
Proof. intros [N1 H1] [N2 H2]. apply NoDup_Permutation; auto. intros c. rewrite H1, H2. tauto. Qed.
Lemma total_filter {A} (f : A -> bool) (g : A -> option R) l : total (map (fun x => if f x then g x else Some 0) l) = total (map g (filter f l)).
Proof.
  induction l as [|x l IH]; auto. cbn [filter map]. destruct (f x) eqn:E; cbn [map total fold_right].
  - fold (total (map (fun x => if f x then g x else Some 0) l)). rewrite IH. auto.
  - fold (total (map (fun x => if f x then g x else Some 0) l)). rewrite IH. apply oplus_0_l.
Qed.
Lemma Rsum_filter {A} (f : A -> bool) (g : A -> R) l : Rsum (fun x => if f x then g x else 0) l = Rsum g (filter f l).
Proof. induction l as [|x l IH]; auto. cbn [filter]. rewrite Rsum_cons, IH. destruct (f x); [rewrite Rsum_cons; auto|lra]. Qed.
Lemma exec_inv d o nt stop res : execution d o nt stop res -> (0 < o_step o)%Z ->
  (o_only o = false -> x_ll res = oscale (d_norm d) (total (map (case_ll d) (filter (selected o) (case_range (o_start o) stop (o_step o)))))) /\
  (o_only o = false -> o_dll o = true \/ o_bhhh o = true -> forall v, (v < d_params d)%nat ->
     x_dll res v = d_norm d * Rsum (fun c => case_dll d c v) (filter (selected o) (case_range (o_start o) stop (o_step o)))) /\
  (o_only o = false -> o_bhhh o = true -> forall v w, (v < d_params d)%nat -> (w < d_params d)%nat ->
     x_bhhh res v w = d_norm d * Rsum (fun c => case_bhhh d c v w) (filter (selected o) (case_range (o_start o) stop (o_step o)))).
Proof.
  intros [dist tr Hl Hd Htr] Hs. unfold finish. cbn [x_ll x_dll x_bhhh]. rewrite <- Hl. repeat split.
  - intros E. rewrite E, (global_ll d o dist stop Hs Hd tr Htr), <- total_filter. do 2 f_equal. apply map_ext. intros c. unfold acc_ll. rewrite E, andb_true_r. auto.
  - intros E W v Hv. rewrite (global_dll d o dist stop Hs Hd tr Htr v Hv), <- Rsum_filter, Rmult_comm. f_equal. apply Rsum_ext. intros c _. unfold acc_dll.
    rewrite E, andb_true_r. unfold want_dll. rewrite (proj2 (orb_true_iff _ _) W), andb_true_r. auto.
  - intros E W v w Hv Hw. rewrite (global_bhhh d o dist stop Hs Hd tr Htr v w Hv Hw), <- Rsum_filter, Rmult_comm. f_equal. apply Rsum_ext. intros c _. unfold acc_bhhh.
    rewrite E, W, !andb_true_r. auto.
Qed.

Lemma total_cons x l : total (x :: l) = oplus x (total l).
Proof. reflexivity. Qed.
(** ** The totals, for every number of threads, every distribution of the cases and every interleaving *)
(** For every call of loglike, d_loglike or bhhh with a positive step, under every schedule: the log
    likelihood, its gradient and the BHHH matrix are the weight normalization times the sums of the
    casewise logit formulas over the requested sample (the documented one, with a negative stop
    meaning all cases). *)
Theorem C62_totals : forall d o n_cases stop requested res l,
  kernel d o n_cases stop requested res -> (0 < o_step o)%Z ->
  lists_sample o (if (stop <? 0)%Z then n_cases else stop) l -> o_only o = false ->
  x_ll res = oscale (d_norm d) (total (map (case_ll d) l)) /\
  (o_dll o = true \/ o_bhhh o = true -> forall v, (v < d_params d)%nat -> x_dll res v = d_norm d * Rsum (fun c => case_dll d c v) l) /\
  (o_bhhh o = true -> forall v w, (v < d_params d)%nat -> (w < d_params d)%nat ->
     x_bhhh res v w = d_norm d * Rsum (fun c => case_bhhh d c v w) l).
Proof.
  intros d o N stop req res l K Hs Hl Ho. destruct (exec_inv _ _ _ _ _ K Hs) as [H1 [H2 H3]].
  assert (P := sample_perm _ _ _ _ (range_sample o (stop_of N stop) Hs) Hl). repeat split.
  - rewrite H1 by auto. f_equal. apply total_perm, Permutation_map. auto.
  - intros W v Hv. rewrite H2 by auto. f_equal. apply Rsum_perm. auto.
  - intros W v w Hv Hw. rewrite H3 by auto. f_equal. apply Rsum_perm. auto.
Qed.

(** ** The casewise arrays *)
(** For every requested case [c] (the [r]-th of the range) every persisted array holds, in row [r] and
    under every schedule, the values of that case, whatever thread computed it and whatever the
    buffers of that thread held before. *)
Theorem C62_rows : forall d o n_cases stop requested res c r,
  kernel d o n_cases stop requested res -> (0 < o_step o)%Z ->
  in_sample o (if (stop <? 0)%Z then n_cases else stop) c -> c = (o_start o + Z.of_nat r * o_step o)%Z ->
  (o_keep_arr o AU = true -> forall i, (i < d_alts d)%nat -> x_utility res r i = d_u d c i) /\
  (o_keep_arr o AE = true -> forall i, (i < d_alts d)%nat -> x_exp res r i = oexp (d_u d c i)) /\
  (o_keep_arr o AP = true -> forall i, (i < d_alts d)%nat -> x_prob res r i = prob d c i) /\
  (o_keep_arr o ADU = true -> o_dll o = true \/ o_bhhh o = true -> forall i v, (i < d_alts d)%nat -> (v < d_params d)%nat -> x_du res r i v = d_du d c i v) /\
  (o_only o = false -> o_keep_arr o ALLc = true -> x_llc res r = case_ll d c) /\
  (o_only o = false -> o_keep_arr o ADLLc = true -> o_dll o = true \/ o_bhhh o = true -> forall v, (v < d_params d)%nat ->
     x_dllc res r v = d_norm d * case_dll d c v).
Proof.
  intros d o N stop req res c r K Hs Hc Hr.
  assert (Hin : In c (filter (selected o) (case_range (o_start o) (stop_of N stop) (o_step o)))) by (apply (range_sample o (stop_of N stop) Hs); auto).
  apply filter_In in Hin. destruct Hin as [Hin Hsel].
  assert (E : r = c_local o c).
  { unfold c_local. rewrite Hr. replace (o_start o + Z.of_nat r * o_step o - o_start o)%Z with (Z.of_nat r * o_step o)%Z by lia.
    rewrite Z.div_mul by lia. rewrite Nat2Z.id. auto. }
  subst r. destruct K as [dist tr Hlen Hd Htr].
  destruct (global_row d o dist _ Hs Hd tr Htr c Hin) as [t [m0 [Z0 Hm]]].
  destruct (case_effect d o t c m0) as [_ _ _ CL CD CU CE CP CDU].
  assert (Row : forall a i j, per_case a = true -> o_keep_arr o a = true -> (a, c_local o c, (i, j)) = cell o t c a i j).
  { intros a i j _ Ka. unfold cell, row. rewrite Ka. reflexivity. }
  assert (W : o_dll o = true \/ o_bhhh o = true -> want_dll o = true) by (intros; unfold want_dll; apply orb_true_iff; auto).
  unfold finish. cbn [x_utility x_exp x_prob x_du x_llc x_dllc]. repeat split.
  - intros Ka i Hi. rewrite Hm by (split; auto). rewrite (Row AU) by auto. apply CU; auto.
  - intros Ka i Hi. unfold rd. rewrite Hm by (split; auto). rewrite (Row AE) by auto. rewrite CE; auto.
  - intros Ka i Hi. unfold rd. rewrite Hm by (split; auto). rewrite (Row AP) by auto. rewrite CP; auto.
  - intros Ka Hw i v Hi Hv. unfold rd. rewrite Hm by (split; auto). rewrite (Row ADU) by auto. rewrite CDU; auto.
  - intros Ho Ka. rewrite Hm by (split; auto). rewrite (Row ALLc), CL by auto. rewrite <- (Row ALLc) by auto. rewrite Z0 by (split; auto).
    rewrite oplus_0_l. unfold acc_ll. rewrite Hsel, Ho. auto.
  - intros Ho Ka Hw v Hv. unfold rd. rewrite Hm by (split; auto). rewrite (Row ADLLc) by auto. rewrite CD; auto.
    + lra.
    + right. rewrite <- (Row ADLLc) by auto. apply Z0. split; auto.
    + rewrite Hsel, Ho, W; auto.
Qed.
(** The rows of cases the filters drop stay zero in every persisted array. *)
Theorem C62_dropped_rows : forall d o n_cases stop requested res c r,
  kernel d o n_cases stop requested res -> (0 < o_step o)%Z ->
  c = (o_start o + Z.of_nat r * o_step o)%Z -> (c < (if (stop <? 0)%Z then n_cases else stop))%Z ->
  ~ in_sample o (if (stop <? 0)%Z then n_cases else stop) c ->
  (o_keep_arr o AU = true -> forall i, x_utility res r i = Some 0) /\
  (o_keep_arr o AP = true -> forall i, x_prob res r i = 0) /\
  (o_keep_arr o ALLc = true -> x_llc res r = Some 0) /\
  (o_keep_arr o ADLLc = true -> forall v, x_dllc res r v = 0).
Proof.
  intros d o N stop req res c r K Hs Hr Hlt Hc.
  assert (Hin : In c (case_range (o_start o) (stop_of N stop) (o_step o))).
  { apply in_case_range; auto. rewrite Hr. split; [unfold stop_of; rewrite Hr in Hlt; nia|].
    replace (o_start o + Z.of_nat r * o_step o - o_start o)%Z with (Z.of_nat r * o_step o)%Z by lia. apply Z.mod_mul. lia. }
  assert (Hsel : selected o c = false).
  { destruct (selected o c) eqn:E; auto. exfalso. apply Hc. apply (range_sample o (stop_of N stop) Hs). apply filter_In. auto. }
  assert (E : r = c_local o c).
  { unfold c_local. rewrite Hr. replace (o_start o + Z.of_nat r * o_step o - o_start o)%Z with (Z.of_nat r * o_step o)%Z by lia.
    rewrite Z.div_mul by lia. rewrite Nat2Z.id. auto. }
  subst r. destruct K as [dist tr Hlen Hd Htr].
  destruct (global_row d o dist _ Hs Hd tr Htr c Hin) as [t [m0 [Z0 Hm]]].
  assert (Z1 : forall a ij, kept o a -> run tr zeros (a, c_local o c, ij) = Some 0).
  { intros a ij Ka. rewrite Hm by auto. unfold case_prog. rewrite Hsel. apply Z0. auto. }
  unfold finish, rd. cbn [x_utility x_exp x_prob x_du x_llc x_dllc].
  repeat split; intros; rewrite Z1 by (split; auto); auto. lra.
Qed.

(** ** The schedule and the number of threads do not matter *)
Theorem C62_deterministic : forall d o n_cases stop req1 req2 res1 res2,
  kernel d o n_cases stop req1 res1 -> kernel d o n_cases stop req2 res2 -> (0 < o_step o)%Z -> o_only o = false ->
  x_ll res1 = x_ll res2 /\
  (o_dll o = true \/ o_bhhh o = true -> forall v, (v < d_params d)%nat -> x_dll res1 v = x_dll res2 v) /\
  (o_bhhh o = true -> forall v w, (v < d_params d)%nat -> (w < d_params d)%nat -> x_bhhh res1 v w = x_bhhh res2 v w).
Proof.
  intros d o N stop r1 r2 x1 x2 K1 K2 Hs Ho. pose proof (range_sample o (if (stop <? 0)%Z then N else stop) Hs) as L.
  destruct (C62_totals d o N stop r1 x1 _ K1 Hs L Ho) as [A1 [A2 A3]]. destruct (C62_totals d o N stop r2 x2 _ K2 Hs L Ho) as [B1 [B2 B3]].
  repeat split; [congruence| |]; intros.
  - rewrite A2, B2; auto.
  - rewrite A3, B3; auto.
Qed.

(** ** Cross-validation folds *)
(** Options that differ only in the fold. *)
Definition with_fold (o : opts) (leave keep sub : Z) : opts :=
  mkOpts (o_dll o) (o_bhhh o) (o_start o) (o_step o) leave keep sub (o_only o) (o_keep_arr o).
(** For every k >= 0 and subsample > 0: the case sample split by leave_out=k and keep_only=k adds up to the
    whole: log likelihoods, gradients, BHHH. *)
Theorem C62_leave_and_keep : forall d o n_cases stop req sub k res_l res_k res,
  (0 < o_step o)%Z -> (0 < sub)%Z -> (0 <= k)%Z -> o_only o = false ->
  kernel d (with_fold o k (-1) sub) n_cases stop req res_l -> kernel d (with_fold o (-1) k sub) n_cases stop req res_k ->
  kernel d (with_fold o (-1) (-1) (-1)) n_cases stop req res ->
  x_ll res = oplus (x_ll res_l) (x_ll res_k) /\
  (o_dll o = true -> forall v, (v < d_params d)%nat -> x_dll res v = x_dll res_l v + x_dll res_k v) /\
  (o_bhhh o = true -> forall v w, (v < d_params d)%nat -> (w < d_params d)%nat -> x_bhhh res v w = x_bhhh res_l v w + x_bhhh res_k v w).
Proof.
  intros d o N stop req sub k rl rk r Hs Hsub Hk Ho Kl Kk K.
  destruct (exec_inv _ _ _ _ _ Kl Hs) as [L1 [L2 L3]]. destruct (exec_inv _ _ _ _ _ Kk Hs) as [M1 [M2 M3]].
  destruct (exec_inv _ _ _ _ _ K Hs) as [W1 [W2 W3]]. cbn [o_start o_step o_only o_dll o_bhhh with_fold] in *.
  set (rg := case_range (o_start o) (stop_of N stop) (o_step o)) in *.
  assert (P : Permutation (filter (selected (with_fold o (-1) (-1) (-1))) rg)
     (filter (selected (with_fold o k (-1) sub)) rg ++ filter (selected (with_fold o (-1) k sub)) rg)).
  { generalize rg. induction rg0 as [|c l IH]; auto. cbn [filter].
    assert (S0 : selected (with_fold o (-1) (-1) (-1)) c = true) by reflexivity. rewrite S0.
    assert (S1 : selected (with_fold o k (-1) sub) c = negb (c mod sub =? k)%Z).
    { unfold selected. cbn [o_leave o_keep o_sub with_fold]. replace (0 <=? k)%Z with true by (symmetry; apply Z.leb_le; auto).
      change (0 <=? -1)%Z with false. cbn [andb]. destruct (c mod sub =? k)%Z; auto. }
    assert (S2 : selected (with_fold o (-1) k sub) c = (c mod sub =? k)%Z).
    { unfold selected. cbn [o_leave o_keep o_sub with_fold]. replace (0 <=? k)%Z with true by (symmetry; apply Z.leb_le; auto).
      change (0 <=? -1)%Z with false. cbn [andb]. destruct (c mod sub =? k)%Z; auto. }
    rewrite S1, S2. destruct (c mod sub =? k)%Z; cbn [negb].
    - apply Permutation_cons_app. auto.
    - cbn [app]. constructor. auto. }
  assert (Rapp : forall (g : Z -> R) l1 l2, Rsum g (l1 ++ l2) = Rsum g l1 + Rsum g l2).
  { intros g l1 l2. induction l1 as [|x l1 IH]; [cbn [app Rsum fold_right]; rewrite Rplus_0_l; auto|]. cbn [app]. rewrite !Rsum_cons, IH. lra. }
  repeat split.
  - rewrite W1, L1, M1 by auto. rewrite <- oscale_oplus, <- total_app, <- map_app. f_equal. apply total_perm, Permutation_map. auto.
  - intros H v Hv. rewrite W2, L2, M2 by auto. rewrite <- Rmult_plus_distr_l, <- Rapp. f_equal. apply Rsum_perm. auto.
  - intros H v w Hv Hw. rewrite W3, L3, M3 by auto. rewrite <- Rmult_plus_distr_l, <- Rapp. f_equal. apply Rsum_perm. auto.
Qed.
(** The log likelihoods (and gradients) of the folds keep_only=0, ..., subsample-1 add up to the whole. *)
Theorem C62_folds_add_up : forall d o n_cases stop req sub (res_k : nat -> result) res,
  (0 < o_step o)%Z -> (0 < sub)%nat -> o_only o = false ->
  (forall k, (k < sub)%nat -> kernel d (with_fold o (-1) (Z.of_nat k) (Z.of_nat sub)) n_cases stop req (res_k k)) ->
  kernel d (with_fold o (-1) (-1) (-1)) n_cases stop req res ->
  x_ll res = total (map (fun k => x_ll (res_k k)) (seq 0 sub)) /\
  (o_dll o = true -> forall v, (v < d_params d)%nat -> x_dll res v = Rsum (fun k => x_dll (res_k k) v) (seq 0 sub)).
Proof.
  intros d o N stop req sub rk r Hs Hsub Ho Kk K.
  assert (M : forall k, (k < sub)%nat -> _) by (intros k Hk; exact (exec_inv _ _ _ _ _ (Kk k Hk) Hs)).
  destruct (exec_inv _ _ _ _ _ K Hs) as [W1 [W2 _]]. cbn [o_start o_step o_only o_dll o_bhhh with_fold] in *.
  set (rg := case_range (o_start o) (stop_of N stop) (o_step o)) in *.
  assert (Sel : forall k c, selected (with_fold o (-1) (Z.of_nat k) (Z.of_nat sub)) c = (c mod Z.of_nat sub =? Z.of_nat k)%Z).
  { intros k c. unfold selected. cbn [o_leave o_keep o_sub with_fold]. change (0 <=? -1)%Z with false. cbn [andb].
    replace (0 <=? Z.of_nat k)%Z with true by (symmetry; apply Z.leb_le; lia). cbn [andb]. destruct (_ =? _)%Z; auto. }
  assert (One : forall c (x : option R), total (map (fun k => if (c mod Z.of_nat sub =? Z.of_nat k)%Z then x else Some 0) (seq 0 sub)) = x).
  { intros c x. pose proof (Z.mod_pos_bound c (Z.of_nat sub) ltac:(lia)) as B.
    assert (G : forall l, NoDup l -> In (Z.to_nat (c mod Z.of_nat sub)) l -> total (map (fun k => if (c mod Z.of_nat sub =? Z.of_nat k)%Z then x else Some 0) l) = x).
    { induction l as [|k l IH]; intros Nd Hin; [destruct Hin|]. inversion Nd as [|? ? Nk Nl]; subst. cbn [map total fold_right].
      fold (total (map (fun k => if (c mod Z.of_nat sub =? Z.of_nat k)%Z then x else Some 0) l)). destruct Hin as [E|Hin].
      - subst k. rewrite Z2Nat.id, Z.eqb_refl by lia. rewrite total_zero; [apply oplus_0_r|]. intros k Hk. destruct (Z.eqb_spec (c mod Z.of_nat sub) (Z.of_nat k)); auto.
        exfalso. apply Nk. replace (Z.to_nat (c mod Z.of_nat sub)) with k by lia. auto.
      - rewrite IH by auto. destruct (Z.eqb_spec (c mod Z.of_nat sub) (Z.of_nat k)) as [E|E]; [|apply oplus_0_l]. exfalso. apply Nk. rewrite E, Nat2Z.id in Hin. auto. }
    apply G; [apply seq_NoDup|]. apply in_seq. lia. }
  assert (Swap : forall (A : Z -> nat -> option R) l ks, total (map (fun c => total (map (A c) ks)) l) = total (map (fun k => total (map (fun c => A c k) l)) ks)).
  { intros A l ks. induction l as [|c l IH].
    - cbn [map]. rewrite total_zero; auto.
    - cbn [map]. rewrite total_cons, IH. clear. induction ks as [|k ks IH]; [apply oplus_0_l|]. cbn [map]. rewrite !total_cons, <- IH.
      destruct (A c k), (total (map (A c) ks)), (total (map (fun c => A c k) l)), (total (map (fun k => total (map (fun c => A c k) l)) ks)); cbn; auto. f_equal. lra. }
  assert (Osc : forall (f : nat -> option R) ks, oscale (d_norm d) (total (map f ks)) = total (map (fun k => oscale (d_norm d) (f k)) ks)).
  { intros f ks. induction ks as [|k ks IH]; [cbn; f_equal; lra|]. cbn [map total fold_right]. fold (total (map f ks)). rewrite oscale_oplus, IH. auto. }
  assert (Fold : forall g : Z -> option R, total (map g (filter (selected (with_fold o (-1) (-1) (-1))) rg)) =
     total (map (fun k => total (map g (filter (selected (with_fold o (-1) (Z.of_nat k) (Z.of_nat sub))) rg))) (seq 0 sub))).
  { intros g. rewrite <- total_filter. transitivity (total (map (fun c => total (map (fun k => if (c mod Z.of_nat sub =? Z.of_nat k)%Z then g c else Some 0) (seq 0 sub))) rg)).
    - apply total_ext. intros c _. rewrite One. reflexivity.
    - rewrite Swap. apply total_ext. intros k _. rewrite <- total_filter. apply total_ext. intros c _. rewrite Sel. auto. }
  split.
  - rewrite W1 by auto. rewrite Fold, Osc. apply total_ext. intros k Hk. apply in_seq in Hk. destruct (M k ltac:(lia)) as [M1 _]. symmetry. apply M1. auto.
  - intros H v Hv. rewrite W2 by auto. assert (E : Some (d_norm d * Rsum (fun c => case_dll d c v) (filter (selected (with_fold o (-1) (-1) (-1))) rg)) = Some (Rsum (fun k => x_dll (rk k) v) (seq 0 sub))); [|congruence].
    rewrite Rmult_comm. change (Some (Rsum (fun c => case_dll d c v) (filter (selected (with_fold o (-1) (-1) (-1))) rg) * d_norm d)) with
      (oscale (d_norm d) (Some (Rsum (fun c => case_dll d c v) (filter (selected (with_fold o (-1) (-1) (-1))) rg)))).
    rewrite <- !total_Some, Fold, Osc. apply total_ext. intros k Hk. apply in_seq in Hk. destruct (M k ltac:(lia)) as [_ [M2 _]]. rewrite M2 by auto. rewrite total_Some. cbn. f_equal. lra.
Qed.

(** ** The gradient is the derivative *)
Section Derivative.
Variables (n : nat) (F : nat -> option (R -> R)) (x : R) (du : nat -> R).
Definition util (y : R) (i : nat) : option R := match F i with Some f => Some (f y) | None => None end.
Hypothesis HF : forall i f, (i < n)%nat -> F i = Some f -> derivable_pt_lim f x (du i).
Definition expsum (l : list nat) (y : R) : R := Rsum (fun i => oexp (util y i)) l.
Lemma expsum_derivative l : (forall i, In i l -> (i < n)%nat) ->
  derivable_pt_lim (expsum l) x (Rsum (fun i => oexp (util x i) * du i) l).
Proof.
  induction l as [|i l IH]; intros Hl; [exact (derivable_pt_lim_const 0 x)|]. rewrite Rsum_cons.
  change (expsum (i :: l)) with (plus_fct (fun y => oexp (util y i)) (expsum l)).
  apply derivable_pt_lim_plus; [|apply IH; intros; apply Hl; right; auto].
  unfold util. destruct (F i) as [f|] eqn:E.
  - cbn [oexp]. change (fun y => exp (f y)) with (comp exp f). apply derivable_pt_lim_comp; [apply HF; auto; apply Hl; left; auto|apply derivable_pt_lim_exp].
  - cbn [oexp]. rewrite Rmult_0_l. exact (derivable_pt_lim_const 0 x).
Qed.
Lemma expsum_pos l y a : In a l -> F a <> None -> 0 < expsum l y.
Proof.
  unfold expsum. induction l as [|i l IH]; intros Hin Ha; [destruct Hin|]. rewrite Rsum_cons.
  assert (P := logit_sum_nonneg (util y) l). destruct Hin as [ ->|Hin].
  - assert (0 < oexp (util y a)); [|lra]. unfold util. destruct (F a); [cbn; apply exp_pos|congruence].
  - specialize (IH Hin Ha). assert (0 <= oexp (util y i)); [|lra]. unfold oexp. destruct (util y i); [left; apply exp_pos|lra].
Qed.
Lemma log_logit_derivative a f : (a < n)%nat -> F a = Some f ->
  (forall y, flog (logit n (util y) a) = Some (f y - ln (expsum (seq 0 n) y))) /\
  derivable_pt_lim (fun y => f y - ln (expsum (seq 0 n) y)) x (du a - Rsum (fun i => logit n (util x) i * du i) (seq 0 n)).
Proof.
  intros Ha E. assert (Hin : In a (seq 0 n)) by (apply in_seq; lia). assert (Hn : F a <> None) by congruence.
  assert (L : forall y i, logit n (util y) i = oexp (util y i) / expsum (seq 0 n) y).
  { intros y i. unfold logit. fold (expsum (seq 0 n) y). pose proof (expsum_pos (seq 0 n) y a Hin Hn). destruct (Req_EM_T (expsum (seq 0 n) y) 0); [lra|auto]. }
  split.
  - intros y. pose proof (expsum_pos (seq 0 n) y a Hin Hn) as P. rewrite L. unfold util. rewrite E. cbn [oexp].
    assert (Q : 0 < exp (f y) / expsum (seq 0 n) y) by (apply Rdiv_lt_0_compat; auto; apply exp_pos).
    unfold flog. destruct (Rlt_dec 0 (exp (f y) / expsum (seq 0 n) y)); [|lra]. unfold Rdiv.
    rewrite ln_mult by (try apply Rinv_0_lt_compat; auto using exp_pos). rewrite ln_Rinv, ln_exp by auto. f_equal.
  - pose proof (expsum_pos (seq 0 n) x a Hin Hn) as P.
    change (fun y => f y - ln (expsum (seq 0 n) y)) with (minus_fct f (comp ln (expsum (seq 0 n)))).
    replace (Rsum (fun i => logit n (util x) i * du i) (seq 0 n)) with (/ expsum (seq 0 n) x * Rsum (fun i => oexp (util x i) * du i) (seq 0 n)).
    + apply derivable_pt_lim_minus; [apply HF; auto|]. apply derivable_pt_lim_comp; [apply expsum_derivative; intros i Hi; apply in_seq in Hi; lia|].
      apply derivable_pt_lim_ln. auto.
    + rewrite <- Rsum_scale. apply Rsum_ext. intros i _. rewrite L. unfold Rdiv. ring.
Qed.
Lemma loglike_derivative ch l : (forall a, In a l -> (a < n)%nat) -> (forall a, In a l -> ch a <> 0 -> F a <> None) ->
  exists g, (forall y, loglike_of (logit n (util y)) ch l = Some (g y)) /\
  derivable_pt_lim g x (Rsum (fun a => ch a * (du a - Rsum (fun i => logit n (util x) i * du i) (seq 0 n))) l).
Proof.
  induction l as [|a l IH]; intros Hl Ha.
  - exists (fun _ => 0). split; auto. exact (derivable_pt_lim_const 0 x).
  - destruct (IH (fun b Hb => Hl b (or_intror Hb)) (fun b Hb => Ha b (or_intror Hb))) as [g [G1 G2]]. cbn [loglike_of]. rewrite Rsum_cons.
    destruct (Req_EM_T (ch a) 0) as [Z|NZ].
    + exists g. split; auto. rewrite Z, Rmult_0_l, Rplus_0_l. auto.
    + destruct (F a) as [f|] eqn:E; [|exfalso; apply (Ha a (or_introl eq_refl)); auto].
      destruct (log_logit_derivative a f (Hl a (or_introl eq_refl)) E) as [L1 L2].
      exists (plus_fct (mult_real_fct (ch a) (fun y => f y - ln (expsum (seq 0 n) y))) g). split.
      * intros y. rewrite L1, G1. cbn. unfold plus_fct, mult_real_fct. f_equal. ring.
      * apply derivable_pt_lim_plus; auto. apply derivable_pt_lim_scal. auto.
Qed.
End Derivative.
(** For every case, every parameter and every family of utilities differentiable in that parameter,
    with the availability fixed and every chosen alternative available: the case's log likelihood is a
    differentiable function of the parameter and the kernel's gradient is its derivative. *)
Theorem C62_gradient_is_derivative : forall d c v (F : nat -> option (R -> R)) x,
  (forall i, (i < d_alts d)%nat ->
     match F i with Some f => d_u d c i = Some (f x) /\ derivable_pt_lim f x (d_du d c i v) | None => d_u d c i = None end) ->
  (forall a, (a < d_alts d)%nat -> d_ch d c a <> 0 -> d_u d c a <> None) ->
  exists g,
    (forall y, oscale (d_wt d c) (loglike_of (logit (d_alts d) (fun i => match F i with Some f => Some (f y) | None => None end)) (d_ch d c) (seq 0 (d_alts d))) = Some (g y)) /\
    case_ll d c = Some (g x) /\ derivable_pt_lim g x (case_dll d c v).
Proof.
  intros d c v F x H Hch.
  assert (HF : forall i f, (i < d_alts d)%nat -> F i = Some f -> derivable_pt_lim f x (d_du d c i v)).
  { intros i f Hi E. specialize (H i Hi). rewrite E in H. apply H. }
  assert (Hu : forall i, (i < d_alts d)%nat -> util F x i = d_u d c i).
  { intros i Hi. unfold util. specialize (H i Hi). destruct (F i); [destruct H; auto|auto]. }
  destruct (loglike_derivative (d_alts d) F x (fun i => d_du d c i v) HF (d_ch d c) (seq 0 (d_alts d))) as [g [G1 G2]].
  - intros a Ha. apply in_seq in Ha. lia.
  - intros a Ha Hn E. apply in_seq in Ha. apply (Hch a ltac:(lia) Hn). rewrite <- Hu by lia. unfold util. rewrite E. auto.
  - assert (Ex : forall i, (i < d_alts d)%nat -> logit (d_alts d) (util F x) i = prob d c i).
    { intros i Hi. unfold prob, logit. rewrite (Rsum_ext (fun j => oexp (util F x j)) (fun j => oexp (d_u d c j))), Hu; auto.
      intros j Hj. apply in_seq in Hj. rewrite Hu by lia. auto. }
    assert (LL : loglike_of (logit (d_alts d) (util F x)) (d_ch d c) (seq 0 (d_alts d)) = loglike_of (prob d c) (d_ch d c) (seq 0 (d_alts d))).
    { rewrite !loglike_of_total. apply total_ext. intros i Hi. apply in_seq in Hi. rewrite Ex by lia. auto. }
    exists (mult_real_fct (d_wt d c) g). repeat split.
    + intros y. change (fun i => match F i with Some f => Some (f y) | None => None end) with (util F y). rewrite G1. cbn. unfold mult_real_fct. f_equal. ring.
    + unfold case_ll. rewrite <- LL, G1. cbn. unfold mult_real_fct. f_equal. ring.
    + unfold case_dll. apply derivable_pt_lim_scal.
      replace (Rsum (fun a => d_ch d c a * score (d_alts d) (prob d c) (d_du d c) a v) (seq 0 (d_alts d))) with
        (Rsum (fun a => d_ch d c a * (d_du d c a v - Rsum (fun i => logit (d_alts d) (util F x) i * d_du d c i v) (seq 0 (d_alts d)))) (seq 0 (d_alts d))); auto.
      apply Rsum_ext. intros a _. unfold score. do 2 f_equal. apply Rsum_ext. intros i Hi. apply in_seq in Hi. rewrite Ex by lia. auto.
Qed.

(** ** Executions exist *)
Lemma seq_interleaving ps : interleaving ps (concat ps).
Proof.
  induction ps as [|p ps IH]; [constructor; intros p []|]. cbn [concat].
  assert (L : forall p, interleaving (p :: ps) (p ++ concat ps)).
  { clear p. induction p as [|i p IHp].
    - cbn [app]. clear - IH. set (q := @nil instr). assert (G : forall qs tr, interleaving qs tr -> interleaving ([] :: qs) tr).
      { induction 1 as [qs E|l1 i p l2 tr _ IHt]; [constructor; intros p [ <-|Hp]; auto|]. exact (il_step ([] :: l1) i p l2 tr IHt). }
      apply G. auto.
    - cbn [app]. exact (il_step [] i p ps _ IHp). }
  apply L.
Qed.
Lemma some_execution d o nt stop : (0 < nt)%nat -> exists res, execution d o nt stop res.
Proof.
  intros H. destruct nt as [|nt]; [lia|]. set (dist := case_range (o_start o) stop (o_step o) :: repeat [] nt).
  exists (finish d o (S nt) (run (concat (threads d o dist)) zeros)).
  apply (execute d o (S nt) stop dist (concat (threads d o dist))).
  - cbn. rewrite repeat_length. auto.
  - unfold dist. cbn [concat]. replace (concat (repeat [] nt)) with (@nil Z); [rewrite app_nil_r; auto|]. clear. induction nt; auto.
  - apply seq_interleaving.
Qed.
Lemma some_kernel d o n stop req : exists res, kernel d o n stop req res.
Proof. unfold kernel. apply some_execution. unfold n_threads. destruct (Z.leb_spec req 0); lia. Qed.

(** ** What the documentation says of a negative stop *)
(** The documentation: negative values of stop_case count backward from the end, and -1 includes all cases;
    so -2 would stop one case earlier.  Every negative value includes every case. *)
Theorem C62_negative_stop_refuted : exists d o n_cases,
  (exists r, kernel d o n_cases (-2) 1 r) /\
  forall r r1, kernel d o n_cases (-2) 1 r -> kernel d o n_cases (-1) 1 r1 ->
    x_ll r = x_ll r1 /\
    forall r2, kernel d o n_cases (n_cases - 1) 1 r2 -> x_ll r <> x_ll r2.
Proof.
  exists (mkData 2 0 (fun _ => 1) (fun _ i => if Nat.eqb i 0 then 1 else 0) 1 (fun _ _ => Some 0) (fun _ _ _ => 0)).
  exists (mkOpts false false 0 1 (-1) (-1) (-1) false (fun _ => false)). exists 2%Z. split; [apply some_kernel|].
  intros r r1 K K1. set (d := mkData _ _ _ _ _ _ _) in *. set (o := mkOpts _ _ _ _ _ _ _ _ _) in *.
  destruct (exec_inv _ _ _ _ _ K ltac:(reflexivity)) as [E _]. destruct (exec_inv _ _ _ _ _ K1 ltac:(reflexivity)) as [E1 _].
  split; [rewrite E, E1; auto|]. intros r2 K2. destruct (exec_inv _ _ _ _ _ K2 ltac:(reflexivity)) as [E2 _].
  rewrite E, E2 by reflexivity.
  change (filter (selected o) (case_range (o_start o) (stop_of 2 (-2)) (o_step o))) with [0%Z; 1%Z].
  change (filter (selected o) (case_range (o_start o) (stop_of 2 (2 - 1)) (o_step o))) with [0%Z].
  assert (P : prob d 0%Z 0%nat = / 2).
  { unfold prob, logit. cbn [d_alts d_u d]. unfold Rsum. cbn [seq fold_right oexp]. rewrite exp_0. destruct (Req_EM_T _ 0); lra. }
  assert (C : forall c, case_ll d c = Some (ln (/ 2))).
  { intros c. unfold case_ll. change (prob d c) with (prob d 0%Z). cbn [d_alts d_ch d_wt d seq loglike_of Nat.eqb].
    destruct (Req_EM_T 1 0); [lra|]. destruct (Req_EM_T 0 0); [|lra]. rewrite P. unfold flog. destruct (Rlt_dec 0 (/ 2)); [|lra]. cbn. f_equal. ring. }
  cbn [map]. rewrite !C. cbn. intros H. injection H. intros H'. assert (ln (/ 2) < 0); [|lra]. rewrite <- ln_1. apply ln_increasing; lra.
Qed.

(** ** Examples *)
(** Two cases, two alternatives, one parameter, two threads that interleave store by store. *)
Definition ex_d : data := mkData 2 1 (fun c => if (c =? 0)%Z then 2 else 3) (fun _ i => if Nat.eqb i 0 then 1 else 0) 1
  (fun _ _ => Some 0) (fun _ i _ => if Nat.eqb i 0 then 1 else 0).
Definition ex_o : opts := mkOpts true true 0 1 (-1) (-1) (-1) false (fun a => match a with AP => true | _ => false end).
Example C62_example : exists res, kernel ex_d ex_o 2 (-1) 2 res /\ lists_sample ex_o 2 [0; 1]%Z /\ x_dll res 0%nat = 5 / 2.
Proof.
  destruct (some_kernel ex_d ex_o 2 (-1) 2) as [res K]. exists res.
  assert (L : lists_sample ex_o 2 [0; 1]%Z) by exact (range_sample ex_o 2 ltac:(reflexivity)).
  split; [auto|]. split; [auto|]. destruct (C62_totals ex_d ex_o 2 (-1) 2 res [0; 1]%Z K ltac:(reflexivity) L eq_refl) as [_ [H _]].
  rewrite H by (auto; cbn; lia). unfold case_dll, score, Rsum. cbn [d_params d_alts d_ch d_wt d_du d_norm ex_d seq fold_right Nat.eqb Z.eqb].
  assert (P : forall c i, prob ex_d c i = / 2).
  { intros c i. unfold prob, logit, Rsum. cbn [d_alts d_u ex_d seq fold_right oexp]. rewrite exp_0. destruct (Req_EM_T _ 0); lra. }
  rewrite !P. lra.
Qed.
(** The first stores of two threads in the other order: another interleaving of the same threads. *)
Example C62_interleavings : forall (i j : instr) p q, interleaving [i :: p; j :: q] (j :: i :: p ++ q).
Proof.
  intros. apply (il_step [i :: p] j q []). apply (il_step [] i p [q]).
  assert (H := seq_interleaving [p; q]). cbn [concat] in H. rewrite app_nil_r in H. exact H.
Qed.
