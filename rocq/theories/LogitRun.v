From Coq Require Import Permutation FunctionalExtensionality.
From Verif Require Export LogitProofs.

Lemma fold_flat_map {A B C} (f : A -> B -> A) (g : C -> list B) l a :
  fold_left f (flat_map g l) a = fold_left (fun a k => fold_left f (g k) a) l a.
Proof. revert a. induction l; simpl; intros a0; auto. rewrite fold_left_app. auto. Qed.
Lemma fold_map {A B C} (f : A -> B -> A) (g : C -> B) l a :
  fold_left f (map g l) a = fold_left (fun a c => f a (g c)) l a.
Proof. revert a. induction l; simpl; auto. Qed.
Lemma fold_ext_in {A B} (f g : A -> B -> A) l : (forall x a, In x l -> f a x = g a x) ->
  forall a, fold_left f l a = fold_left g l a.
Proof.
  induction l as [|x l IH]; simpl; intros H a; auto. rewrite (H x) by auto. apply IH. auto.
Qed.
Lemma upd_upd {A} (f : nat -> A) k x y : upd (upd f k x) k y = upd f k y.
Proof. apply functional_extensionality. intros i. unfold upd. destruct (i =? k)%nat; auto. Qed.
Lemma upd_same {A} (f : nat -> A) k x : f k = x -> upd f k x = f.
Proof.
  intros H. apply functional_extensionality. intros i. unfold upd.
  destruct (Nat.eqb_spec i k); congruence.
Qed.

Lemma under_trans kids a b c : under kids a b -> under kids b c -> under kids a c.
Proof. induction 1; auto. intros H2. eapply under_step; eauto. Qed.
Lemma under_le kids (Hless : forall k j, In j (kids k) -> (j < k)%nat) a b : under kids a b -> (b <= a)%nat.
Proof. induction 1; auto. apply Hless in H. lia. Qed.

Section Dag.
Variable st : slots.
Variable kids : nat -> list nat.
Hypothesis T : dag_slots st kids.
Notation na := (n_alts st).
Notation n := (n_nodes st).

(** ----- cascades ----- *)
Lemma cascade_gen {A} (op : A -> A -> A) (a0 : nat -> A) :
  let F := fun (a : nat -> A) k => fold_left (fun x j => op x (a j)) (kids k) (a k) in
  let V := fold_left (fun a e => upd a (fst e) (op (a (fst e)) (a (snd e)))) (edges st) a0 in
  (forall k, (k < n)%nat -> V k = fold_left (fun x j => op x (V j)) (kids k) (a0 k)).
Proof.
  intros F V k Hk. unfold V. rewrite (ts_edges _ _ T), fold_flat_map.
  rewrite (fold_ext_in _ (fun a k => upd a k (F a k))).
  2:{ intros x a Hx. apply in_seq in Hx. rewrite fold_map. simpl. unfold F.
      assert (Hlt : forall j, In j (kids x) -> j <> x).
      { intros j Hj. apply (ts_less _ _ T) in Hj. lia. }
      assert (Hgen : forall l b, (forall j, In j l -> j <> x) -> (forall j, j <> x -> b j = a j) ->
         fold_left (fun a0 c => upd a0 x (op (a0 x) (a0 c))) l b = upd a x (fold_left (fun y j => op y (a j)) l (b x))).
      { induction l as [|c l IH]; simpl; intros b Hl Hb.
        - apply functional_extensionality. intros i. unfold upd.
          destruct (Nat.eqb_spec i x); subst; auto.
        - rewrite IH; auto.
          + rewrite upd_eq. rewrite (Hb c); auto.
          + intros j Hj. rewrite upd_neq; auto. }
      apply Hgen; auto. }
  assert (HF : forall (U U' : nat -> A) k, (0 <= k < n)%nat -> (forall j, (j < k)%nat -> U j = U' j) -> U k = U' k ->
     F U k = F U' k).
  { intros U U' k0 _ H1 H2. unfold F. rewrite H2. apply fold_ext_in.
    intros x a Hx. rewrite H1; auto. apply (ts_less _ _ T). auto. }
  destruct (fold_up F 0 n HF n 0 a0) as [_ I2]; [lia|lia|].
  set (W := fold_left _ _ _) in *. rewrite I2 by lia. unfold F. rewrite upd_eq.
  apply fold_ext_in. intros x a Hx. rewrite upd_neq; auto. apply (ts_less _ _ T) in Hx. lia.
Qed.
Lemma fold_orb {A} (f : A -> bool) l b : fold_left (fun x j => x || f j) l b = b || existsb f l.
Proof. revert b. induction l; simpl; intros b; [rewrite orb_false_r|rewrite IHl, orb_assoc]; auto. Qed.
Lemma av_cascade_alt av a : (a < na)%nat -> array_av_cascade st av a = av a.
Proof.
  intros Ha. assert (Hr := ts_root _ _ T). unfold array_av_cascade, cascade_or.
  rewrite (cascade_gen orb) by lia. rewrite (ts_leaf _ _ T) by auto. simpl.
  apply Nat.ltb_lt in Ha. rewrite Ha. auto.
Qed.
Lemma av_cascade_nest av k : (na <= k < n)%nat ->
  array_av_cascade st av k = existsb (array_av_cascade st av) (kids k).
Proof.
  intros Hk. unfold array_av_cascade at 1, cascade_or. rewrite (cascade_gen orb) by lia.
  rewrite fold_orb. destruct (Nat.ltb_spec k na); [lia|]. simpl. auto.
Qed.
Lemma ch_cascade_alt ch a : (a < na)%nat -> array_ch_cascade st ch a = ch a.
Proof.
  intros Ha. assert (Hr := ts_root _ _ T). unfold array_ch_cascade, cascade_sum.
  rewrite (cascade_gen Rplus) by lia. rewrite (ts_leaf _ _ T) by auto. simpl.
  apply Nat.ltb_lt in Ha. rewrite Ha. auto.
Qed.
Lemma ch_cascade_nest ch k : (na <= k < n)%nat ->
  array_ch_cascade st ch k = Rsum (array_ch_cascade st ch) (kids k).
Proof.
  intros Hk. unfold array_ch_cascade at 1, cascade_sum. rewrite (cascade_gen Rplus) by lia.
  rewrite fold_left_Rplus. destruct (Nat.ltb_spec k na); [lia|].
  rewrite Rplus_0_l. auto.
Qed.

(** ----- utilities ----- *)
Variable par : nat -> R.
Variable u : nat -> option R.
Notation U := (node_utilities st par u).
Definition nest_fun (V : nat -> option R) (up : nat) : option R :=
  if Req_EM_T (mu_of st par up) 0 then fold_left (max_step V) (children st up) (V up)
  else
    let '(sh, pos) := fold_left (shifter_step (mu_of st par up) V) (children st up) (None, None) in
      match sh with
      | None => None
      | Some s =>
          let base := match V up with Some x => x | None => 0 end in
          Some ((ln (fold_left (exp_step (mu_of st par up) s pos V) (children st up) base) + s) * mu_of st par up)
      end.
Lemma nest_step_fun V up : nest_step st par V up = upd V up (nest_fun V up).
Proof.
  unfold nest_step, nest_fun. destruct (Req_EM_T _ 0); auto.
  destruct (fold_left _ _ _) as [sh pos]. auto.
Qed.
Lemma nest_fun_ext V V' k : (na <= k < n)%nat -> (forall j, (j < k)%nat -> V j = V' j) -> V k = V' k ->
  nest_fun V k = nest_fun V' k.
Proof.
  intros Hk H1 H2. unfold nest_fun. rewrite (ts_children _ _ T k Hk), H2.
  assert (Hj : forall j, In j (kids k) -> V j = V' j).
  { intros j Hj. apply H1. apply (ts_less _ _ T). auto. }
  destruct (Req_EM_T _ 0).
  - apply fold_ext_in. intros x a Hx. unfold max_step. rewrite Hj; auto.
  - rewrite (fold_ext_in (shifter_step (mu_of st par k) V) (shifter_step (mu_of st par k) V')).
    2:{ intros x a Hx. unfold shifter_step. rewrite Hj; auto. }
    destruct (fold_left _ _ _) as [[s|] pos]; auto.
    do 4 f_equal. apply fold_ext_in. intros x a Hx. unfold exp_step. rewrite Hj; auto.
Qed.
Lemma U_gen : (forall a, (a < na)%nat -> U a = u a) /\
  (forall k, (na <= k < n)%nat -> U k = nest_fun (upd U k (Some 0)) k).
Proof.
  assert (Hr := ts_root _ _ T). unfold node_utilities.
  assert (E : fold_left (nest_step st par) (seq na (n - na)) (init_utility st u) =
              fold_left (fun V k => upd V k (nest_fun V k)) (seq na (n - na)) (init_utility st u)).
  { apply fold_ext_in. intros; apply nest_step_fun. }
  rewrite E.
  destruct (fold_up nest_fun na n nest_fun_ext (n - na) na (init_utility st u)) as [I1 I2]; [lia|lia|].
  set (V := fold_left _ _ _) in *. split.
  - intros a Ha. rewrite I1 by lia. unfold init_utility. apply Nat.ltb_lt in Ha. rewrite Ha. auto.
  - intros k Hk. rewrite I2 by lia. unfold init_utility. destruct (Nat.ltb_spec k na); [lia|auto].
Qed.
Lemma U_alt a : (a < na)%nat -> U a = u a.
Proof. apply U_gen. Qed.
Lemma U_nest k : (na <= k < n)%nat -> mu_of st par k <> 0 ->
  U k = logsum (mu_of st par k) (map U (kids k)).
Proof.
  intros Hk Hmu. destruct U_gen as [_ H]. rewrite (H k Hk). unfold nest_fun.
  destruct (Req_EM_T _ 0) as [E|_]; [congruence|].
  rewrite upd_eq. rewrite (nest_val (mu_of st par k) (upd U k (Some 0)) (children st k) 0 Hmu eq_refl).
  rewrite (ts_children _ _ T k Hk). f_equal. apply map_ext_in. intros j Hj. apply upd_neq.
  apply (ts_less _ _ T) in Hj. lia.
Qed.
Lemma logsum_finite mu xs : finite (logsum mu xs) <-> exists x, In x xs /\ finite x.
Proof.
  unfold logsum, finite. destruct (existsb _ xs) eqn:E.
  - split; [intros _|intros; discriminate]. apply existsb_exists in E. destruct E as [x [Hx Hs]].
    exists x. split; auto. destruct x; congruence.
  - split; [congruence|]. intros [x [Hx Hs]]. exfalso.
    rewrite <- not_true_iff_false, existsb_exists in E. apply E. exists x. split; auto.
    destruct x; congruence.
Qed.

Hypothesis Hmu : forall k, (na <= k < n)%nat -> mu_of st par k <> 0.

Lemma U_finite k : (k < n)%nat ->
  (finite (U k) <-> exists a, (a < na)%nat /\ under kids k a /\ finite (u a)).
Proof.
  induction k as [k IH] using lt_wf_ind. intros Hk.
  destruct (Nat.lt_ge_cases k na) as [Hlt|Hge].
  - rewrite (U_alt k Hlt). split.
    + intros H. exists k. repeat split; auto. constructor.
    + intros [a [Ha [Hu Hf]]]. assert (a = k); [|subst; auto].
      inversion Hu; subst; auto. rewrite (ts_leaf _ _ T) in H by auto. destruct H.
  - rewrite U_nest by auto. rewrite logsum_finite. split.
    + intros [x [Hx Hf]]. apply in_map_iff in Hx. destruct Hx as [j [<- Hj]].
      destruct (kid_range _ _ T k j Hk Hj) as [Hjk _].
      apply IH in Hf; [|auto|lia]. destruct Hf as [a [Ha [Hu Hf]]]. exists a. repeat split; auto.
      eapply under_step; eauto.
    + intros [a [Ha [Hu Hf]]]. inversion Hu as [|k' j a' Hj Hja]; subst.
      * lia.
      * destruct (kid_range _ _ T k j Hk Hj) as [Hjk _].
        exists (U j). split; [apply in_map; auto|]. apply IH; auto. lia. exists a; auto.
Qed.
Variable av : nat -> bool.
Hypothesis Hav : av_matches st u av.
Notation avx := (array_av_cascade st av).
Lemma avx_finite k : (k < n)%nat -> (avx k = true <-> finite (U k)).
Proof.
  induction k as [k IH] using lt_wf_ind. intros Hk.
  destruct (Nat.lt_ge_cases k na) as [Hlt|Hge].
  - rewrite av_cascade_alt, U_alt by auto. apply Hav; auto.
  - rewrite av_cascade_nest, U_nest by auto. rewrite logsum_finite, existsb_exists. split.
    + intros [j [Hj Ha]]. exists (U j). split; [apply in_map; auto|].
      destruct (kid_range _ _ T k j Hk Hj). apply IH; auto; lia.
    + intros [x [Hx Hf]]. apply in_map_iff in Hx. destruct Hx as [j [<- Hj]].
      exists j. split; auto. destruct (kid_range _ _ T k j Hk Hj). apply IH; auto; lia.
Qed.

(** S_k = exp(U_k/mu) *)
Lemma nest_exp k : (na <= k < n)%nat -> finite (U k) ->
  Rsum (fun j => oexp (mu_of st par k) (U j)) (kids k) = exp (val (U k) / mu_of st par k) /\
  0 < Rsum (fun j => oexp (mu_of st par k) (U j)) (kids k).
Proof.
  intros Hk Hf. assert (Hu := U_nest k Hk (Hmu k Hk)).
  assert (Hf2 : exists x, In x (map U (kids k)) /\ finite x).
  { apply (logsum_finite (mu_of st par k)). rewrite <- Hu. auto. }
  unfold logsum in Hu. destruct (existsb _ _) in Hu; [|unfold finite in Hf; congruence].
  rewrite Hu. simpl val. rewrite Rsum_map.
  assert (Hpos : 0 < Rsum (fun j => oexp (mu_of st par k) (U j)) (kids k)).
  { destruct Hf2 as [x [Hx Hfx]]. apply in_map_iff in Hx. destruct Hx as [j [<- Hj]].
    apply (Rsum_pos _ _ j); auto; [intros; apply oexp_nonneg|].
    destruct (U j) as [v|] eqn:Ej; [simpl; apply exp_pos|unfold finite in Hfx; congruence]. }
  split; auto.
  replace (mu_of st par k * ln (Rsum (fun a => oexp (mu_of st par k) (U a)) (kids k)) / mu_of st par k)
    with (ln (Rsum (fun a => oexp (mu_of st par k) (U a)) (kids k))) by (field; auto).
  rewrite exp_ln; auto.
Qed.

End Dag.

Section Run.
Variable st : slots.
Variable kids : nat -> list nat.
Hypothesis T : tree_slots st kids.
Notation na := (n_alts st).
Notation n := (n_nodes st).
Lemma all_under_root j : (j < n)%nat -> under kids (n - 1) j.
Proof.
  intros Hj. remember (n - 1 - j)%nat as d eqn:Hd. revert j Hj Hd.
  induction d as [d IH] using lt_wf_ind. intros j Hj Hd.
  destruct (Nat.eq_dec j (n - 1)) as [ ->|Hne]; [constructor|].
  destruct (parent_ex st kids T j) as [k [Hk Hin]]; [lia|].
  destruct (kid_range st kids T k j Hk Hin) as [H1 _].
  eapply under_trans; [apply (IH (n - 1 - k)%nat); auto; lia|].
  eapply under_step; [exact Hin|constructor].
Qed.


Variable par : nat -> R.
Variable u : nat -> option R.
Notation U := (node_utilities st par u).
Hypothesis Hmu : forall k, (na <= k < n)%nat -> mu_of st par k <> 0.
Lemma U_root_finite : (exists a, (a < na)%nat /\ finite (u a)) <-> finite (U (n - 1)).
Proof.
  assert (Hr := ts_root _ _ T). rewrite (U_finite st kids T) by (auto; lia). split.
  - intros [a [Ha Hf]]. exists a. repeat split; auto. apply all_under_root. lia.
  - intros [a [Ha [_ Hf]]]. eauto.
Qed.


Variable av : nat -> bool.
Hypothesis Hav : av_matches st u av.
Notation avx := (array_av_cascade st av).
Local Notation avx_finite := (avx_finite st kids T par u Hmu av Hav).
Local Notation nest_exp := (nest_exp st kids T par u Hmu).
Local Notation U_nest := (U_nest st kids T par u).
Local Notation U_alt := (U_alt st kids T par u).
Local Notation ch_cascade_alt := (ch_cascade_alt st kids T).
Local Notation ch_cascade_nest := (ch_cascade_nest st kids T).
Local Notation av_cascade_alt := (av_cascade_alt st kids T).
Local Notation av_cascade_nest := (av_cascade_nest st kids T).
(** ----- log probabilities ----- *)
Variable ch : nat -> R.
Variable wt : R.
Variable lp0 : nat -> option R.
Notation chx := (array_ch_cascade st ch).
Definition ev (e : nat * nat) : option R := edge_logprob (mu_of st par (fst e)) (U (fst e)) (U (snd e)).
Lemma logprob_loop_split L lp0' ll0 :
  fold_left (logprob_step st par U chx wt) L (lp0', ll0) =
  (fold_left (fun P e => upd P (snd e) (ev e)) L lp0',
   fold_left (fun ll e => if Req_EM_T (chx (snd e)) 0 then ll
       else oadd ll (match ev e with Some x => Some (x * chx (snd e) * wt) | None => None end)) L ll0).
Proof.
  revert lp0' ll0. induction L as [|[up dn] L IH]; simpl; intros lp0' ll0; auto.
Qed.
Notation lp := (fst (logprob_loop st par U chx wt lp0)).
Notation ll := (snd (logprob_loop st par U chx wt lp0)).
Lemma lp_spec k j : (k < n)%nat -> In j (kids k) ->
  lp j = edge_logprob (mu_of st par k) (U k) (U j).
Proof.
  intros Hk Hj. unfold logprob_loop. rewrite logprob_loop_split. simpl.
  destruct (fold_write ev (edges st) (dn_nodup st kids T) lp0) as [_ H].
  apply (H (k, j)). apply (in_edges_iff st kids T). auto.
Qed.

Notation cp := (cond_prob avx lp).
Lemma cp_spec k j : (k < n)%nat -> In j (kids k) ->
  cp j = match U j with Some x => exp ((x - val (U k)) / mu_of st par k) | None => 0 end.
Proof.
  intros Hk Hj. unfold cond_prob. destruct (kid_range _ _ T k j Hk Hj) as [H1 H2].
  assert (Ha := avx_finite j). rewrite (lp_spec k j Hk Hj).
  destruct (U j) as [x|] eqn:Ej.
  - assert (Ht : avx j = true) by (apply Ha; [lia|unfold finite; congruence]). rewrite Ht.
    assert (Hfk : finite (U k)).
    { rewrite (U_nest k) by (auto; lia). apply logsum_finite. exists (U j).
      split; [apply in_map; auto|unfold finite; congruence]. }
    destruct (U k) as [y|] eqn:Ek; [simpl; auto|unfold finite in Hfk; congruence].
  - assert (Hff : avx j = false).
    { apply not_true_iff_false. rewrite Ha by lia. unfold finite. congruence. }
    rewrite Hff. auto.
Qed.
Lemma cp_share k j : (k < n)%nat -> In j (kids k) -> finite (U k) ->
  cp j = oexp (mu_of st par k) (U j) / Rsum (fun j => oexp (mu_of st par k) (U j)) (kids k).
Proof.
  intros Hk Hj Hf. destruct (kid_range _ _ T k j Hk Hj) as [H1 H2].
  destruct (nest_exp k) as [E Hp]; auto. rewrite (cp_spec k j Hk Hj).
  rewrite E in *. unfold oexp. destruct (U j) as [x|]; [|unfold Rdiv; lra].
  replace (exp (x / mu_of st par k) / exp (val (U k) / mu_of st par k)) with (exp (x / mu_of st par k) * exp (- (val (U k) / mu_of st par k))) by (rewrite exp_Ropp; auto).
  rewrite <- exp_plus. f_equal. field. apply Hmu. lia.
Qed.
Lemma cp_sum k : (na <= k < n)%nat -> finite (U k) -> Rsum cp (kids k) = 1.
Proof.
  intros Hk Hf. destruct (nest_exp k) as [_ Hp]; auto.
  rewrite (Rsum_ext _ (fun j => oexp (mu_of st par k) (U j) * / Rsum (fun j => oexp (mu_of st par k) (U j)) (kids k))).
  - rewrite Rsum_scal_r. field. lra.
  - intros j Hj. rewrite (cp_share k j); auto. lia.
Qed.

(** ----- probabilities ----- *)
Variable P0 : nat -> R.
Notation P := (probabilities st avx cp P0).
Lemma P_spec : P (n - 1)%nat = 1 /\
  (forall k j, (k < n)%nat -> In j (kids k) -> P j = P k * cp j).
Proof.
  unfold probabilities.
  set (F := fun (Q : nat -> R) (e : nat * nat) => if avx (snd e) then Q (fst e) * cp (snd e) else 0).
  rewrite (fold_ext_in _ (fun Q e => upd Q (snd e) (F Q e))).
  2:{ intros [up dn] a _. unfold prob_step, F. simpl. destruct (avx dn); auto. }
  destruct (fold_down F (rev (edges st))) with (P0 := upd P0 (n - 1) 1) as [I1 I2].
  { intros V V' e H1 H2. unfold F. rewrite H1. auto. }
  { rewrite map_rev. apply NoDup_rev. apply (dn_nodup st kids T). }
  { apply (rev_order st kids T). }
  set (W := fold_left _ _ _) in *. split.
  - rewrite I1; [apply upd_eq|]. rewrite map_rev, <- in_rev. intros H.
    eapply Permutation_in in H; [|apply (dn_perm st kids T)]. apply in_seq in H. lia.
  - intros k j Hk Hj. destruct (kid_range _ _ T k j Hk Hj) as [H1 H2].
    assert (HI := I2 (k, j)). simpl in HI. rewrite HI.
    2:{ rewrite <- in_rev. apply (in_edges_iff st kids T). auto. }
    unfold F at 1. simpl. rewrite upd_neq by lia.
    destruct (avx j) eqn:Ea; auto. unfold cond_prob. rewrite Ea. lra.
Qed.
Lemma P_unavailable j : (j < n - 1)%nat -> ~ finite (U j) -> P j = 0.
Proof.
  intros Hj Hf. destruct (parent_ex st kids T j Hj) as [k [Hk Hin]].
  destruct P_spec as [_ H]. rewrite (H k j Hk Hin), (cp_spec k j Hk Hin).
  destruct (U j); [exfalso; apply Hf; unfold finite; congruence|lra].
Qed.
Lemma P_nonneg j : (j < n)%nat -> 0 <= P j.
Proof.
  intros Hj. remember (n - 1 - j)%nat as d eqn:Hd. revert j Hj Hd.
  induction d as [d IH] using lt_wf_ind. intros j Hj Hd. destruct P_spec as [H1 H2].
  destruct (Nat.eq_dec j (n - 1)) as [E|Hne]; [rewrite E, H1; lra|].
  destruct (parent_ex st kids T j) as [k [Hk Hin]]; [lia|].
  destruct (kid_range st kids T k j Hk Hin) as [H3 _].
  rewrite (H2 k j Hk Hin). apply Rmult_le_pos; [apply (IH (n - 1 - k)%nat); auto; lia|].
  rewrite (cp_spec k j Hk Hin). destruct (U j); [left; apply exp_pos|lra].
Qed.
Lemma P_pos j : (j < n)%nat -> finite (U j) -> 0 < P j.
Proof.
  intros Hj. remember (n - 1 - j)%nat as d eqn:Hd. revert j Hj Hd.
  induction d as [d IH] using lt_wf_ind. intros j Hj Hd Hf. destruct P_spec as [H1 H2].
  destruct (Nat.eq_dec j (n - 1)) as [E|Hne]; [rewrite E, H1; lra|].
  destruct (parent_ex st kids T j) as [k [Hk Hin]]; [lia|].
  destruct (kid_range st kids T k j Hk Hin) as [H3 H4].
  rewrite (H2 k j Hk Hin). apply Rmult_lt_0_compat; [apply (IH (n - 1 - k)%nat); auto; try lia|].
  - rewrite U_nest by (auto; lia). apply logsum_finite. exists (U j). split; [apply in_map|]; auto.
  - rewrite (cp_spec k j Hk Hin). destruct (U j); [apply exp_pos|]. unfold finite in Hf; congruence.
Qed.
Lemma P_kids k : (na <= k < n)%nat -> (finite (U k) \/ (k < n - 1)%nat) -> Rsum P (kids k) = P k.
Proof.
  intros Hk Hf. destruct P_spec as [_ H].
  rewrite (Rsum_ext P (fun j => P k * cp j)) by (intros; apply H; auto; lia).
  rewrite Rsum_scal. destruct (U k) as [x|] eqn:Ek.
  - rewrite cp_sum; auto; [lra|unfold finite; congruence].
  - destruct Hf as [Hf|Hf]; [unfold finite in Hf; congruence|].
    rewrite (P_unavailable k) by (auto; unfold finite; congruence). lra.
Qed.
Lemma P_sum : finite (U (n - 1)) -> Rsum P (seq 0 na) = 1.
Proof.
  intros Hf. destruct P_spec as [H1 _]. rewrite <- H1.
  apply (telescope st kids T P). intros k Hk. apply P_kids; auto.
  destruct (Nat.eq_dec k (n - 1)) as [ ->|]; auto. right. lia.
Qed.

(** ----- log likelihood ----- *)
Lemma ll_gen L : (forall e, In e L -> chx (snd e) = 0 \/ finite (ev e)) -> forall x,
  fold_left (fun l e => if Req_EM_T (chx (snd e)) 0 then l
     else oadd l (match ev e with Some x => Some (x * chx (snd e) * wt) | None => None end)) L (Some x)
  = Some (x + wt * Rsum (fun e => chx (snd e) * val (ev e)) L).
Proof.
  induction L as [|e L IH]; simpl; intros H x; [f_equal; lra|].
  destruct (Req_EM_T (chx (snd e)) 0) as [E|E].
  - rewrite IH by auto. rewrite E. f_equal. lra.
  - destruct (H e (or_introl eq_refl)) as [H1|H1]; [congruence|].
    destruct (ev e) as [v|]; [|unfold finite in H1; congruence]. simpl. rewrite IH by auto.
    f_equal. lra.
Qed.
Lemma ln_P k j : (k < n)%nat -> In j (kids k) -> finite (U j) ->
  val (ev (k, j)) = ln (P j) - ln (P k) /\ finite (ev (k, j)).
Proof.
  intros Hk Hj Hf. destruct (kid_range _ _ T k j Hk Hj) as [H1 H2].
  assert (Hfk : finite (U k)).
  { rewrite (U_nest k) by (auto; lia). apply logsum_finite. exists (U j).
    split; [apply in_map; auto|auto]. }
  destruct P_spec as [_ H]. rewrite (H k j Hk Hj).
  assert (Hp := P_pos k Hk Hfk). assert (Hc := cp_spec k j Hk Hj).
  destruct (U j) as [x|] eqn:Ej; [|unfold finite in Hf; congruence].
  destruct (U k) as [y|] eqn:Ek; [|unfold finite in Hfk; congruence]. simpl in Hc.
  rewrite Hc, ln_mult by (auto; apply exp_pos). rewrite ln_exp.
  unfold ev. simpl. rewrite Ek, Ej. simpl. split; [lra|unfold finite; congruence].
Qed.
Lemma chx_zero_unless k : (forall a, (a < na)%nat -> ch a <> 0 -> finite (u a)) ->
  (k < n)%nat -> ~ finite (U k) -> chx k = 0.
Proof.
  intros Hch. induction k as [k IH] using lt_wf_ind. intros Hk Hf.
  destruct (Nat.lt_ge_cases k na) as [Hlt|Hge].
  - rewrite ch_cascade_alt by auto. rewrite U_alt in Hf by auto.
    destruct (Req_dec (ch k) 0) as [E|E]; auto. exfalso. auto.
  - rewrite ch_cascade_nest by auto. apply Rsum_zero. intros j Hj.
    destruct (kid_range _ _ T k j Hk Hj) as [H1 H2]. apply IH; [auto|lia|].
    intros Hfj. apply Hf. rewrite U_nest by auto. apply logsum_finite. exists (U j).
    split; [apply in_map; auto|auto].
Qed.
Lemma ll_spec : (forall a, (a < na)%nat -> ch a <> 0 -> finite (u a)) ->
  ll = Some (wt * Rsum (fun a => ch a * ln (P a)) (seq 0 na)).
Proof.
  intros Hch. assert (Hr := ts_root _ _ T).
  assert (Ell : ll = fold_left (fun l e => if Req_EM_T (chx (snd e)) 0 then l
     else oadd l (match ev e with Some x => Some (x * chx (snd e) * wt) | None => None end)) (edges st) (Some 0)).
  { unfold logprob_loop. rewrite logprob_loop_split. auto. }
  rewrite Ell. clear Ell. rewrite ll_gen.
  2:{ intros [k j] He. apply (in_edges_iff st kids T) in He. destruct He as [Hk Hj]. simpl.
      destruct (kid_range _ _ T k j Hk Hj) as [H1 H2].
      destruct (U j) as [x|] eqn:Ej.
      - right. apply ln_P; auto. unfold finite; congruence.
      - left. apply chx_zero_unless; [auto|lia|unfold finite; congruence]. }
  f_equal. rewrite Rplus_0_l. f_equal.
  rewrite (ts_edges _ _ T), Rsum_flat_map.
  rewrite (Rsum_ext _ (fun k => Rsum (fun j => chx j * ln (P j)) (kids k) - ln (P k) * (if (k <? na)%nat then 0 else chx k))).
  2:{ intros k Hk. apply in_seq in Hk. rewrite Rsum_map. simpl.
      rewrite (Rsum_ext _ (fun j => chx j * ln (P j) - ln (P k) * chx j)).
      - rewrite Rsum_minus, Rsum_scal. destruct (Nat.ltb_spec k na).
        + rewrite (ts_leaf _ _ T) by auto. simpl. lra.
        + rewrite <- ch_cascade_nest by lia. auto.
      - intros j Hj. destruct (kid_range _ _ T k j) as [H1 H2]; auto; [lia|].
        destruct (U j) as [x|] eqn:Ej.
        + destruct (ln_P k j) as [E _]; auto; [lia|unfold finite; congruence|]. rewrite E. lra.
        + rewrite (chx_zero_unless j); [lra|auto|lia|unfold finite; congruence]. }
  rewrite Rsum_minus. rewrite (sum_by_parent st kids T (fun j => chx j * ln (P j))).
  rewrite (seq_split_at st na n) by lia. rewrite Rsum_app.
  rewrite (Rsum_zero (fun k => ln (P k) * _) (seq 0 na)).
  2:{ intros k Hk. apply in_seq in Hk. destruct (Nat.ltb_spec k na); [lra|lia]. }
  rewrite (Rsum_ext _ (fun k => chx k * ln (P k)) (seq na (n - na))).
  2:{ intros k Hk. apply in_seq in Hk. destruct (Nat.ltb_spec k na); [lia|lra]. }
  rewrite (seq_split_at st na (n - 1)), Rsum_app by lia.
  replace (n - na)%nat with (S (n - 1 - na)) by lia.
  rewrite seq_S, Rsum_app. replace (na + (n - 1 - na))%nat with (n - 1)%nat by lia. simpl.
  destruct P_spec as [H1 _]. rewrite H1, ln_1.
  rewrite (Rsum_ext (fun a => ch a * ln (P a)) (fun a => chx a * ln (P a)) (seq 0 na)).
  - lra.
  - intros a Ha. apply in_seq in Ha. rewrite ch_cascade_alt; auto. lia.
Qed.
End Run.
