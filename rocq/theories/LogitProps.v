(** THEOREMS about the likelihood kernel (properties C01-C10).  Vocabulary: LogitSpec. *)
From Coq Require Import Permutation FunctionalExtensionality.
From Coquelicot Require Import Coquelicot.
From Verif Require Import LogitModel LogitSpec LogitProofs LogitRun LogitGrad LogitDeriv.

(** Logsum parameters for which the kernel's arithmetic stays clear of "+infinity": positive,
    or negative for a nest that has an available alternative. *)
Definition mu_valid (st : slots) (kids : nat -> list nat) (par : nat -> R) (u : nat -> option R) : Prop :=
  forall k, (n_alts st <= k < n_nodes st)%nat ->
    0 < mu_of st par k \/
    (mu_of st par k < 0 /\ exists a, (a < n_alts st)%nat /\ under kids k a /\ finite (u a)).

Lemma existsb_map {A B} (f : B -> bool) (g : A -> B) l : existsb f (map g l) = existsb (fun x => f (g x)) l.
Proof. induction l; simpl; auto. rewrite IHl. auto. Qed.
Lemma existsb_ext_in {A} (f g : A -> bool) l : (forall x, In x l -> f x = g x) -> existsb f l = existsb g l.
Proof. induction l as [|x l IH]; simpl; intros H; auto. rewrite (H x), IH; auto. Qed.

Lemma Rsum_swap {A B} (f : A -> B -> R) l1 l2 :
  Rsum (fun a => Rsum (fun b => f a b) l2) l1 = Rsum (fun b => Rsum (fun a => f a b) l1) l2.
Proof.
  induction l1 as [|x l1 IH]; simpl.
  - symmetry. apply Rsum_zero. auto.
  - rewrite IH, <- Rsum_plus. auto.
Qed.
Lemma NoDup_app_intro {A} (l1 l2 : list A) : NoDup l1 -> NoDup l2 -> (forall x, In x l1 -> ~ In x l2) -> NoDup (l1 ++ l2).
Proof.
  induction l1 as [|x l1 IH]; simpl; intros H1 H2 H3; auto. inversion H1; subst. constructor.
  - rewrite in_app_iff. intros [H|H]; [auto|]. apply (H3 x); auto.
  - apply IH; auto.
Qed.
Lemma under_snoc kids k c : under kids k c -> k = c \/ exists m, under kids k m /\ In c (kids m).
Proof.
  induction 1 as [k|k j a Hj Hu IH]; auto. right. destruct IH as [ ->|[m [Hm Hin]]].
  - exists k. split; auto. constructor.
  - exists m. split; auto. eapply under_step; eauto.
Qed.
(** in a tree two nodes above the same node are above one another *)
Lemma under_comparable st kids (T : tree_slots st kids) c : forall a b, (a < n_nodes st)%nat -> (b < n_nodes st)%nat ->
  under kids a c -> under kids b c -> under kids a b \/ under kids b a.
Proof.
  assert (Hmain : forall d c, d = (n_nodes st - c)%nat -> forall a b, (a < n_nodes st)%nat -> (b < n_nodes st)%nat ->
    under kids a c -> under kids b c -> under kids a b \/ under kids b a).
  { induction d as [d IH] using lt_wf_ind. intros c' Hd a b Ha Hb Hac Hbc.
    destruct (under_snoc _ _ _ Hac) as [ ->|[m [Hm Hin]]]; auto.
    destruct (under_snoc _ _ _ Hbc) as [ ->|[m' [Hm' Hin']]]; auto.
    assert (Hma := under_le kids (ts_less _ _ T) _ _ Hm). assert (Hmb := under_le kids (ts_less _ _ T) _ _ Hm').
    assert (m = m') by (apply (parent_unique st kids T c'); auto; lia). subst m'.
    assert (Hcm := ts_less _ _ T m c' Hin).
    apply (IH (n_nodes st - m)%nat ltac:(lia) m eq_refl a b); auto. }
  intros a b. apply (Hmain _ c eq_refl).
Qed.
Lemma sibling_disjoint st kids (T : tree_slots st kids) k j j' a : (k < n_nodes st)%nat ->
  In j (kids k) -> In j' (kids k) -> under kids j a -> under kids j' a -> j = j'.
Proof.
  intros Hk Hj Hj' Hu Hu'.
  destruct (kid_range _ _ T k j Hk Hj) as [H1 _]. destruct (kid_range _ _ T k j' Hk Hj') as [H2 _].
  assert (Hno : forall x y, In x (kids k) -> In y (kids k) -> under kids x y -> x = y).
  { intros x y Hx Hy Hxy. destruct (under_snoc _ _ _ Hxy) as [|[m [Hm Hin]]]; auto. exfalso.
    assert (Hmx := under_le kids (ts_less _ _ T) _ _ Hm). assert (Hxk := ts_less _ _ T k x Hx).
    assert (m = k) by (apply (parent_unique st kids T y); auto; lia). lia. }
  destruct (under_comparable st kids T a j j') as [H|H]; auto; try lia. symmetry. auto.
Qed.

Section Statements.
Variable st : slots.
Variable kids : nat -> list nat.
Variable par : nat -> R.
Variable u : nat -> option R.
Variable du : nat -> nat -> R.
Variable av : nat -> bool.
Variable ch : nat -> R.
Variable wt : R.
Variable lp0 : nat -> option R.
Variable P0 : nat -> R.
Notation na := (n_alts st).
Notation n := (n_nodes st).
Notation out := (run_case st par u du av ch wt lp0 P0).

Lemma mu_valid_nz : mu_valid st kids par u -> forall k, (na <= k < n)%nat -> mu_of st par k <> 0.
Proof. intros H k Hk. destruct (H k Hk) as [|[]]; lra. Qed.
Lemma mu_positive_valid : mu_positive st par -> mu_valid st kids par u.
Proof. intros H k Hk. left. auto. Qed.
Lemma mu_positive_nz : mu_positive st par -> forall k, (na <= k < n)%nat -> mu_of st par k <> 0.
Proof. intros H k Hk. specialize (H k Hk). lra. Qed.

Lemma out_utility : r_utility out = node_utilities st par u.
Proof.
  unfold run_case. destruct (logprob_loop _ _ _ _ _ _). destruct (dll_loop _ _ _ _ _). auto.
Qed.
Lemma out_prob : r_prob out = probabilities st (array_av_cascade st av)
  (cond_prob (array_av_cascade st av) (fst (logprob_loop st par (node_utilities st par u) (array_ch_cascade st ch) wt lp0))) P0.
Proof.
  unfold run_case. destruct (logprob_loop _ _ _ _ _ _). destruct (dll_loop _ _ _ _ _). auto.
Qed.
Lemma out_loglike : r_loglike out = snd (logprob_loop st par (node_utilities st par u) (array_ch_cascade st ch) wt lp0).
Proof.
  unfold run_case. destruct (logprob_loop _ _ _ _ _ _). destruct (dll_loop _ _ _ _ _). auto.
Qed.
Lemma out_deriv : exists DP,
  r_dloglike out = fst (dll_loop st (array_ch_cascade st ch) (r_prob out) wt DP) /\
  r_bhhh out = snd (dll_loop st (array_ch_cascade st ch) (r_prob out) wt DP).
Proof.
  unfold run_case. destruct (logprob_loop _ _ _ _ _ _) as [lp ll].
  eexists. destruct (dll_loop _ _ _ _ _) as [d b] eqn:E. simpl. rewrite E. auto.
Qed.

(** ---------------------------------------------------------------- C01 *)
Theorem C01_probabilities_sum_to_one :
  tree_slots st kids -> mu_valid st kids par u -> av_matches st u av ->
  (exists a, (a < na)%nat /\ av a = true) ->
  Rsum (r_prob out) (seq 0 na) = 1.
Proof.
  intros T M A [a [Ha Hav]]. rewrite out_prob.
  apply (P_sum st kids T par u (mu_valid_nz M) av A ch wt lp0 P0).
  apply (U_root_finite st kids T par u (mu_valid_nz M)). exists a. split; auto. apply A; auto.
Qed.
Theorem C01_none_available :
  tree_slots st kids -> mu_positive st par -> av_matches st u av ->
  (forall a, (a < na)%nat -> av a = false) ->
  forall a, (a < na)%nat -> r_prob out a = 0.
Proof.
  intros T M A Hn a Ha. assert (Hr := ts_root _ _ T). rewrite out_prob.
  apply (P_unavailable st kids T par u (mu_positive_nz M) av A); [lia|].
  rewrite (U_alt st kids T) by auto. intros Hf. apply A in Hf; auto. rewrite Hn in Hf by auto. discriminate.
Qed.

(** ---------------------------------------------------------------- C02 *)
Theorem C02_probability_bounds :
  tree_slots st kids -> mu_positive st par -> av_matches st u av ->
  forall a, (a < na)%nat ->
    0 <= r_prob out a <= 1 /\
    (av a = false -> r_prob out a = 0) /\
    (av a = true -> 0 < r_prob out a).
Proof.
  intros T M A a Ha. assert (Hr := ts_root _ _ T). rewrite out_prob.
  assert (HN := P_nonneg st kids T par u (mu_positive_nz M) av A ch wt lp0 P0).
  assert (HU := P_unavailable st kids T par u (mu_positive_nz M) av A ch wt lp0 P0).
  assert (HP := P_pos st kids T par u (mu_positive_nz M) av A ch wt lp0 P0).
  assert (HS := P_sum st kids T par u (mu_positive_nz M) av A ch wt lp0 P0).
  set (P := probabilities _ _ _ _) in *.
  assert (Hz : av a = false -> P a = 0).
  { intros Hf. apply HU; [lia|]. rewrite (U_alt st kids T) by auto. intros H. apply A in H; auto. congruence. }
  assert (Hp : av a = true -> 0 < P a).
  { intros Hf. apply HP; [lia|]. rewrite (U_alt st kids T) by auto. apply A; auto. }
  split; [|auto]. split; [apply HN; lia|].
  destruct (av a) eqn:E; [|rewrite Hz by auto; lra].
  rewrite <- HS.
  - apply Rsum_ge_one; [|apply in_seq; lia]. intros x Hx. apply in_seq in Hx. apply HN. lia.
  - apply (U_root_finite st kids T par u (mu_positive_nz M)). exists a. split; auto. apply A; auto.
Qed.

(** ---------------------------------------------------------------- C03 *)
(** Any acyclic nesting structure (also with nodes of several parents). *)
Theorem C03_logsum :
  dag_slots st kids -> forall k, (na <= k < n)%nat -> 
  let mu := mu_of st par k in
  ((exists j, In j (kids k) /\ finite (r_utility out j)) -> mu <> 0 ->
     r_utility out k = Some (mu * ln (Rsum (fun j => oexp mu (r_utility out j)) (kids k)))) /\
  ((forall j, In j (kids k) -> r_utility out j = None) -> 0 < mu -> r_utility out k = None).
Proof.
  intros T k Hk mu. rewrite out_utility. split.
  - intros [j [Hj Hf]] Hm. rewrite (U_nest st kids T par u k Hk Hm) at 1. unfold logsum.
    assert (E : existsb (fun x : option R => match x with Some _ => true | None => false end)
       (map (node_utilities st par u) (kids k)) = true).
    { apply existsb_exists. exists (node_utilities st par u j). split; [apply in_map; auto|].
      destruct (node_utilities st par u j); [reflexivity|unfold finite in Hf; congruence]. }
    rewrite E, Rsum_map. auto.
  - intros H Hm. rewrite (U_nest st kids T par u k Hk) by (fold mu; lra). unfold logsum.
    assert (E : existsb (fun x : option R => match x with Some _ => true | None => false end)
       (map (node_utilities st par u) (kids k)) = false).
    { apply not_true_is_false. rewrite existsb_exists. intros [x [Hx Hs]].
      apply in_map_iff in Hx. destruct Hx as [j [<- Hj]]. rewrite H in Hs by auto. discriminate. }
    rewrite E. auto.
Qed.
Theorem C03_alternative_utility : dag_slots st kids -> forall a, (a < na)%nat -> r_utility out a = u a.
Proof. intros T a Ha. rewrite out_utility. apply (U_alt st kids T). auto. Qed.

(** mu = 0, for EVERY nesting structure: the nest's utility is the largest of 0 and its
    children's utilities, never below 0, because the comparison starts from the initial 0. *)
Lemma max_fold (V : nat -> option R) cs : forall x, exists m, fold_left (max_step V) cs (Some x) = Some m /\
  x <= m /\ (forall j v, In j cs -> V j = Some v -> v <= m) /\
  (m = x \/ exists j, In j cs /\ V j = Some m).
Proof.
  induction cs as [|c cs IH]; intros x; simpl.
  - exists x. repeat split; auto; try lra. tauto.
  - unfold max_step at 2. destruct (V c) as [v|] eqn:Ec.
    + destruct (Rlt_dec x v) as [Hl|Hl].
      * destruct (IH v) as [m [E [H1 [H2 H3]]]]. exists m. split; auto. split; [lra|]. split.
        -- intros j w [ <-|Hj] Hw; [|eapply H2; eauto]. rewrite Ec in Hw. injection Hw as <-. lra.
        -- right. destruct H3 as [ ->|[j [Hj E3]]]; [exists c; auto|exists j; auto].
      * destruct (IH x) as [m [E [H1 [H2 H3]]]]. exists m. split; auto. split; [lra|]. split.
        -- intros j w [ <-|Hj] Hw; [|eapply H2; eauto]. rewrite Ec in Hw. injection Hw as <-. lra.
        -- destruct H3 as [ ->|[j [Hj E3]]]; [auto|right; exists j; auto].
    + destruct (IH x) as [m [E [H1 [H2 H3]]]]. exists m. split; auto. split; [lra|]. split.
      * intros j w [ <-|Hj] Hw; [congruence|eapply H2; eauto].
      * destruct H3 as [ ->|[j [Hj E3]]]; [auto|right; exists j; auto].
Qed.
Theorem C03_mu_zero_value : dag_slots st kids -> forall k, (na <= k < n)%nat -> mu_of st par k = 0 ->
  exists m, r_utility out k = Some m /\ 0 <= m /\
    (forall j v, In j (kids k) -> r_utility out j = Some v -> v <= m) /\
    (m = 0 \/ exists j, In j (kids k) /\ r_utility out j = Some m).
Proof.
  intros T k Hk Hm. rewrite out_utility. destruct (U_gen st kids T par u) as [_ H].
  rewrite (H k Hk). unfold nest_fun. destruct (Req_EM_T _ 0); [|congruence].
  rewrite upd_eq, (ts_children _ _ T k Hk).
  destruct (max_fold (upd (node_utilities st par u) k (Some 0)) (kids k) 0) as [m [E [H1 [H2 H3]]]].
  assert (Hkid : forall j, In j (kids k) -> upd (node_utilities st par u) k (Some 0) j = node_utilities st par u j).
  { intros j Hj. apply upd_neq. apply (ts_less _ _ T) in Hj. lia. }
  exists m. repeat split; auto.
  - intros j v Hj Hv. apply (H2 j v); auto. rewrite Hkid; auto.
  - destruct H3 as [ ->|[j [Hj E3]]]; auto. right. exists j. split; auto. rewrite <- (Hkid j); auto.
Qed.
(** So the documented maximum is wrong whenever every child has negative utility. *)
Theorem C03_mu_zero_max_refuted : dag_slots st kids -> forall k, (na <= k < n)%nat -> mu_of st par k = 0 ->
  (forall j v, In j (kids k) -> r_utility out j = Some v -> v < 0) ->
  r_utility out k = Some 0.
Proof.
  intros T k Hk Hm Hneg. destruct (C03_mu_zero_value T k Hk Hm) as [m [E [H1 [H2 [ ->|[j [Hj E3]]]]]]]; auto.
  assert (H := Hneg j m Hj E3). lra.
Qed.

(** ---------------------------------------------------------------- C05, C04 *)
(** All logsum parameters 1: whatever the tree, the elemental probabilities are MNL. *)
Theorem C05_collapse_to_mnl :
  tree_slots st kids -> av_matches st u av ->
  (forall k, (na <= k < n)%nat -> mu_of st par k = 1) ->
  (exists a, (a < na)%nat /\ av a = true) ->
  forall a, (a < na)%nat ->
    r_prob out a = oexp 1 (u a) / Rsum (fun b => oexp 1 (u b)) (seq 0 na).
Proof.
  intros T A M [a0 [Ha0 Hav0]] a Ha. assert (Hr := ts_root _ _ T).
  assert (Hnz : forall k, (na <= k < n)%nat -> mu_of st par k <> 0) by (intros k Hk; rewrite (M k Hk); lra).
  assert (Hrf : finite (node_utilities st par u (n - 1))).
  { apply (U_root_finite st kids T par u Hnz). exists a0. split; auto. apply A; auto. }
  assert (Ek : forall k, (na <= k < n)%nat -> finite (node_utilities st par u k) ->
     Rsum (fun j => oexp 1 (node_utilities st par u j)) (kids k) = oexp 1 (node_utilities st par u k)).
  { intros k Hk Hf. destruct (nest_exp st kids T par u Hnz k Hk Hf) as [E _]. rewrite (M k Hk) in E. rewrite E.
    destruct (node_utilities st par u k) as [v|]; auto. unfold finite in Hf; congruence. }
  assert (Ek0 : forall k, (na <= k < n)%nat -> ~ finite (node_utilities st par u k) ->
     Rsum (fun j => oexp 1 (node_utilities st par u j)) (kids k) = oexp 1 (node_utilities st par u k)).
  { intros k Hk Hf. assert (E0 : node_utilities st par u k = None).
    { destruct (node_utilities st par u k) eqn:E; auto. exfalso. apply Hf. unfold finite. congruence. }
    rewrite E0. simpl. apply Rsum_zero. intros j Hj.
    destruct (node_utilities st par u j) as [v|] eqn:Ej; auto. exfalso. apply Hf.
    rewrite (U_nest st kids T par u k Hk (Hnz k Hk)). apply logsum_finite.
    exists (Some v). split; [rewrite <- Ej; apply in_map; auto|unfold finite; congruence]. }
  assert (HE : forall k, (na <= k < n)%nat ->
     Rsum (fun j => oexp 1 (node_utilities st par u j)) (kids k) = oexp 1 (node_utilities st par u k)).
  { intros k Hk. destruct (node_utilities st par u k) as [v|] eqn:E; rewrite <- E;
      [apply Ek|apply Ek0]; auto; unfold finite; congruence. }
  assert (Hroot : Rsum (fun b => oexp 1 (u b)) (seq 0 na) = oexp 1 (node_utilities st par u (n - 1))).
  { rewrite <- (telescope st kids T (fun j => oexp 1 (node_utilities st par u j)) HE).
    apply Rsum_ext. intros b Hb. apply in_seq in Hb. rewrite (U_alt st kids T) by lia. auto. }
  rewrite Hroot. rewrite out_prob.
  assert (HPs := P_spec st kids T par u av ch wt lp0 P0).
  assert (HC := cp_spec st kids T par u Hnz av A ch wt lp0).
  set (cp := cond_prob _ _) in *. set (P := probabilities _ _ _ _) in *.
  assert (Hpos : 0 < oexp 1 (node_utilities st par u (n - 1))).
  { destruct (node_utilities st par u (n - 1)); [simpl; apply exp_pos|unfold finite in Hrf; congruence]. }
  destruct HPs as [H1 H2].
  assert (Hall : forall d j, (j < n)%nat -> d = (n - 1 - j)%nat ->
     P j = oexp 1 (node_utilities st par u j) / oexp 1 (node_utilities st par u (n - 1))).
  { induction d as [d IH] using lt_wf_ind. intros j Hj Hd.
    destruct (Nat.eq_dec j (n - 1)) as [E|Hne]; [rewrite E, H1; field; lra|].
    destruct (parent_ex st kids T j) as [k [Hk Hin]]; [lia|].
    destruct (kid_range _ _ T k j Hk Hin) as [H3 H4].
    rewrite (H2 k j Hk Hin), (HC k j Hk Hin), (IH (n - 1 - k)%nat) by lia.
    destruct (node_utilities st par u j) as [v|] eqn:Ej; [|simpl; unfold Rdiv; lra].
    assert (Hfk : finite (node_utilities st par u k)).
    { rewrite (U_nest st kids T par u k (conj H4 Hk) (Hnz k (conj H4 Hk))). apply logsum_finite.
      exists (Some v). split; [rewrite <- Ej; apply in_map; auto|unfold finite; congruence]. }
    destruct (node_utilities st par u k) as [w|]; [|unfold finite in Hfk; congruence].
    simpl. rewrite (M k) by lia.
    replace ((v - w) / 1) with (v / 1 - w / 1) by lra. unfold Rminus. rewrite exp_plus, exp_Ropp.
    simpl in Hpos. field. split; [lra|]. apply Rgt_not_eq, exp_pos. }
  rewrite (Hall (n - 1 - a)%nat a) by lia. rewrite (U_alt st kids T) by auto. auto.
Qed.
(** No nests: the root is the only node above the alternatives. *)
Theorem C04_mnl_closed_form :
  tree_slots st kids -> av_matches st u av ->
  n = S na -> mu_slots st 0 = None ->
  (exists a, (a < na)%nat /\ av a = true) ->
  forall a, (a < na)%nat ->
    r_prob out a = oexp 1 (u a) / Rsum (fun b => oexp 1 (u b)) (seq 0 na).
Proof.
  intros T A Hn Hm Hex a Ha. apply C05_collapse_to_mnl; auto.
  intros k Hk. unfold mu_of. replace (k - na)%nat with 0%nat by lia. rewrite Hm. auto.
Qed.
End Statements.

(** Adding the constant [c] to every available utility. *)
Definition shift (c : R) (x : option R) : option R := match x with Some v => Some (v + c) | None => None end.
Theorem C04_translation_invariance :
  forall st kids par u du av ch wt lp0 P0 c,
  tree_slots st kids -> mu_positive st par ->
  let out := run_case st par u du av ch wt lp0 P0 in
  let out' := run_case st par (fun a => shift c (u a)) du av ch wt lp0 P0 in
  (forall a, (a < n_alts st)%nat -> r_prob out' a = r_prob out a) /\
  r_loglike out' = r_loglike out /\
  (forall k, (k < n_nodes st)%nat -> r_utility out' k = shift c (r_utility out k)).
Proof.
  intros st kids par u du av ch wt lp0 P0 c T M out out'.
  assert (Hnz := mu_positive_nz st par M).
  assert (HU : forall k, (k < n_nodes st)%nat ->
     node_utilities st par (fun a => shift c (u a)) k = shift c (node_utilities st par u k)).
  { induction k as [k IH] using lt_wf_ind. intros Hk.
    destruct (Nat.lt_ge_cases k (n_alts st)) as [Hlt|Hge].
    - rewrite !(U_alt st kids T) by auto. auto.
    - rewrite !(U_nest st kids T) by auto. unfold logsum. rewrite !existsb_map.
      set (V' := node_utilities st par (fun a => shift c (u a))) in *. set (V := node_utilities st par u) in *.
      assert (E : existsb (fun x => match V' x with Some _ => true | None => false end) (kids k) =
                  existsb (fun x => match V x with Some _ => true | None => false end) (kids k)).
      { apply existsb_ext_in. intros j Hj. rewrite IH; [destruct (V j); auto| |]; destruct (kid_range _ _ T k j Hk Hj); lia. }
      rewrite E. destruct (existsb (fun x => match V x with Some _ => true | None => false end) (kids k)) eqn:E2; auto. simpl. clear E. f_equal. rewrite !Rsum_map.
      assert (Hm := M k (conj Hge Hk)). set (mu := mu_of st par k) in *.
      rewrite (Rsum_ext (fun j => oexp mu (V' j)) (fun j => exp (c / mu) * oexp mu (V j))).
      2:{ intros j Hj. rewrite IH; [|destruct (kid_range _ _ T k j Hk Hj); lia..].
          destruct (V j) as [v|]; simpl; [|lra]. rewrite <- exp_plus. f_equal. field. lra. }
      rewrite Rsum_scal.
      assert (Hp : 0 < Rsum (fun j => oexp mu (V j)) (kids k)).
      { apply existsb_exists in E2. destruct E2 as [j [Hj Hv]]. cbv beta in Hv.
        apply (Rsum_pos _ _ j); auto; [intros; apply oexp_nonneg|].
        destruct (V j); [simpl; apply exp_pos|discriminate]. }
      rewrite ln_mult; [|apply exp_pos|auto]. rewrite ln_exp. field. lra. }
  assert (HL : logprob_loop st par (node_utilities st par (fun a => shift c (u a))) (array_ch_cascade st ch) wt lp0 =
               logprob_loop st par (node_utilities st par u) (array_ch_cascade st ch) wt lp0).
  { unfold logprob_loop. apply fold_ext_in. intros [up dn] [lp ll] He.
    apply (in_edges_iff st kids T) in He. destruct He as [H1 H2].
    destruct (kid_range _ _ T up dn H1 H2). unfold logprob_step.
    rewrite !HU by lia.
    assert (E : edge_logprob (mu_of st par up) (shift c (node_utilities st par u up)) (shift c (node_utilities st par u dn))
              = edge_logprob (mu_of st par up) (node_utilities st par u up) (node_utilities st par u dn)).
    { destruct (node_utilities st par u up), (node_utilities st par u dn); simpl; auto.
      f_equal. f_equal. lra. }
    rewrite E. auto. }
  split; [|split].
  - intros a Ha. unfold out, out'. rewrite !out_prob, HL. auto.
  - unfold out, out'. rewrite !out_loglike, HL. auto.
  - intros k Hk. unfold out, out'. rewrite !out_utility. auto.
Qed.

(** ---------------------------------------------------------------- C06 *)
Theorem C06_loglike :
  forall st kids par u du av ch wt lp0 P0,
  tree_slots st kids -> mu_positive st par -> av_matches st u av ->
  (forall a, (a < n_alts st)%nat -> ch a <> 0 -> av a = true) ->
  let out := run_case st par u du av ch wt lp0 P0 in
  r_loglike out = Some (wt * Rsum (fun a => ch a * ln (r_prob out a)) (seq 0 (n_alts st))).
Proof.
  intros st kids par u du av ch wt lp0 P0 T M A C out. unfold out. rewrite out_loglike, out_prob.
  apply (ll_spec st kids T par u (mu_positive_nz st par M) av A ch wt lp0 P0).
  intros a Ha Hc. apply A; auto.
Qed.
(** A chosen unavailable alternative makes the log likelihood minus infinity. *)
Theorem C06_chosen_unavailable :
  forall st kids par u du av ch wt lp0 P0,
  tree_slots st kids -> mu_positive st par -> av_matches st u av ->
  (exists a, (a < n_alts st)%nat /\ ch a <> 0 /\ av a = false) ->
  r_loglike (run_case st par u du av ch wt lp0 P0) = None.
Proof.
  intros st kids par u du av ch wt lp0 P0 T M A [a [Ha [Hc Hf]]]. assert (Hr := ts_root _ _ T).
  rewrite out_loglike. unfold logprob_loop. rewrite (logprob_loop_split st par u ch wt). simpl.
  destruct (parent_ex st kids T a) as [k [Hk Hin]]; [lia|].
  assert (He : In (k, a) (edges st)) by (apply (in_edges_iff st kids T); auto).
  apply in_split in He. destruct He as [l1 [l2 E]]. rewrite E, fold_left_app. simpl.
  rewrite (ch_cascade_alt st kids T) by auto.
  destruct (Req_EM_T (ch a) 0); [congruence|].
  assert (Eu : node_utilities st par u a = None).
  { rewrite (U_alt st kids T) by auto. destruct (u a) eqn:Eu; auto. exfalso.
    assert (av a = true) by (apply A; auto; unfold finite; congruence). congruence. }
  assert (Ed : ev st par u (k, a) = None).
  { unfold ev. simpl. rewrite Eu. destruct (node_utilities st par u k); auto. }
  rewrite Ed. 
  assert (En : forall x : option R, oadd x None = None) by (intros [x|]; auto).
  rewrite En. clear. induction l2 as [|e l IH]; simpl; auto. destruct (Req_EM_T _ 0); auto.
Qed.

(** ---------------------------------------------------------------- C07 *)
(** [uf x a] is the utility of alternative [a] at parameter vector [x] and [du a p] its
    derivative.  The reported gradient entry [p] is the derivative of the reported log
    likelihood, for every tree, provided the root carries no logsum parameter, no nest's
    logsum parameter is used again strictly below that nest, and no chosen alternative's
    probability is under the 1e-250 floor.  What is missing: those excluded situations, in
    which the gradient is wrong (C07_shared_logsum_refuted, C07_root_logsum_refuted). *)
Theorem C07_gradient_partial :
  forall st kids (uf : (nat -> R) -> nat -> option R) par av du p lp0 P0 ch wt,
  tree_slots st kids ->
  (forall t a, (a < n_alts st)%nat -> (av a = true <-> finite (uf (upd par p t) a))) ->
  (forall a, (a < n_alts st)%nat -> av a = true ->
     is_derive (fun t => val (uf (upd par p t) a)) (par p) (du a p)) ->
  mu_positive st par ->
  mu_slots st (n_nodes st - 1 - n_alts st) = None ->
  (forall k s j, (n_alts st <= k < n_nodes st)%nat -> mu_slots st (k - n_alts st) = Some s ->
     under kids k j -> j <> k ->
     ((n_alts st <= j)%nat -> mu_slots st (j - n_alts st) <> Some s) /\
     ((j < n_alts st)%nat -> av j = true -> du j s = 0)) ->
  (forall a, (a < n_alts st)%nat -> 0 <= ch a) ->
  (forall a, (a < n_alts st)%nat -> ch a <> 0 -> av a = true) ->
  (forall a, (a < n_alts st)%nat -> ch a <> 0 ->
     / 10 ^ 250 <= r_prob (run_case st par (uf par) du av ch wt lp0 P0) a) ->
  is_derive (fun t => val (r_loglike (run_case st (upd par p t) (uf (upd par p t)) du av ch wt lp0 P0)))
    (par p) (r_dloglike (run_case st par (uf par) du av ch wt lp0 P0) p).
Proof.
  intros st kids uf par av du p lp0 P0 ch wt T Hf Hd Hm Hr Hs Hc Hca Hcl.
  apply (dLL st kids T uf par av du p lp0 P0 ch wt); auto.
  intros a Ha Hca'. specialize (Hcl a Ha Hca'). rewrite out_prob in Hcl.
  unfold Pt, cpt, lpt, Ut. rewrite part_id. auto.
Qed.

(** ---------------------------------------------------------------- C08 *)
Theorem C08_bhhh_symmetric_psd :
  forall st kids par u du av ch wt lp0 P0,
  tree_slots st kids -> 0 <= wt -> (forall a, (a < n_alts st)%nat -> 0 <= ch a) ->
  let B := r_bhhh (run_case st par u du av ch wt lp0 P0) in
  (forall p q, B p q = B q p) /\
  (forall (ps : list nat) (x : nat -> R), 0 <= Rsum (fun p => Rsum (fun q => x p * B p q * x q) ps) ps).
Proof.
  intros st kids par u du av ch wt lp0 P0 T Hw Hc B. assert (Hr := ts_root _ _ T).
  destruct (out_deriv st par u du av ch wt lp0 P0) as [DP [_ HB]].
  set (P := r_prob _) in HB.
  destruct (dll_spec st (array_ch_cascade st ch) P wt DP) as [_ HS].
  set (chx := array_ch_cascade st ch) in *.
  set (g := fun a p => DP a p / clamp (P a)).
  set (c := fun a => if Req_EM_T (chx a) 0 then 0 else if Rlt_dec 0 (P a) then chx a else 0).
  assert (HBv : forall p q, B p q = wt * Rsum (fun a => c a * (g a p * g a q)) (seq 0 (n_alts st))).
  { intros p q. unfold B. rewrite HB, HS. f_equal. apply Rsum_ext. intros a Ha. unfold c, g.
    destruct (Req_EM_T (chx a) 0); [lra|]. destruct (Rlt_dec 0 (P a)); lra. }
  split.
  - intros p q. rewrite !HBv. f_equal. apply Rsum_ext. intros; lra.
  - intros ps x.
    assert (E : Rsum (fun p => Rsum (fun q => x p * B p q * x q) ps) ps =
       wt * Rsum (fun a => c a * (Rsum (fun p => x p * g a p) ps) ^ 2) (seq 0 (n_alts st))).
    { rewrite (Rsum_ext _ (fun p => Rsum (fun a => wt * c a * x p * g a p * Rsum (fun q => x q * g a q) ps) (seq 0 (n_alts st)))).
      2:{ intros p _. rewrite (Rsum_ext _ (fun q => Rsum (fun a => wt * c a * x p * g a p * (x q * g a q)) (seq 0 (n_alts st)))).
          - rewrite Rsum_swap. apply Rsum_ext. intros a _. rewrite <- Rsum_scal. apply Rsum_ext. intros; lra.
          - intros q _. rewrite HBv. rewrite <- Rsum_scal. rewrite <- Rsum_scal, <- Rsum_scal_r. apply Rsum_ext. intros; lra. }
      rewrite Rsum_swap, <- Rsum_scal. apply Rsum_ext. intros a _.
      rewrite (Rsum_ext _ (fun p => (wt * c a * Rsum (fun q => x q * g a q) ps) * (x p * g a p))) by (intros; lra).
      rewrite Rsum_scal. ring. }
    rewrite E. apply Rmult_le_pos; auto. apply Rsum_nonneg. intros a Ha. apply in_seq in Ha.
    apply Rmult_le_pos; [|apply pow2_ge_0]. unfold c.
    destruct (Req_EM_T (chx a) 0); [lra|]. destruct (Rlt_dec 0 (P a)); [|lra].
    unfold chx. rewrite (ch_cascade_alt st kids T) by lia. apply Hc; lia.
Qed.

(** One chosen alternative: there is one vector [g] such that the reported gradient is
    weight*g and the reported matrix weight*g*g'.  No proviso. *)
Theorem C08_single_choice_outer_product :
  forall st kids par u du av ch wt lp0 P0 a,
  tree_slots st kids -> (a < n_alts st)%nat ->
  (forall b, (b < n_alts st)%nat -> ch b = if (b =? a)%nat then 1 else 0) ->
  let out := run_case st par u du av ch wt lp0 P0 in
  exists g : nat -> R,
    (forall p, r_dloglike out p = wt * g p) /\ (forall p q, r_bhhh out p q = wt * (g p * g q)).
Proof.
  intros st kids par u du av ch wt lp0 P0 a T Ha Hch out. assert (Hrt := ts_root _ _ T).
  destruct (out_deriv st par u du av ch wt lp0 P0) as [DP [HD HB]]. fold out in HD, HB.
  destruct (dll_spec st (array_ch_cascade st ch) (r_prob out) wt DP) as [S1 S2].
  assert (Hca : forall b, (b < n_alts st)%nat -> array_ch_cascade st ch b = if (b =? a)%nat then 1 else 0).
  { intros b Hb. rewrite (ch_cascade_alt st kids T) by auto. auto. }
  assert (Hone : forall f, Rsum (fun b => if Req_EM_T (array_ch_cascade st ch b) 0 then 0
       else if Rlt_dec 0 (r_prob out b) then array_ch_cascade st ch b * f b else 0) (seq 0 (n_alts st))
       = if Rlt_dec 0 (r_prob out a) then f a else 0).
  { intros f. rewrite (seq_split_at st a (n_alts st)) by lia.
    rewrite Rsum_app. replace (n_alts st - a)%nat with (S (n_alts st - a - 1)) by lia. simpl.
    rewrite !Rsum_zero; [| |].
    - rewrite Hca by auto. rewrite Nat.eqb_refl. destruct (Req_EM_T 1 0); [lra|].
      destruct (Rlt_dec 0 (r_prob out a)); lra.
    - intros b Hb. apply in_seq in Hb. rewrite Hca by lia. destruct (Nat.eqb_spec b a); [lia|].
      destruct (Req_EM_T 0 0); lra.
    - intros b Hb. apply in_seq in Hb. rewrite Hca by lia. destruct (Nat.eqb_spec b a); [lia|].
      destruct (Req_EM_T 0 0); lra. }
  exists (fun p => if Rlt_dec 0 (r_prob out a) then DP a p / clamp (r_prob out a) else 0). split.
  - intros p. rewrite HD, S1, (Hone (fun b => DP b p / clamp (r_prob out b))). auto.
  - intros p q. rewrite HB, S2, (Hone (fun b => DP b p / clamp (r_prob out b) * (DP b q / clamp (r_prob out b)))).
    destruct (Rlt_dec 0 (r_prob out a)); ring.
Qed.

(** One chosen alternative [a]: the matrix is weight times the outer product of the vector
    [g], which is the gradient of log P(a), and the reported gradient is weight times [g].
    Partial: same provisos as C07. *)
Theorem C08_bhhh_outer_of_gradient_partial :
  forall st kids (uf : (nat -> R) -> nat -> option R) par av du lp0 P0 ch wt a,
  tree_slots st kids -> (a < n_alts st)%nat -> av a = true ->
  (forall b, (b < n_alts st)%nat -> ch b = if (b =? a)%nat then 1 else 0) ->
  (forall p t a, (a < n_alts st)%nat -> (av a = true <-> finite (uf (upd par p t) a))) ->
  (forall p a, (a < n_alts st)%nat -> av a = true ->
     is_derive (fun t => val (uf (upd par p t) a)) (par p) (du a p)) ->
  mu_positive st par ->
  mu_slots st (n_nodes st - 1 - n_alts st) = None ->
  (forall k s j, (n_alts st <= k < n_nodes st)%nat -> mu_slots st (k - n_alts st) = Some s ->
     under kids k j -> j <> k ->
     ((n_alts st <= j)%nat -> mu_slots st (j - n_alts st) <> Some s) /\
     ((j < n_alts st)%nat -> av j = true -> du j s = 0)) ->
  let out := run_case st par (uf par) du av ch wt lp0 P0 in
  / 10 ^ 250 <= r_prob out a ->
  exists g : nat -> R,
    (forall p, is_derive (fun t => ln (r_prob (run_case st (upd par p t) (uf (upd par p t)) du av ch wt lp0 P0) a))
       (par p) (g p)) /\
    (forall p, r_dloglike out p = wt * g p) /\
    (forall p q, r_bhhh out p q = wt * (g p * g q)).
Proof.
  intros st kids uf par av du lp0 P0 ch wt a T Ha Hav Hch Hf Hd Hm Hr Hs out Hcl.
  assert (Hrt := ts_root _ _ T).
  assert (HDP : exists DP, r_dloglike out = fst (dll_loop st (array_ch_cascade st ch) (r_prob out) wt DP) /\
    r_bhhh out = snd (dll_loop st (array_ch_cascade st ch) (r_prob out) wt DP) /\
    DP = dprob_loop st par (array_ch_cascade st ch) (node_utilities st par (uf par))
      (cpt st uf par av 0 lp0 ch wt (par 0%nat)) (Pt st uf par av 0 lp0 P0 ch wt (par 0%nat))
      (Dt st uf par av du 0 lp0 ch wt)).
  { unfold out, run_case, Dt, Pt, cpt, lpt, Ut. rewrite part_id.
    destruct (logprob_loop _ _ _ _ _ _) as [lp ll]. simpl fst. eexists.
    destruct (dll_loop _ _ _ _ _) as [d b] eqn:E. cbn [r_dloglike r_bhhh r_prob]. rewrite E.
    cbn [fst snd]. split; [reflexivity|]. split; [reflexivity|]. reflexivity. }
  destruct HDP as [DP [HD [HB EDP]]].
  assert (EDPt : forall p, DPt st uf par av du p lp0 P0 ch wt = DP).
  { intros p. rewrite EDP. unfold DPt, Dt, Pt, cpt, lpt, Ut. rewrite !part_id. reflexivity. }
  destruct (dll_spec st (array_ch_cascade st ch) (r_prob out) wt DP) as [S1 S2].
  assert (Hca : forall b, (b < n_alts st)%nat -> array_ch_cascade st ch b = if (b =? a)%nat then 1 else 0).
  { intros b Hb. rewrite (ch_cascade_alt st kids T) by auto. auto. }
  assert (Hpa : 0 < r_prob out a).
  { eapply Rlt_le_trans; [|exact Hcl]. apply Rinv_0_lt_compat. apply pow_lt. lra. }
  assert (Ecl : clamp (r_prob out a) = r_prob out a).
  { unfold clamp. destruct (Rlt_dec _ _) as [Hl|]; auto. exfalso. apply (Rlt_not_le _ _ Hl Hcl). }
  assert (Hone : forall f, Rsum (fun b => if Req_EM_T (array_ch_cascade st ch b) 0 then 0
       else if Rlt_dec 0 (r_prob out b) then array_ch_cascade st ch b * f b else 0) (seq 0 (n_alts st)) = f a).
  { intros f. rewrite (seq_split_at st a (n_alts st)) by lia.
    rewrite Rsum_app. replace (n_alts st - a)%nat with (S (n_alts st - a - 1)) by lia. simpl.
    rewrite !Rsum_zero; [| |].
    - rewrite Hca by auto. rewrite Nat.eqb_refl. destruct (Req_EM_T 1 0); [lra|].
      destruct (Rlt_dec 0 (r_prob out a)); lra.
    - intros b Hb. apply in_seq in Hb. rewrite Hca by lia. destruct (Nat.eqb_spec b a); [lia|].
      destruct (Req_EM_T 0 0); lra.
    - intros b Hb. apply in_seq in Hb. rewrite Hca by lia. destruct (Nat.eqb_spec b a); [lia|].
      destruct (Req_EM_T 0 0); lra. }
  exists (fun p => DP a p / r_prob out a). split; [|split].
  - intros p. rewrite <- (EDPt p).
    assert (EP : forall t, r_prob (run_case st (upd par p t) (uf (upd par p t)) du av ch wt lp0 P0) a =
       Pt st uf par av p lp0 P0 ch wt t a).
    { intros t. rewrite out_prob. reflexivity. }
    apply (is_derive_ext (fun t => ln (Pt st uf par av p lp0 P0 ch wt t a))).
    { intros t. rewrite EP. auto. }
    assert (Eo : r_prob out a = Pt st uf par av p lp0 P0 ch wt (par p) a).
    { rewrite <- EP. rewrite upd_same by auto. auto. }
    rewrite Eo. apply (d_ln (fun t => Pt st uf par av p lp0 P0 ch wt t a)).
    + rewrite <- Eo. auto.
    + apply (dP st kids T uf par av du p lp0 P0 ch wt); auto.
      * intros b Hb. rewrite Hch by auto. destruct (b =? a)%nat; lra.
      * intros b Hb Hne. rewrite Hch in Hne by auto. destruct (Nat.eqb_spec b a); [subst; auto|congruence].
      * lia.
      * rewrite Hca by auto. rewrite Nat.eqb_refl. lra.
  - intros p. rewrite HD, S1. rewrite (Hone (fun b => DP b p / clamp (r_prob out b))), Ecl. auto.
  - intros p q. rewrite HB, S2.
    rewrite (Hone (fun b => DP b p / clamp (r_prob out b) * (DP b q / clamp (r_prob out b)))), Ecl. auto.
Qed.

(** ---------------------------------------------------------------- C09 *)
Theorem C09_iia :
  forall st kids par u du av ch wt lp0 P0 k a b x y,
  tree_slots st kids -> mu_positive st par -> av_matches st u av ->
  In a (kids k) -> In b (kids k) -> (k < n_nodes st)%nat ->
  (a < n_alts st)%nat -> (b < n_alts st)%nat ->
  u a = Some x -> u b = Some y ->
  let out := run_case st par u du av ch wt lp0 P0 in
  r_prob out a / r_prob out b = exp ((x - y) / mu_of st par k).
Proof.
  intros st kids par u du av ch wt lp0 P0 k a b x y T M A Hka Hkb Hk Ha Hb Hx Hy out.
  assert (Hnz := mu_positive_nz st par M).
  destruct (kid_range _ _ T k a Hk Hka) as [_ Hge].
  assert (Hm := M k (conj Hge Hk)).
  assert (Hpb : 0 < r_prob out b).
  { apply (C02_probability_bounds st kids par u du av ch wt lp0 P0); auto. apply A; auto. unfold finite; congruence. }
  revert Hpb. unfold out. rewrite out_prob.
  destruct (P_spec st kids T par u av ch wt lp0 P0) as [_ H].
  rewrite (H k a Hk Hka), (H k b Hk Hkb).
  rewrite (cp_spec st kids T par u Hnz av A ch wt lp0 k a Hk Hka),
          (cp_spec st kids T par u Hnz av A ch wt lp0 k b Hk Hkb).
  rewrite (U_alt st kids T par u a Ha), (U_alt st kids T par u b Hb), Hx, Hy. intros Hpb.
  set (Pk := probabilities _ _ _ _ k) in *. set (z := val _) in *. set (mu := mu_of st par k) in *.
  assert (Hek : 0 < exp ((y - z) / mu)) by apply exp_pos.
  assert (HPk : Pk <> 0) by (intros E; rewrite E in Hpb; lra).
  replace ((x - y) / mu) with ((x - z) / mu - (y - z) / mu) by (field; lra).
  unfold Rminus at 3. rewrite exp_plus, exp_Ropp. field. split; auto. lra.
Qed.

(** ---------------------------------------------------------------- C10 *)
Theorem C10_availability_cascade : forall st kids av, dag_slots st kids ->
  (forall a, (a < n_alts st)%nat -> array_av_cascade st av a = av a) /\
  (forall k, (k < n_nodes st)%nat ->
     (array_av_cascade st av k = true <->
      exists a, (a < n_alts st)%nat /\ under kids k a /\ av a = true)).
Proof.
  intros st kids av T. split; [intros; apply (av_cascade_alt st kids T); auto|].
  induction k as [k IH] using lt_wf_ind. intros Hk.
  destruct (Nat.lt_ge_cases k (n_alts st)) as [Hlt|Hge].
  - rewrite (av_cascade_alt st kids T) by auto. split.
    + intros H. exists k. repeat split; auto. constructor.
    + intros [a [Ha [Hu Hf]]]. inversion Hu; subst; auto. rewrite (ts_leaf _ _ T) in H by auto. destruct H.
  - rewrite (av_cascade_nest st kids T) by auto. rewrite existsb_exists. split.
    + intros [j [Hj Hf]]. destruct (kid_range _ _ T k j Hk Hj).
      apply IH in Hf; [|lia..]. destruct Hf as [a [Ha [Hu Hf]]]. exists a. repeat split; auto.
      eapply under_step; eauto.
    + intros [a [Ha [Hu Hf]]]. inversion Hu as [|k' j a' Hj Hja]; subst; [lia|].
      exists j. split; auto. destruct (kid_range _ _ T k j Hk Hj). apply IH; try lia. exists a; auto.
Qed.
(** In a tree the choice of a node is the plain sum over the alternatives below it. *)
Theorem C10_choice_cascade : forall st kids ch, tree_slots st kids ->
  (forall a, (a < n_alts st)%nat -> array_ch_cascade st ch a = ch a) /\
  (forall k, (k < n_nodes st)%nat -> exists below,
     NoDup below /\ (forall a, In a below <-> (a < n_alts st)%nat /\ under kids k a) /\
     array_ch_cascade st ch k = Rsum ch below).
Proof.
  intros st kids ch T. split; [intros; apply (ch_cascade_alt st kids T); auto|].
  induction k as [k IH] using lt_wf_ind. intros Hk.
  destruct (Nat.lt_ge_cases k (n_alts st)) as [Hlt|Hge].
  - exists [k]. split; [repeat constructor; auto|]. split.
    + intros a. split.
      * intros [ <-|[]]. split; auto. constructor.
      * intros [Ha Hu]. left. inversion Hu; subst; auto. rewrite (ts_leaf _ _ T) in H by auto. destruct H.
    + rewrite (ch_cascade_alt st kids T) by auto. simpl. lra.
  - rewrite (ch_cascade_nest st kids T) by auto.
    assert (Hnd := kids_nodup st kids T k Hk).
    assert (Hlt : forall j, In j (kids k) -> (j < k)%nat) by (intros j Hj; apply (ts_less _ _ T); auto).
    assert (Hgen : forall l, NoDup l -> incl l (kids k) -> exists below, NoDup below /\
      (forall a, In a below <-> (a < n_alts st)%nat /\ exists j, In j l /\ under kids j a) /\
      Rsum (array_ch_cascade st ch) l = Rsum ch below).
    { induction l as [|j l IHl]; intros Hn Hi.
      - exists []. split; [constructor|]. split; auto. intros a. simpl. split; [tauto|]. intros [_ [j [[] _]]].
      - inversion Hn; subst. destruct IHl as [L [L1 [L2 L3]]]; auto; [intros x Hx; apply Hi; simpl; auto|].
        assert (Hjk : In j (kids k)) by (apply Hi; simpl; auto).
        destruct (IH j) as [B [B1 [B2 B3]]]; [auto|specialize (Hlt j Hjk); lia|].
        exists (B ++ L). split; [|split].
        + apply NoDup_app_intro; auto. intros a Ha1 Ha2. apply B2 in Ha1. apply L2 in Ha2.
          destruct Ha1 as [_ Hu1]. destruct Ha2 as [_ [j' [Hj' Hu2]]].
          assert (j = j'); [|subst; auto].
          apply (sibling_disjoint st kids T k j j' a); auto. apply Hi; simpl; auto.
        + intros a. rewrite in_app_iff, B2, L2. simpl. split.
          * intros [[Ha Hu]|[Ha [j' [Hj' Hu]]]]; split; auto; [exists j|exists j']; auto.
          * intros [Ha [j' [[ <-|Hj'] Hu]]]; [left; auto|right]. split; auto. exists j'; auto.
        + simpl. rewrite B3, L3, Rsum_app. auto. }
    destruct (Hgen (kids k) Hnd (incl_refl _)) as [L [L1 [L2 L3]]].
    exists L. split; auto. split; auto. intros a. rewrite L2. split.
    + intros [Ha [j [Hj Hu]]]. split; auto. eapply under_step; eauto.
    + intros [Ha Hu]. split; auto. inversion Hu as [|k' j a' Hj Hja]; subst; [lia|]. exists j; auto.
Qed.
