(** Concrete non-trivial cases for the kernel theorems (non-vacuity), and the situations in
    which a property fails in the code (refutations). *)
From Coq Require Import Permutation FunctionalExtensionality.
From Coquelicot Require Import Coquelicot.
From Verif Require Import LogitModel LogitSpec LogitProofs LogitRun LogitGrad LogitDeriv LogitProps.

(** ---- a nested tree: alternatives 0,1,2; nest 3 = {0,1} with parameter 0; root 4 = {2,3} *)
Definition ex_slots : slots := mkSlots 3 5 [(3, 0); (3, 1); (4, 2); (4, 3)]%nat
  (fun i => if (i =? 0)%nat then 0%nat else 2%nat) (fun _ => 2%nat)
  (fun i => if (i =? 0)%nat then Some 0%nat else None).
Definition ex_kids (k : nat) : list nat :=
  if (k =? 3)%nat then [0; 1]%nat else if (k =? 4)%nat then [2; 3]%nat else [].
Example ex_slots_tree : tree_slots ex_slots ex_kids.
Proof.
  split; [constructor|].
  - simpl. lia.
  - intros k Hk. simpl in Hk. unfold ex_kids.
    destruct (Nat.eqb_spec k 3); [lia|]. destruct (Nat.eqb_spec k 4); [lia|auto].
  - intros k j. unfold ex_kids. destruct (Nat.eqb_spec k 3); [|destruct (Nat.eqb_spec k 4)]; simpl; intuition lia.
  - reflexivity.
  - intros k Hk. simpl in Hk. assert (k = 3 \/ k = 4)%nat as [ ->| ->] by lia; reflexivity.
  - simpl. apply perm_skip, perm_skip, perm_skip, perm_skip, Permutation_refl.
Qed.
Definition ex_par : nat -> R := fun _ => / 2.
Definition ex_u : nat -> option R := fun a => if (a =? 1)%nat then None else Some (INR a - 1).
Definition ex_av : nat -> bool := fun a => negb (a =? 1)%nat.
Definition ex_ch : nat -> R := fun a => if (a =? 1)%nat then 0 else / 2.
Example ex_mu_positive : mu_positive ex_slots ex_par.
Proof.
  intros k Hk. simpl in Hk. unfold mu_of, ex_par. assert (k = 3 \/ k = 4)%nat as [ ->| ->] by lia; simpl; lra.
Qed.
Example ex_av_matches : av_matches ex_slots ex_u ex_av.
Proof.
  intros a _. unfold ex_av, ex_u, finite. destruct (a =? 1)%nat; simpl; split; congruence.
Qed.
(** meets the hypotheses of C01, C02, C05 (some alternative available) and C06 *)
Example ex_available : exists a, (a < n_alts ex_slots)%nat /\ ex_av a = true.
Proof. exists 2%nat. simpl. auto. Qed.
Example ex_chosen_available : forall a, (a < n_alts ex_slots)%nat -> ex_ch a <> 0 -> ex_av a = true.
Proof. intros a _. unfold ex_ch, ex_av. destruct (a =? 1)%nat; simpl; intros; [congruence|auto]. Qed.
Example ex_probability_sum : forall lp0 P0,
  Rsum (r_prob (run_case ex_slots ex_par ex_u (fun _ _ => 0) ex_av ex_ch 2 lp0 P0)) (seq 0 3) = 1.
Proof.
  intros. apply (C01_probabilities_sum_to_one ex_slots ex_kids).
  - apply ex_slots_tree.
  - apply mu_positive_valid. apply ex_mu_positive.
  - apply ex_av_matches.
  - apply ex_available.
Qed.
(** negative logsum parameter with every nest available meets [mu_valid] *)
Example ex_mu_negative : mu_valid ex_slots ex_kids (fun _ => - 1) ex_u.
Proof.
  intros k Hk. simpl in Hk. unfold mu_of. assert (k = 3 \/ k = 4)%nat as [ ->| ->] by lia; simpl.
  - right. split; [lra|]. exists 0%nat. split; [lia|]. split; [|unfold finite, ex_u; simpl; discriminate].
    eapply under_step; [|constructor]. simpl; auto.
  - left. lra.
Qed.
(** C05: all logsum parameters 1 *)
Example ex_mu_one : forall k, (n_alts ex_slots <= k < n_nodes ex_slots)%nat -> mu_of ex_slots (fun _ => 1) k = 1.
Proof. intros k Hk. simpl in Hk. unfold mu_of. assert (k = 3 \/ k = 4)%nat as [ ->| ->] by lia; auto. Qed.
(** C04: a tree without nests *)
Definition ex_flat : slots := mkSlots 2 3 [(2, 0); (2, 1)]%nat (fun _ => 0%nat) (fun _ => 2%nat) (fun _ => None).
Definition ex_flat_kids (k : nat) : list nat := if (k =? 2)%nat then [0; 1]%nat else [].
Lemma flat_tree mus : tree_slots (mkSlots 2 3 [(2, 0); (2, 1)]%nat (fun _ => 0%nat) (fun _ => 2%nat) mus) ex_flat_kids.
Proof.
  split; [constructor|].
  - simpl. lia.
  - intros k Hk. simpl in Hk. unfold ex_flat_kids. destruct (Nat.eqb_spec k 2); [lia|auto].
  - intros k j. unfold ex_flat_kids. destruct (Nat.eqb_spec k 2); simpl; intuition lia.
  - reflexivity.
  - intros k Hk. simpl in Hk. assert (k = 2)%nat as -> by lia; reflexivity.
  - simpl. apply perm_skip, perm_skip, Permutation_refl.
Qed.
Example ex_flat_tree : tree_slots ex_flat ex_flat_kids /\ n_nodes ex_flat = S (n_alts ex_flat) /\ mu_slots ex_flat 0 = None.
Proof. split; [apply flat_tree|auto]. Qed.
(** C07: parameter 0 is the nest's logsum parameter, utilities are x1*(a-1): the hypotheses
    on the root and on the use of the parameter hold *)
Definition ex_uf (x : nat -> R) (a : nat) : option R := if (a =? 1)%nat then None else Some (x 1%nat * (INR a - 1)).
Definition ex_du (a p : nat) : R := if (p =? 1)%nat then INR a - 1 else 0.
Example ex_gradient_hyps : forall p,
  (forall t a, (a < n_alts ex_slots)%nat -> (ex_av a = true <-> finite (ex_uf (upd ex_par p t) a))) /\
  (forall a, (a < n_alts ex_slots)%nat -> ex_av a = true ->
     is_derive (fun t => val (ex_uf (upd ex_par p t) a)) (ex_par p) (ex_du a p)) /\
  mu_slots ex_slots (n_nodes ex_slots - 1 - n_alts ex_slots) = None /\
  (forall k s j, (n_alts ex_slots <= k < n_nodes ex_slots)%nat -> mu_slots ex_slots (k - n_alts ex_slots) = Some s ->
     under ex_kids k j -> j <> k ->
     ((n_alts ex_slots <= j)%nat -> mu_slots ex_slots (j - n_alts ex_slots) <> Some s) /\
     ((j < n_alts ex_slots)%nat -> ex_av j = true -> ex_du j s = 0)).
Proof.
  intros p. split; [|split; [|split]].
  - intros t a _. unfold ex_av, ex_uf, finite. destruct (a =? 1)%nat; simpl; split; congruence.
  - intros a _ Ha. unfold ex_av in Ha. apply negb_true_iff in Ha. unfold ex_uf. rewrite Ha. simpl val.
    unfold ex_du. rewrite Nat.eqb_sym. destruct (1 =? p)%nat eqn:E.
    + apply Nat.eqb_eq in E. subst p. apply (is_derive_ext (fun t => (INR a - 1) * t)).
      { intros t. unfold upd. simpl. apply Rmult_comm. }
      eapply d_eq; [apply (d_mult (fun _ => INR a - 1) (fun t => t)); [apply d_const|apply @is_derive_id]|].
      unfold one; simpl. lra.
    + apply (is_derive_ext (fun t => ex_par 1%nat * (INR a - 1))); [|apply d_const].
      intros t. unfold upd. rewrite E. auto.
  - reflexivity.
  - intros k s j Hk Hs Hu Hne. simpl in Hk. assert (k = 3 \/ k = 4)%nat as [ ->| ->] by lia; simpl in Hs; [|discriminate].
    injection Hs as <-. apply (under_le ex_kids (ts_less _ _ ex_slots_tree)) in Hu. simpl. split; [lia|auto].
Qed.

(** ---------------------------------------------------------------- C07 (refuted cases) *)
Lemma logsum_two mu x y : logsum mu [Some x; Some y] = Some (mu * ln (exp (x / mu) + exp (y / mu))).
Proof. unfold logsum. simpl. rewrite Rplus_0_r. auto. Qed.
Lemma big_enough : / 10 ^ 250 < / 4.
Proof.
  apply Rinv_lt_contravar; [apply Rmult_lt_0_compat; [lra|apply pow_lt; lra]|].
  apply Rlt_le_trans with (10 ^ 1); [lra|]. apply Rle_pow; [lra|lia].
Qed.
Lemma clamp_id x : / 4 <= x -> clamp x = x.
Proof. intros H. unfold clamp. assert (Hb := big_enough). destruct (Rlt_dec _ _); [lra|auto]. Qed.

(** The root carries a logsum parameter theta, two alternatives of utility 0, the first
    chosen.  The log likelihood is -ln 2 whatever theta, but the reported gradient is
    ln 2/theta. *)
Definition root_mu_slots : slots :=
  mkSlots 2 3 [(2, 0); (2, 1)]%nat (fun _ => 0%nat) (fun _ => 2%nat) (fun _ => Some 0%nat).
Definition first_chosen : nat -> R := fun a => if (a =? 0)%nat then 1 else 0.
Theorem C07_root_logsum_refuted : forall theta lp0 P0, 0 < theta ->
  let run := fun t => run_case root_mu_slots (fun _ => t) (fun _ => Some 0) (fun _ _ => 0) (fun _ => true)
                        first_chosen 1 lp0 P0 in
  is_derive (fun t => val (r_loglike (run t))) theta 0 /\
  r_dloglike (run theta) 0%nat = ln 2 / theta /\ r_dloglike (run theta) 0%nat <> 0.
Proof.
  intros theta lp0 P0 Ht run.
  assert (T : tree_slots root_mu_slots ex_flat_kids) by apply flat_tree.
  assert (Hl2 : 0 < ln 2) by (rewrite <- ln_1; apply ln_increasing; lra).
  assert (Hav : av_matches root_mu_slots (fun _ => Some 0) (fun _ => true)).
  { intros a _. unfold finite. split; congruence. }
  assert (Hmu : forall t k, mu_of root_mu_slots (fun _ => t) k = t) by reflexivity.
  assert (Hnz : forall t, 0 < t -> forall k, (n_alts root_mu_slots <= k < n_nodes root_mu_slots)%nat ->
     mu_of root_mu_slots (fun _ => t) k <> 0) by (intros t H k _; rewrite Hmu; lra).
  assert (HU2 : forall t, 0 < t -> node_utilities root_mu_slots (fun _ => t) (fun _ => Some 0) 2 = Some (t * ln 2)).
  { intros t H. rewrite (U_nest root_mu_slots _ T); [|simpl; lia|apply Hnz; simpl; auto; lia].
    simpl map. rewrite !(U_alt root_mu_slots _ T) by (simpl; lia). rewrite logsum_two, Hmu.
    replace (0 / t) with 0 by (field; lra). rewrite exp_0. do 3 f_equal; try lra. }
  assert (HC : forall t j, 0 < t -> In j [0; 1]%nat ->
    cond_prob (array_av_cascade root_mu_slots (fun _ => true)) (fst (logprob_loop root_mu_slots (fun _ => t)
      (node_utilities root_mu_slots (fun _ => t) (fun _ => Some 0)) (array_ch_cascade root_mu_slots first_chosen) 1 lp0)) j = / 2).
  { intros t j H Hj.
    rewrite (cp_spec root_mu_slots _ T _ _ (Hnz t H) _ Hav _ _ _ 2%nat j) by (simpl; auto).
    rewrite HU2 by auto. rewrite (U_alt root_mu_slots _ T) by (simpl in *; lia). simpl val. rewrite Hmu.
    replace ((0 - t * ln 2) / t) with (- ln 2) by (field; lra). rewrite exp_Ropp, exp_ln by lra. auto. }
  assert (HPr : forall t, 0 < t -> r_prob (run t) 2%nat = 1 /\ (forall j, In j [0; 1]%nat -> r_prob (run t) j = / 2)).
  { intros t H. unfold run. rewrite out_prob.
    destruct (P_spec root_mu_slots _ T (fun _ => t) (fun _ => Some 0) (fun _ => true) first_chosen 1 lp0 P0) as [H1 H2].
    split; [exact H1|]. intros j Hj. rewrite (H2 2%nat j) by (simpl; auto). rewrite HC by auto.
    change (n_nodes root_mu_slots - 1)%nat with 2%nat in H1. rewrite H1. lra. }
  assert (HL : forall t, 0 < t -> val (r_loglike (run t)) = - ln 2).
  { intros t H. unfold run. rewrite (C06_loglike root_mu_slots ex_flat_kids); auto.
    - fold (run t). simpl. destruct (HPr t H) as [_ HP]. rewrite (HP 0%nat) by (simpl; auto). unfold first_chosen. simpl.
      rewrite ln_Rinv by lra. lra.
    - intros k Hk. rewrite Hmu. auto. }
  assert (HG : r_dloglike (run theta) 0%nat = ln 2 / theta).
  { unfold run.
    rewrite (dll_t root_mu_slots (fun _ _ => Some 0) (fun _ => theta) (fun _ => true) (fun _ _ => 0) 0 lp0 P0 first_chosen 1).
    destruct (DP_spec root_mu_slots _ T (upd (fun _ => theta) 0%nat theta)
       (Ut root_mu_slots (fun _ _ => Some 0) (fun _ => theta) 0 theta)
       (cpt root_mu_slots (fun _ _ => Some 0) (fun _ => theta) (fun _ => true) 0 lp0 first_chosen 1 theta)
       (array_ch_cascade root_mu_slots first_chosen)
       (Pt root_mu_slots (fun _ _ => Some 0) (fun _ => theta) (fun _ => true) 0 lp0 P0 first_chosen 1 theta)
       (Dt root_mu_slots (fun _ _ => Some 0) (fun _ => theta) (fun _ => true) (fun _ _ => 0) 0 lp0 first_chosen 1)) as [R1 R2].
    fold (DPt root_mu_slots (fun _ _ => Some 0) (fun _ => theta) (fun _ => true) (fun _ _ => 0) 0 lp0 P0 first_chosen 1) in R1, R2.
    set (DPx := DPt _ _ _ _ _ _ _ _ _ _) in *.
    assert (EP : Pt root_mu_slots (fun _ _ => Some 0) (fun _ => theta) (fun _ => true) 0 lp0 P0 first_chosen 1 theta
       = r_prob (run theta)).
    { unfold run. rewrite out_prob. unfold Pt, cpt, lpt, Ut.
      rewrite (upd_same (fun _ => theta) 0%nat theta) by auto. auto. }
    rewrite EP in *. destruct (HPr theta Ht) as [HP2 HPj].
    assert (EU : Ut root_mu_slots (fun _ _ => Some 0) (fun _ => theta) 0 theta = node_utilities root_mu_slots (fun _ => theta) (fun _ => Some 0)).
    { unfold Ut. rewrite upd_same by auto. auto. }
    set (D := Dt _ _ _ _ _ _ _ _ _) in *.
    assert (HD : D 0%nat 0%nat = 0 /\ D 2%nat 0%nat = 0).
    { unfold D, Dt. rewrite EU. rewrite (upd_same (fun _ => theta) 0%nat theta) by auto.
      set (cpx := cpt _ _ _ _ _ _ _ _ _).
      assert (Hc0 : forall j, array_av_cascade root_mu_slots (fun _ => true) j = false -> cpx j = 0).
      { intros j Hj. unfold cpx, cpt, cond_prob. rewrite Hj. auto. }
      set (D0' := D0 _ _).
      destruct (D_final root_mu_slots _ T (fun _ => theta) (fun _ => true)
        (node_utilities root_mu_slots (fun _ => theta) (fun _ => Some 0)) cpx Hc0 D0' 0%nat) as [F0 _]; [simpl; lia|].
      destruct (D_final root_mu_slots _ T (fun _ => theta) (fun _ => true)
        (node_utilities root_mu_slots (fun _ => theta) (fun _ => Some 0)) cpx Hc0 D0' 2%nat) as [_ F2]; [simpl; lia|].
      rewrite F0, F2 by (simpl; lia).
      assert (Hraw0 : forall j p, In j [0; 1]%nat -> Fin root_mu_slots ex_flat_kids (fun _ => theta) (fun _ => true)
        (node_utilities root_mu_slots (fun _ => theta) (fun _ => Some 0)) cpx D0' j p = 0).
      { intros j p Hj. unfold Fin. rewrite (av_cascade_alt root_mu_slots _ T) by (simpl in *; lia).
        unfold finalize. destruct (Nat.leb_spec (n_alts root_mu_slots) j) as [Hl|_]; [simpl in *; lia|].
        rewrite (Raw_spec root_mu_slots _ T _ _ _ _ Hc0) by (simpl in *; lia).
        unfold D0', D0. assert (Hk : ex_flat_kids j = []) by (simpl in Hj; destruct Hj as [ <-|[ <-|[]]]; auto).
        rewrite Hk. destruct (j <? n_alts root_mu_slots)%nat; simpl; lra. }
      split; [apply Hraw0; simpl; auto|].
      rewrite (Raw_spec root_mu_slots _ T _ _ _ _ Hc0) by (simpl; lia).
      unfold D0', D0. simpl Rsum. rewrite !(U_alt root_mu_slots _ T) by (simpl; lia).
      rewrite !Hraw0 by (simpl; auto). simpl. lra. }
    destruct HD as [HD0 HD2].
    assert (HDP : DPx 0%nat 0%nat = ln 2 / theta * / 2).
    { rewrite (R2 2%nat 0%nat) by (simpl; auto; rewrite upd_same by auto; apply Hnz; simpl; auto; lia).
      rewrite (ch_cascade_alt root_mu_slots _ T) by (simpl; lia). unfold first_chosen at 1. simpl.
      destruct (Req_EM_T 1 0) as [|_]; [lra|].
      rewrite HD0, HD2, HP2, EU, HU2 by auto. rewrite (U_alt root_mu_slots _ T) by (simpl; lia).
      assert (R1' := R1 0%nat). simpl in R1'. rewrite R1'.
      replace (cpt _ _ _ _ _ _ _ _ _ _) with (/ 2).
      2:{ unfold cpt, lpt. rewrite EU. rewrite (upd_same (fun _ => theta) 0%nat theta) by auto. symmetry. apply HC; simpl; auto. }
      rewrite upd_same by auto. rewrite Hmu. unfold is_mu. simpl. field. lra. }
    simpl Rsum. rewrite !(ch_cascade_alt root_mu_slots _ T) by (simpl; lia).
    change (first_chosen 0) with 1. change (first_chosen 1) with 0.
    destruct (Req_EM_T 1 0) as [|_]; [lra|]. destruct (Req_EM_T 0 0) as [_|]; [|lra].
    rewrite (HPj 0%nat) by (simpl; auto). rewrite clamp_id by lra. rewrite HDP.
    destruct (Rlt_dec 0 (/ 2)); [|lra]. field. lra. }
  split; [|split; [exact HG|]].
  - apply (is_derive_ext_loc (fun _ => - ln 2)); [|apply d_const].
    exists (mkposreal theta Ht). intros t H. symmetry. apply HL.
    unfold ball in H; simpl in H; unfold AbsRing_ball, abs, minus, plus, opp in H; simpl in H.
    apply Rabs_def2 in H. lra.
  - rewrite HG. apply Rgt_not_eq. apply Rdiv_lt_0_compat; auto.
Qed.

(** Two nests on one path share the logsum parameter theta: alternatives 0,1 in nest 3, nest
    3 in nest 4, root 5 = {2,4}; all utilities 0; alternative 2 chosen.  For every theta in
    (0,1) the reported gradient is 1/theta times the true derivative. *)
Definition chain_slots : slots := mkSlots 3 6 [(3, 0); (3, 1); (4, 3); (5, 2); (5, 4)]%nat
  (fun i => nth i [0; 2; 3] 0)%nat (fun i => nth i [2; 1; 2] 0)%nat
  (fun i => if (i <? 2)%nat then Some 0%nat else None).
Definition chain_kids (k : nat) : list nat := nth k [[]; []; []; [0; 1]; [3]; [2; 4]]%nat [].
Lemma chain_tree : tree_slots chain_slots chain_kids.
Proof.
  split; [constructor|].
  - simpl. lia.
  - intros k Hk. simpl in Hk. assert (k = 0 \/ k = 1 \/ k = 2)%nat as [ ->|[ ->| ->]] by lia; auto.
  - intros k j. unfold chain_kids. do 6 (destruct k as [|k]; [simpl; intuition lia|]). destruct k; simpl; tauto.
  - reflexivity.
  - intros k Hk. simpl in Hk. assert (k = 3 \/ k = 4 \/ k = 5)%nat as [ ->|[ ->| ->]] by lia; reflexivity.
  - simpl. apply NoDup_Permutation.
    + repeat constructor; simpl; intuition lia.
    + repeat constructor; simpl; intuition lia.
    + simpl. intuition.
Qed.
Definition third_chosen : nat -> R := fun a => if (a =? 2)%nat then 1 else 0.
Lemma logsum_one mu x : mu <> 0 -> logsum mu [Some x] = Some x.
Proof. intros H. unfold logsum. simpl. rewrite Rplus_0_r, ln_exp. f_equal. field. auto. Qed.
Theorem C07_shared_logsum_refuted : forall theta lp0 P0, 0 < theta < 1 ->
  let run := fun t => run_case chain_slots (fun _ => t) (fun _ => Some 0) (fun _ _ => 0) (fun _ => true)
                        third_chosen 1 lp0 P0 in
  let share := exp (theta * ln 2) / (1 + exp (theta * ln 2)) in
  is_derive (fun t => val (r_loglike (run t))) theta (- ln 2 * share) /\
  r_dloglike (run theta) 0%nat = - ln 2 * share / theta /\
  r_dloglike (run theta) 0%nat <> - ln 2 * share.
Proof.
  intros theta lp0 P0 Ht run share. assert (T := chain_tree).
  assert (Hl2 : 0 < ln 2) by (rewrite <- ln_1; apply ln_increasing; lra).
  assert (Hav : av_matches chain_slots (fun _ => Some 0) (fun _ => true)).
  { intros a _. unfold finite. split; congruence. }
  assert (Hmu : forall t, mu_of chain_slots (fun _ => t) 3 = t /\ mu_of chain_slots (fun _ => t) 4 = t /\ mu_of chain_slots (fun _ => t) 5 = 1)
    by (intros t; auto).
  assert (Hpos : forall t, 0 < t -> mu_positive chain_slots (fun _ => t)).
  { intros t H k Hk. simpl in Hk. destruct (Hmu t) as [M3 [M4 M5]].
    assert (k = 3 \/ k = 4 \/ k = 5)%nat as [ ->|[ ->| ->]] by lia; [rewrite M3|rewrite M4|rewrite M5]; lra. }
  assert (Hnz : forall t, 0 < t -> forall k, (n_alts chain_slots <= k < n_nodes chain_slots)%nat ->
     mu_of chain_slots (fun _ => t) k <> 0) by (intros t H; apply mu_positive_nz; auto).
  assert (Ua : forall t a, (a < 3)%nat -> node_utilities chain_slots (fun _ => t) (fun _ => Some 0) a = Some 0).
  { intros t a H. apply (U_alt chain_slots _ T). simpl. auto. }
  assert (HU : forall t, 0 < t ->
     node_utilities chain_slots (fun _ => t) (fun _ => Some 0) 3 = Some (t * ln 2) /\
     node_utilities chain_slots (fun _ => t) (fun _ => Some 0) 4 = Some (t * ln 2) /\
     node_utilities chain_slots (fun _ => t) (fun _ => Some 0) 5 = Some (ln (1 + exp (t * ln 2)))).
  { intros t H. destruct (Hmu t) as [M3 [M4 M5]].
    assert (E3 : node_utilities chain_slots (fun _ => t) (fun _ => Some 0) 3 = Some (t * ln 2)).
    { rewrite (U_nest chain_slots _ T); [|simpl; lia|apply Hnz; simpl; auto; lia].
      change (chain_kids 3) with [0; 1]%nat. cbn [map]. rewrite !Ua by lia. rewrite logsum_two, M3.
      replace (0 / t) with 0 by (field; lra). rewrite exp_0. do 3 f_equal; try lra. }
    assert (E4 : node_utilities chain_slots (fun _ => t) (fun _ => Some 0) 4 = Some (t * ln 2)).
    { rewrite (U_nest chain_slots _ T); [|simpl; lia|apply Hnz; simpl; auto; lia].
      change (chain_kids 4) with [3]%nat. cbn [map]. rewrite E3, logsum_one; auto. rewrite M4. lra. }
    split; auto. split; auto.
    rewrite (U_nest chain_slots _ T); [|simpl; lia|apply Hnz; simpl; auto; lia].
    change (chain_kids 5) with [2; 4]%nat. cbn [map]. rewrite Ua, E4 by lia. rewrite logsum_two, M5.
    rewrite Rmult_1_l. unfold Rdiv. rewrite Rinv_1, !Rmult_1_r, exp_0. auto. }
  set (CP := fun t => cond_prob (array_av_cascade chain_slots (fun _ => true)) (fst (logprob_loop chain_slots (fun _ => t)
      (node_utilities chain_slots (fun _ => t) (fun _ => Some 0)) (array_ch_cascade chain_slots third_chosen) 1 lp0))).
  assert (HE : forall t, 0 < exp (t * ln 2)) by (intros; apply exp_pos).
  assert (HC : forall t, 0 < t -> CP t 0%nat = / 2 /\ CP t 1%nat = / 2 /\ CP t 3%nat = 1 /\
     CP t 2%nat = / (1 + exp (t * ln 2)) /\ CP t 4%nat = exp (t * ln 2) / (1 + exp (t * ln 2))).
  { intros t H. destruct (HU t H) as [U3 [U4 U5]]. destruct (Hmu t) as [M3 [M4 M5]].
    assert (S := fun k j => cp_spec chain_slots _ T (fun _ => t) (fun _ => Some 0) (Hnz t H) _ Hav third_chosen 1 lp0 k j).
    fold (CP t) in S. specialize (HE t).
    repeat split.
    - rewrite (S 3%nat 0%nat) by (simpl; auto; lia). rewrite U3, Ua, M3 by lia. simpl val.
      replace ((0 - t * ln 2) / t) with (- ln 2) by (field; lra). rewrite exp_Ropp, exp_ln by lra. auto.
    - rewrite (S 3%nat 1%nat) by (simpl; auto; lia). rewrite U3, Ua, M3 by lia. simpl val.
      replace ((0 - t * ln 2) / t) with (- ln 2) by (field; lra). rewrite exp_Ropp, exp_ln by lra. auto.
    - rewrite (S 4%nat 3%nat) by (simpl; auto; lia). rewrite U3, U4, M4. simpl val.
      replace ((t * ln 2 - t * ln 2) / t) with 0 by (field; lra). apply exp_0.
    - rewrite (S 5%nat 2%nat) by (simpl; auto; lia). rewrite U5, Ua, M5 by lia. simpl val.
      replace ((0 - ln (1 + exp (t * ln 2))) / 1) with (- ln (1 + exp (t * ln 2))) by field.
      rewrite exp_Ropp, exp_ln by lra. auto.
    - rewrite (S 5%nat 4%nat) by (simpl; auto; lia). rewrite U5, U4, M5. simpl val.
      replace ((t * ln 2 - ln (1 + exp (t * ln 2))) / 1) with (t * ln 2 + - ln (1 + exp (t * ln 2))) by field.
      rewrite exp_plus, exp_Ropp, exp_ln by lra. auto. }
  assert (HP : forall t, 0 < t -> r_prob (run t) 5%nat = 1 /\ r_prob (run t) 2%nat = / (1 + exp (t * ln 2))).
  { intros t H. unfold run. rewrite out_prob. fold (CP t).
    destruct (P_spec chain_slots _ T (fun _ => t) (fun _ => Some 0) (fun _ => true) third_chosen 1 lp0 P0) as [H1 H2].
    fold (CP t) in H1, H2. change (n_nodes chain_slots - 1)%nat with 5%nat in H1.
    split; auto. rewrite (H2 5%nat 2%nat) by (simpl; auto; lia). rewrite H1.
    destruct (HC t H) as [_ [_ [_ [ -> _]]]]. lra. }
  assert (HL : forall t, 0 < t -> val (r_loglike (run t)) = - ln (1 + exp (t * ln 2))).
  { intros t H. unfold run. rewrite (C06_loglike chain_slots chain_kids); auto.
    fold (run t). simpl seq. cbn [Rsum fold_right val]. unfold third_chosen. simpl Nat.eqb.
    destruct (HP t H) as [_ HP2]. rewrite HP2. specialize (HE t). rewrite ln_Rinv by lra. lra. }
  assert (HG : r_dloglike (run theta) 0%nat = - ln 2 * share / theta).
  { unfold run.
    rewrite (dll_t chain_slots (fun _ _ => Some 0) (fun _ => theta) (fun _ => true) (fun _ _ => 0) 0 lp0 P0 third_chosen 1).
    assert (Eid : upd (fun _ : nat => theta) 0%nat theta = (fun _ => theta)) by (apply upd_same; auto).
    assert (EU : Ut chain_slots (fun _ _ => Some 0) (fun _ => theta) 0 theta = node_utilities chain_slots (fun _ => theta) (fun _ => Some 0)).
    { unfold Ut. rewrite Eid. auto. }
    assert (EC : cpt chain_slots (fun _ _ => Some 0) (fun _ => theta) (fun _ => true) 0 lp0 third_chosen 1 theta = CP theta).
    { unfold cpt, lpt. rewrite EU, Eid. auto. }
    assert (EP : Pt chain_slots (fun _ _ => Some 0) (fun _ => theta) (fun _ => true) 0 lp0 P0 third_chosen 1 theta = r_prob (run theta)).
    { unfold run. rewrite out_prob. unfold Pt. rewrite EC. auto. }
    rewrite EP. destruct Ht as [Ht0 Ht1]. destruct (HP theta Ht0) as [HP5 HP2].
    destruct (HC theta Ht0) as [C0 [C1 [C3 [C2 C4]]]]. destruct (HU theta Ht0) as [U3 [U4 U5]].
    unfold DPt. rewrite EP, EC, EU, Eid.
    set (D := Dt _ _ _ _ _ _ _ _ _).
    destruct (DP_spec chain_slots _ T (fun _ => theta) (node_utilities chain_slots (fun _ => theta) (fun _ => Some 0))
       (CP theta) (array_ch_cascade chain_slots third_chosen) (r_prob (run theta)) D) as [R1 R2].
    assert (HD : D 2%nat 0%nat = 0 /\ D 5%nat 0%nat = share * (ln 2 / theta)).
    { unfold D, Dt. rewrite EC, EU, Eid.
      assert (Hc0 : forall j, array_av_cascade chain_slots (fun _ => true) j = false -> CP theta j = 0).
      { intros j Hj. unfold CP, cond_prob. rewrite Hj. auto. }
      set (D0' := D0 _ _). set (U := node_utilities _ _ _) in *.
      assert (Fx := fun j => D_final chain_slots _ T (fun _ => theta) (fun _ => true) U (CP theta) Hc0 D0' j).
      assert (Rx := fun k p => Raw_spec chain_slots _ T (fun _ => theta) (fun _ => true) U (CP theta) Hc0 D0' k p).
      destruct (Fx 2%nat) as [F2 _]; [simpl; lia|]. destruct (Fx 5%nat) as [_ F5]; [simpl; lia|].
      rewrite F2, F5 by (simpl; lia).
      assert (HD0 : forall k p, D0' k p = 0) by (intros k p; unfold D0', D0; destruct (k <? _)%nat; auto).
      set (F := Fin chain_slots chain_kids (fun _ => theta) (fun _ => true) U (CP theta) D0') in *.
      assert (HFa : forall j p, (j < 3)%nat -> F j p = 0).
      { intros j p Hj. unfold F, Fin. rewrite (av_cascade_alt chain_slots _ T) by (simpl; lia).
        unfold finalize. destruct (Nat.leb_spec (n_alts chain_slots) j) as [Hl|_]; [simpl in *; lia|].
        rewrite Rx by (simpl in *; lia). rewrite HD0, (ts_leaf _ _ T) by (simpl; auto). simpl. lra. }
      assert (Ha : forall k, (k < 6)%nat -> array_av_cascade chain_slots (fun _ => true) k = true).
      { intros k Hk. do 6 (destruct k as [|k]; [reflexivity|]). lia. }
      assert (HF3 : F 3%nat 0%nat = ln 2).
      { unfold F, Fin. rewrite Ha by lia. unfold finalize. simpl (n_alts chain_slots <=? 3)%nat.
        change (mu_slots chain_slots (3 - n_alts chain_slots)) with (Some 0%nat). cbv beta iota. rewrite upd_eq.
        rewrite Rx by (simpl; lia). fold F. change (chain_kids 3) with [0; 1]%nat. cbn [Rsum fold_right].
        unfold U. rewrite !Ua by lia. rewrite !HFa by lia. fold U. rewrite U3. rewrite HD0. simpl val. field. lra. }
      assert (HF4 : F 4%nat 0%nat = ln 2 / theta).
      { unfold F, Fin. rewrite Ha by lia. unfold finalize. simpl (n_alts chain_slots <=? 4)%nat.
        change (mu_slots chain_slots (4 - n_alts chain_slots)) with (Some 0%nat). cbv beta iota. rewrite upd_eq.
        rewrite Rx by (simpl; lia). fold F. change (chain_kids 4) with [3]%nat. cbn [Rsum fold_right].
        rewrite HF3, U3, U4, C3, HD0. unfold is_mu.
        change (mu_slots chain_slots (4 - n_alts chain_slots)) with (Some 0%nat). simpl. field. lra. }
      split; [apply HFa; lia|].
      rewrite Rx by (simpl; lia). fold F. change (chain_kids 5) with [2; 4]%nat. cbn [Rsum fold_right].
      rewrite HF4, HFa by lia. rewrite HD0, C4. unfold is_mu.
      change (mu_slots chain_slots (5 - n_alts chain_slots)) with (@None nat). unfold share. field.
      specialize (HE theta). lra. }
    destruct HD as [HD2 HD5].
    assert (HDP : dprob_loop chain_slots (fun _ => theta) (array_ch_cascade chain_slots third_chosen)
       (node_utilities chain_slots (fun _ => theta) (fun _ => Some 0)) (CP theta) (r_prob (run theta)) D 2%nat 0%nat
       = - (share * (ln 2 / theta)) * / (1 + exp (theta * ln 2))).
    { destruct (Hmu theta) as [M3 [M4 M5]].
      rewrite (R2 5%nat 2%nat) by (simpl; auto; try lia; rewrite M5; lra).
      rewrite (ch_cascade_alt chain_slots _ T) by (simpl; lia). change (third_chosen 2) with 1.
      destruct (Req_EM_T 1 0) as [|_]; [lra|].
      assert (R1' := R1 0%nat). change (n_nodes chain_slots - 1)%nat with 5%nat in R1'. rewrite R1'.
      rewrite HD2, HD5, HP5, M5, C2. unfold is_mu.
      change (mu_slots chain_slots (5 - n_alts chain_slots)) with (@None nat). cbv iota.
      rewrite Rmult_0_l. field. specialize (HE theta). split; lra. }
    change (n_alts chain_slots) with 3%nat. cbn [seq Rsum fold_right].
    rewrite !(ch_cascade_alt chain_slots _ T) by (simpl; lia).
    change (third_chosen 0) with 0. change (third_chosen 1) with 0. change (third_chosen 2) with 1.
    destruct (Req_EM_T 0 0) as [_|]; [|lra]. destruct (Req_EM_T 1 0) as [|_]; [lra|].
    assert (Hq : / 4 <= / (1 + exp (theta * ln 2)) /\ 0 < / (1 + exp (theta * ln 2))).
    { assert (exp (theta * ln 2) <= 2).
      { rewrite <- (exp_ln 2) at 2 by lra. left. apply exp_increasing.
        rewrite <- (Rmult_1_l (ln 2)) at 2. apply Rmult_lt_compat_r; lra. }
      specialize (HE theta). split; [apply Rinv_le_contravar; lra|apply Rinv_0_lt_compat; lra]. }
    rewrite HP2, clamp_id by tauto. destruct (Rlt_dec 0 _) as [_|]; [|tauto].
    rewrite HDP. specialize (HE theta). unfold share. field. lra. }
  assert (Hsh : 0 < share).
  { unfold share. specialize (HE theta). apply Rdiv_lt_0_compat; lra. }
  split; [|split; [exact HG|]].
  - apply (is_derive_ext_loc (fun t => - ln (1 + exp (t * ln 2)))).
    + assert (Ht0 : 0 < theta) by lra. exists (mkposreal theta Ht0). intros t H. symmetry. apply HL.
      unfold ball in H; simpl in H; unfold AbsRing_ball, abs, minus, plus, opp in H; simpl in H.
      apply Rabs_def2 in H. lra.
    + auto_derive.
      * specialize (HE theta). lra.
      * unfold share. field. specialize (HE theta). lra.
  - rewrite HG. intros E.
    assert (E2 : ln 2 * share * (/ theta - 1) = 0) by lra.
    assert (H1 : 1 < / theta) by (rewrite <- Rinv_1; apply Rinv_lt_contravar; lra).
    assert (0 < ln 2 * share * (/ theta - 1)); [|lra].
    apply Rmult_lt_0_compat; [apply Rmult_lt_0_compat|]; lra.
Qed.

(** ---------------------------------------------------------------- C01 (cross-nested) *)
(** An alternative in two nests (allowed by the tree interface): the probabilities do NOT
    sum to one.  One alternative 0 in nests 1 and 2, root 3 = {1,2}. *)
Definition cross_slots : slots := mkSlots 1 4 [(1, 0); (2, 0); (3, 1); (3, 2)]%nat
  (fun i => nth i [0; 1; 2] 0)%nat (fun i => nth i [1; 1; 2] 0)%nat (fun _ => None).
Definition cross_kids (k : nat) : list nat := nth k [[]; [0]; [0]; [1; 2]]%nat [].
Lemma cross_dag : dag_slots cross_slots cross_kids.
Proof.
  constructor.
  - simpl. lia.
  - intros k Hk. simpl in Hk. assert (k = 0)%nat as -> by lia; auto.
  - intros k j. unfold cross_kids. do 4 (destruct k as [|k]; [simpl; intuition lia|]). destruct k; simpl; tauto.
  - reflexivity.
  - intros k Hk. simpl in Hk. assert (k = 1 \/ k = 2 \/ k = 3)%nat as [ ->|[ ->| ->]] by lia; reflexivity.
Qed.
Theorem C01_cross_nested_refuted : forall u0 du ch wt lp0 P0,
  let out := run_case cross_slots (fun _ => 1) (fun _ => Some u0) du (fun _ => true) ch wt lp0 P0 in
  dag_slots cross_slots cross_kids /\ Rsum (r_prob out) (seq 0 (n_alts cross_slots)) = / 2.
Proof.
  intros u0 du ch wt lp0 P0 out. split; [apply cross_dag|]. assert (T := cross_dag).
  unfold out. rewrite out_prob. simpl n_alts. cbn [seq Rsum fold_right].
  set (U := node_utilities cross_slots (fun _ => 1) (fun _ => Some u0)).
  assert (Hmu : forall k, mu_of cross_slots (fun _ => 1) k = 1) by auto.
  assert (U0 : U 0%nat = Some u0) by (apply (U_alt cross_slots _ T); simpl; lia).
  assert (U1 : U 1%nat = Some u0).
  { unfold U. rewrite (U_nest cross_slots _ T); [|simpl; lia|rewrite Hmu; lra].
    change (cross_kids 1) with [0]%nat. cbn [map]. fold U. rewrite U0, logsum_one; auto. rewrite Hmu. lra. }
  assert (U2 : U 2%nat = Some u0).
  { unfold U. rewrite (U_nest cross_slots _ T); [|simpl; lia|rewrite Hmu; lra].
    change (cross_kids 2) with [0]%nat. cbn [map]. fold U. rewrite U0, logsum_one; auto. rewrite Hmu. lra. }
  assert (U3 : U 3%nat = Some (u0 + ln 2)).
  { unfold U. rewrite (U_nest cross_slots _ T); [|simpl; lia|rewrite Hmu; lra].
    change (cross_kids 3) with [1; 2]%nat. cbn [map]. fold U. rewrite U1, U2, logsum_two, Hmu. f_equal.
    replace (u0 / 1) with u0 by field. replace (exp u0 + exp u0) with (exp u0 * 2) by lra.
    rewrite ln_mult by (try apply exp_pos; lra). rewrite ln_exp. lra. }
  unfold probabilities. simpl rev. cbn [fold_left prob_step].
  change (array_av_cascade cross_slots (fun _ : nat => true) 0%nat) with true.
  change (array_av_cascade cross_slots (fun _ : nat => true) 1%nat) with true.
  change (array_av_cascade cross_slots (fun _ : nat => true) 2%nat) with true.
  cbv iota.
  set (lp := fst _).
  assert (L : lp 0%nat = Some 0 /\ lp 1%nat = Some (- ln 2) /\ lp 2%nat = Some (- ln 2)).
  { unfold lp, logprob_loop. rewrite (logprob_loop_split cross_slots (fun _ => 1) (fun _ => Some u0) ch wt).
    simpl edges. cbn [fst fold_left snd]. unfold LogitRun.ev. cbn [fst snd]. fold U. rewrite U0, U1, U2, U3.
    rewrite !Hmu. simpl edge_logprob.
    rewrite (upd_neq _ 2%nat _ 0%nat), (upd_neq _ 1%nat _ 0%nat), upd_eq, (upd_neq _ 2%nat _ 1%nat), upd_eq, upd_eq by lia.
    split; [|split]; f_equal; field. }
  destruct L as [L0 [L1 L2]].
  rewrite upd_eq. unfold cond_prob.
  change (array_av_cascade cross_slots (fun _ : nat => true) 0%nat) with true.
  change (array_av_cascade cross_slots (fun _ : nat => true) 1%nat) with true.
  change (array_av_cascade cross_slots (fun _ : nat => true) 2%nat) with true. cbv iota.
  rewrite L0, L1, L2. unfold upd. simpl. rewrite exp_0, exp_Ropp, exp_ln by lra. lra.
Qed.
