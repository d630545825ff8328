From Coq Require Import Permutation FunctionalExtensionality.
From Coquelicot Require Import Coquelicot.
From Verif Require Export LogitGrad.

Lemma is_derive_Rsum {A} (f : A -> R -> R) (df : A -> R) l x :
  (forall a, In a l -> is_derive (f a) x (df a)) ->
  is_derive (fun t => Rsum (fun a => f a t) l) x (Rsum df l).
Proof.
  induction l as [|a l IH]; simpl; intros H.
  - apply @is_derive_const.
  - apply @is_derive_plus; auto.
Qed.

Lemma d_eq f x (a b : R) : is_derive f x a -> a = b -> is_derive f x b.
Proof. intros H <-. auto. Qed.
Lemma d_exp (f : R -> R) x df : is_derive f x df -> is_derive (fun t => exp (f t)) x (exp (f x) * df).
Proof.
  intros H. eapply d_eq; [apply (is_derive_comp exp f x _ _ (is_derive_exp (f x)) H)|].
  unfold scal; simpl; unfold mult; simpl. ring.
Qed.
Lemma d_ln (f : R -> R) x df : 0 < f x -> is_derive f x df -> is_derive (fun t => ln (f t)) x (df * / f x).
Proof.
  intros Hp H. eapply d_eq; [apply (is_derive_comp ln f x _ _ (is_derive_ln (f x) Hp) H)|].
  unfold scal; simpl; unfold mult; simpl. ring.
Qed.
Lemma d_mult (f g : R -> R) x df dg : is_derive f x df -> is_derive g x dg ->
  is_derive (fun t => f t * g t) x (df * g x + f x * dg).
Proof. intros Hf Hg. apply (is_derive_mult f g x df dg Hf Hg). intros; apply Rmult_comm. Qed.
Lemma d_div (f g : R -> R) x df dg : is_derive f x df -> is_derive g x dg -> g x <> 0 ->
  is_derive (fun t => f t / g t) x ((df * g x - f x * dg) / g x ^ 2).
Proof. intros Hf Hg Hn. apply (is_derive_div f g x df dg Hf Hg Hn). Qed.
Lemma d_minus (f g : R -> R) x df dg : is_derive f x df -> is_derive g x dg ->
  is_derive (fun t => f t - g t) x (df - dg).
Proof. intros Hf Hg. apply (is_derive_minus f g x df dg Hf Hg). Qed.
Lemma d_const (c x : R) : is_derive (fun _ => c) x 0.
Proof. apply @is_derive_const. Qed.

Section Deriv.
Variable st : slots.
Variable kids : nat -> list nat.
Hypothesis T : tree_slots st kids.
Notation na := (n_alts st).
Notation n := (n_nodes st).
Variable uf : (nat -> R) -> nat -> option R.
Variable par : nat -> R.
Variable av : nat -> bool.
Variable du : nat -> nat -> R.
Variable p : nat.
Variable lp0 : nat -> option R.
Variable P0 : nat -> R.
Variable ch : nat -> R.
Variable wt : R.
Notation part t := (upd par p t).
Hypothesis Hfin : forall t a, (a < na)%nat -> (av a = true <-> finite (uf (part t) a)).
Hypothesis Hdu : forall a, (a < na)%nat -> av a = true ->
  is_derive (fun t => val (uf (part t) a)) (par p) (du a p).
Hypothesis Hmu : mu_positive st par.
Hypothesis Hroot : mu_slots st (n - 1 - na) = None.
Hypothesis Hsep : forall k s j, (na <= k < n)%nat -> mu_slots st (k - na) = Some s ->
  under kids k j -> j <> k ->
  ((na <= j)%nat -> mu_slots st (j - na) <> Some s) /\ ((j < na)%nat -> av j = true -> du j s = 0).

Lemma part_id : part (par p) = par.
Proof. apply upd_same. auto. Qed.
(** near the current value every logsum parameter stays positive *)
Definition delta : R := if Rlt_dec 0 (par p) then par p else 1.
Lemma delta_pos : 0 < delta.
Proof. unfold delta. destruct (Rlt_dec 0 (par p)); lra. Qed.
Definition near (t : R) : Prop := Rabs (t - par p) < delta.
Lemma near_locally : locally (par p) near.
Proof. exists (mkposreal delta delta_pos). intros t H. exact H. Qed.
Lemma mu_of_part t k : mu_of st (part t) k =
  match mu_slots st (k - na) with None => 1 | Some s => if (s =? p)%nat then t else par s end.
Proof. unfold mu_of, upd. destruct (mu_slots st (k - na)); auto. Qed.
Lemma near_mu t : near t -> mu_positive st (part t).
Proof.
  intros Hn k Hk. rewrite mu_of_part. assert (H := Hmu k Hk). unfold mu_of in H.
  destruct (mu_slots st (k - na)) as [s|]; auto. destruct (Nat.eqb_spec s p) as [ ->|]; auto.
  unfold near, delta in Hn. destruct (Rlt_dec 0 (par p)); [|lra].
  apply Rabs_def2 in Hn. lra.
Qed.
Lemma near_nz t : near t -> forall k, (na <= k < n)%nat -> mu_of st (part t) k <> 0.
Proof. intros Hn k Hk. assert (H := near_mu t Hn k Hk). lra. Qed.
Lemma near_self : near (par p).
Proof. unfold near. rewrite Rminus_diag_eq by auto. rewrite Rabs_R0. apply delta_pos. Qed.

Definition Ut (t : R) := node_utilities st (part t) (uf (part t)).
Notation avx := (array_av_cascade st av).
Notation chx := (array_ch_cascade st ch).
Lemma av_match t : av_matches st (uf (part t)) av.
Proof. intros a Ha. apply Hfin. auto. Qed.
Lemma avx_Ut t k : near t -> (k < n)%nat -> (avx k = true <-> finite (Ut t k)).
Proof.
  intros Hn Hk. apply (avx_finite st kids T (part t) (uf (part t)) (near_nz t Hn) av (av_match t)). auto.
Qed.
Definition lpt (t : R) := fst (logprob_loop st (part t) (Ut t) chx wt lp0).
Definition cpt (t : R) := cond_prob avx (lpt t).
Definition Pt (t : R) := probabilities st avx (cpt t) P0.
Notation U := (Ut (par p)).
Notation cp := (cpt (par p)).
Notation P := (Pt (par p)).
Definition D0 : nat -> nat -> R := fun k q => if (k <? na)%nat then du k q else 0.
Notation fin := (Fin st kids (part (par p)) av U cp D0).
Notation raw := (Raw st kids (part (par p)) av U cp D0).
Lemma Hcp0 j : avx j = false -> cp j = 0.
Proof. intros H. unfold cpt, cond_prob. rewrite H. auto. Qed.

Lemma vU_nest t k : near t -> (na <= k < n)%nat -> avx k = true ->
  val (Ut t k) = mu_of st (part t) k * ln (Rsum (fun j => if avx j then exp (val (Ut t j) / mu_of st (part t) k) else 0) (kids k)).
Proof.
  intros Hn Hk Ha. assert (Hf : finite (Ut t k)) by (apply avx_Ut; auto; lia).
  unfold Ut in *. rewrite (U_nest st kids T (part t) (uf (part t)) k Hk (near_nz t Hn k Hk)) in *.
  unfold logsum in *. destruct (existsb _ _); [|unfold finite in Hf; congruence]. simpl.
  rewrite Rsum_map. do 2 f_equal. apply Rsum_ext. intros j Hj.
  destruct (kid_range _ _ T k j) as [H1 H2]; auto; [lia|].
  assert (Hja := avx_Ut t j Hn). unfold Ut in Hja.
  destruct (node_utilities st (part t) (uf (part t)) j) as [x|] eqn:Ej.
  - assert (Et : avx j = true) by (apply Hja; [lia|unfold finite; congruence]). rewrite Et. auto.
  - assert (Et : avx j = false).
    { apply not_true_iff_false. rewrite Hja by lia. unfold finite; congruence. }
    rewrite Et. auto.
Qed.

(** below a nest using parameter s, no utility depends on s *)
Lemma fin_zero j s : (j < n)%nat -> avx j = true ->
  ((na <= j)%nat -> mu_slots st (j - na) <> Some s) ->
  (forall i, under kids j i -> i <> j ->
     ((na <= i)%nat -> mu_slots st (i - na) <> Some s) /\ ((i < na)%nat -> av i = true -> du i s = 0)) ->
  ((j < na)%nat -> av j = true -> du j s = 0) ->
  fin j s = 0.
Proof.
  induction j as [j IH] using lt_wf_ind. intros Hj Ha H1 H2 H3.
  assert (Hr : raw j s = 0).
  { rewrite (Raw_spec st kids T (part (par p)) av U cp Hcp0 D0 j s Hj). unfold D0.
    destruct (Nat.ltb_spec j na) as [Hlt|Hge].
    - rewrite (ts_leaf _ _ T) by auto. simpl. rewrite (av_cascade_alt st kids T) in Ha by auto.
      rewrite H3; auto. lra.
    - rewrite Rsum_zero; [lra|]. intros i Hi. destruct (kid_range _ _ T j i Hj Hi) as [Hij _].
      assert (Hm : is_mu st j s = 0).
      { unfold is_mu. destruct (mu_slots st (j - na)) as [s'|] eqn:E; auto.
        destruct (Nat.eqb_spec s s'); auto. subst. exfalso. apply (H1 Hge). auto. }
      rewrite Hm. destruct (avx i) eqn:Eai; [|rewrite Hcp0 by auto; lra].
      rewrite IH; auto; try lia; try lra.
      + intros Hge'. apply (H2 i); auto; [|lia]. eapply under_step; [eauto|constructor].
      + intros i' Hi' Hne. apply H2; [eapply under_step; eauto|].
        apply (under_le kids (ts_less _ _ T)) in Hi'. lia.
      + intros Hlt' Hav'. apply (H2 i); auto; [|lia]. eapply under_step; [eauto|constructor]. }
  unfold Fin. rewrite Ha. unfold finalize. destruct (Nat.leb_spec na j); auto.
  destruct (mu_slots st (j - na)) as [s'|] eqn:E; auto.
  rewrite upd_neq; auto. intros ->. apply (H1 H). auto.
Qed.
Lemma fin_zero_kid k s j : (na <= k < n)%nat -> mu_slots st (k - na) = Some s -> In j (kids k) ->
  avx j = true -> fin j s = 0.
Proof.
  intros Hk Hs Hj Ha. destruct (kid_range _ _ T k j) as [H1 H2]; auto; [lia|].
  assert (Hu : under kids k j) by (eapply under_step; [eauto|constructor]).
  apply fin_zero; auto; try lia.
  - apply (Hsep k s j Hk Hs Hu). lia.
  - intros i Hi Hne. apply (Hsep k s i Hk Hs); [eapply under_trans; eauto|].
    apply (under_le kids (ts_less _ _ T)) in Hi. lia.
  - apply (Hsep k s j Hk Hs Hu). lia.
Qed.

(** derivative of the logsum parameter itself *)
Lemma d_mu k : is_derive (fun t => mu_of st (part t) k) (par p) (is_mu st k p).
Proof.
  apply (is_derive_ext (fun t => match mu_slots st (k - na) with None => 1 | Some s => if (s =? p)%nat then t else par s end)).
  - intros t. rewrite mu_of_part. auto.
  - unfold is_mu. destruct (mu_slots st (k - na)) as [s|]; [|apply @is_derive_const].
    rewrite (Nat.eqb_sym p s). destruct (s =? p)%nat; [apply @is_derive_id|apply @is_derive_const].
Qed.

Lemma cp_val k j : (k < n)%nat -> In j (kids k) -> avx j = true ->
  cp j = exp ((val (U j) - val (U k)) / mu_of st (part (par p)) k).
Proof.
  intros Hk Hj Ha. unfold cpt, lpt, Ut.
  rewrite (cp_spec st kids T (part (par p)) (uf (part (par p))) (near_nz _ near_self) av (av_match _) ch wt lp0 k j Hk Hj).
  destruct (kid_range _ _ T k j) as [H1 H2]; auto.
  assert (Hf : finite (Ut (par p) j)) by (apply avx_Ut; auto; [apply near_self|lia]).
  unfold Ut in Hf. destruct (node_utilities _ _ _ j); auto. unfold finite in Hf; congruence.
Qed.
Lemma cp_sum1 k : (na <= k < n)%nat -> avx k = true -> Rsum cp (kids k) = 1.
Proof.
  intros Hk Ha. unfold cpt, lpt, Ut.
  apply (cp_sum st kids T (part (par p)) (uf (part (par p))) (near_nz _ near_self) av (av_match _) ch wt lp0 k Hk).
  apply (avx_Ut (par p)); auto; [apply near_self|lia].
Qed.

Lemma dU k : (k < n)%nat -> avx k = true ->
  is_derive (fun t => val (Ut t k)) (par p) (fin k p).
Proof.
  induction k as [k IH] using lt_wf_ind. intros Hk Ha.
  destruct (Nat.lt_ge_cases k na) as [Hlt|Hge].
  - rewrite (av_cascade_alt st kids T) in Ha by auto.
    apply (is_derive_ext (fun t => val (uf (part t) k))).
    + intros t. unfold Ut. rewrite (U_alt st kids T) by auto. auto.
    + replace (fin k p) with (du k p); [apply Hdu; auto|].
      unfold Fin. rewrite (av_cascade_alt st kids T) by auto. rewrite Ha.
      unfold finalize. destruct (Nat.leb_spec na k); [lia|].
      rewrite (Raw_spec st kids T (part (par p)) av U cp Hcp0 D0 k p Hk).
      rewrite (ts_leaf _ _ T) by auto. unfold D0. simpl.
      apply Nat.ltb_lt in Hlt. rewrite Hlt. lra.
  - set (mu0 := mu_of st (part (par p)) k).
    assert (Hmu0 : 0 < mu0) by (apply near_mu; [apply near_self|auto]).
    set (S0 := Rsum (fun j => if avx j then exp (val (U j) / mu0) else 0) (kids k)).
    assert (HUk : val (U k) = mu0 * ln S0) by (apply vU_nest; auto; apply near_self).
    assert (HS0 : 0 < S0).
    { destruct (Rlt_le_dec 0 S0) as [|Hle]; auto. exfalso.
      assert (Hnn : forall j, In j (kids k) -> 0 <= (if avx j then exp (val (U j) / mu0) else 0)).
      { intros j _. destruct (avx j); [left; apply exp_pos|lra]. }
      rewrite (av_cascade_nest st kids T) in Ha by auto. apply existsb_exists in Ha.
      destruct Ha as [j [Hj Haj]].
      assert (0 < S0); [|lra]. apply (Rsum_pos _ _ j); auto. rewrite Haj. apply exp_pos. }
    assert (Hshare : forall j, In j (kids k) -> cp j = (if avx j then exp (val (U j) / mu0) else 0) / S0).
    { intros j Hj. destruct (avx j) eqn:Eaj.
      - rewrite (cp_val k j Hk Hj Eaj). fold mu0. rewrite HUk.
        replace ((val (U j) - mu0 * ln S0) / mu0) with (val (U j) / mu0 - ln S0) by (field; lra).
        unfold Rminus. rewrite exp_plus, exp_Ropp, exp_ln by auto. auto.
      - rewrite Hcp0 by auto. unfold Rdiv. lra. }
    set (m' := is_mu st k p).
    assert (Hd : is_derive (fun t => mu_of st (part t) k * ln (Rsum (fun j => if avx j then exp (val (Ut t j) / mu_of st (part t) k) else 0) (kids k)))
       (par p) (m' * ln S0 + mu0 * (Rsum (fun j => (if avx j then exp (val (U j) / mu0) else 0) * ((fin j p * mu0 - val (U j) * m') / mu0 ^ 2)) (kids k) * / S0))).
    { apply (d_mult (fun t => mu_of st (part t) k) (fun t => ln (Rsum _ (kids k)))).
      - apply d_mu.
      - apply (d_ln (fun t => Rsum (fun j => if avx j then exp (val (Ut t j) / mu_of st (part t) k) else 0) (kids k))).
        + exact HS0.
        + apply is_derive_Rsum. intros j Hj. destruct (avx j) eqn:Eaj.
          * destruct (kid_range _ _ T k j) as [Hjk _]; auto.
            apply (d_exp (fun t => val (Ut t j) / mu_of st (part t) k)).
            apply (d_div (fun t => val (Ut t j)) (fun t => mu_of st (part t) k)); [apply IH; auto; lia|apply d_mu|fold mu0; lra].
          * rewrite Rmult_0_l. apply d_const. }
    eapply is_derive_ext_loc.
    { apply (filter_imp near); [|apply near_locally]. intros t Ht. symmetry. apply vU_nest; auto. }
    replace (fin k p) with (m' * ln S0 + mu0 * (Rsum (fun j => (if avx j then exp (val (U j) / mu0) else 0) * ((fin j p * mu0 - val (U j) * m') / mu0 ^ 2)) (kids k) * / S0)); auto.
    clear Hd.
    transitivity (m' * ln S0 + Rsum (fun j => cp j * (fin j p - m' * val (U j) / mu0)) (kids k)).
    { f_equal. rewrite (Rsum_ext (fun j => cp j * _) (fun j => (mu0 * / S0) * ((if avx j then exp (val (U j) / mu0) else 0) * ((fin j p * mu0 - val (U j) * m') / mu0 ^ 2)))).
      - rewrite Rsum_scal. ring.
      - intros j Hj. rewrite Hshare by auto. field. lra. }
    unfold Fin at 2. rewrite Ha. unfold finalize. destruct (Nat.leb_spec na k); [|lia].
    assert (Hraw : raw k p = Rsum (fun j => cp j * (fin j p - m' * val (U j))) (kids k)).
    { rewrite (Raw_spec st kids T (part (par p)) av U cp Hcp0 D0 k p Hk). unfold D0.
      destruct (Nat.ltb_spec k na); [lia|]. unfold m'. lra. }
    unfold m', is_mu in *. unfold mu0, mu_of in *.
    destruct (mu_slots st (k - na)) as [s|] eqn:Es.
    + destruct (Nat.eqb_spec p s) as [ <-|Hne].
      * rewrite upd_eq, Hraw, HUk. rewrite upd_eq in *.
        rewrite (Rsum_ext _ (fun j => (- / par p) * (cp j * val (U j)))).
        2:{ intros j Hj. destruct (avx j) eqn:Eaj; [|rewrite Hcp0 by auto; lra].
            rewrite (fin_zero_kid k p j) by (auto; lia). field. lra. }
        rewrite (Rsum_ext (fun j => cp j * (fin j p - 1 * val (U j))) (fun j => (- 1) * (cp j * val (U j)))).
        2:{ intros j Hj. destruct (avx j) eqn:Eaj; [|rewrite Hcp0 by auto; lra].
            rewrite (fin_zero_kid k p j) by (auto; lia). lra. }
        rewrite !Rsum_scal. rewrite ?upd_eq. field. lra.
      * rewrite (upd_neq (raw k) s) by auto. rewrite Hraw, Rmult_0_l, Rplus_0_l. apply Rsum_ext. intros j _. lra.
    + rewrite Hraw, Rmult_0_l, Rplus_0_l. apply Rsum_ext. intros j _. lra.
Qed.

(** ----- probabilities ----- *)
Hypothesis Hch0 : forall a, (a < na)%nat -> 0 <= ch a.
Hypothesis Hchav : forall a, (a < na)%nat -> ch a <> 0 -> av a = true.
Lemma chx_nonneg k : (k < n)%nat -> 0 <= chx k.
Proof.
  induction k as [k IH] using lt_wf_ind. intros Hk. destruct (Nat.lt_ge_cases k na) as [Hlt|Hge].
  - rewrite (ch_cascade_alt st kids T) by auto. auto.
  - rewrite (ch_cascade_nest st kids T) by auto. apply Rsum_nonneg. intros j Hj.
    destruct (kid_range _ _ T k j Hk Hj). apply IH; lia.
Qed.
Lemma chx_parent k j : (k < n)%nat -> In j (kids k) -> chx j <> 0 -> chx k <> 0.
Proof.
  intros Hk Hj Hne. destruct (Nat.lt_ge_cases k na) as [Hlt|Hge].
  { rewrite (ts_leaf _ _ T) in Hj by auto. destruct Hj. }
  rewrite (ch_cascade_nest st kids T) by auto.
  destruct (kid_range _ _ T k j Hk Hj).
  assert (0 < Rsum chx (kids k)); [|lra].
  apply (Rsum_pos _ _ j); auto.
  - intros i Hi. destruct (kid_range _ _ T k i Hk Hi). apply chx_nonneg. lia.
  - assert (H2 := chx_nonneg j). specialize (H2 ltac:(lia)). lra.
Qed.
Lemma chx_av k : (k < n)%nat -> chx k <> 0 -> avx k = true.
Proof.
  induction k as [k IH] using lt_wf_ind. intros Hk Hc. destruct (Nat.lt_ge_cases k na) as [Hlt|Hge].
  - rewrite (av_cascade_alt st kids T) by auto. rewrite (ch_cascade_alt st kids T) in Hc by auto. auto.
  - rewrite (av_cascade_nest st kids T) by auto. rewrite (ch_cascade_nest st kids T) in Hc by auto.
    destruct (existsb avx (kids k)) eqn:E; auto. exfalso. apply Hc. apply Rsum_zero.
    intros j Hj. destruct (kid_range _ _ T k j Hk Hj).
    destruct (Req_dec (chx j) 0) as [|Hn]; auto. exfalso.
    assert (Ht : existsb avx (kids k) = true) by (apply existsb_exists; exists j; split; auto; apply IH; auto; lia).
    congruence.
Qed.
Definition Dt := dutility_loop st (part (par p)) avx U cp D0.
Lemma Dt_fin j : (j < n)%nat -> avx j = true -> Dt j p = fin j p.
Proof.
  intros Hj Ha. destruct (D_final st kids T (part (par p)) av U cp Hcp0 D0 j Hj) as [H1 H2].
  unfold Dt. destruct (Nat.eq_dec j (n - 1)) as [E|Hne].
  - rewrite H2 by auto. unfold Fin. rewrite Ha. unfold finalize. rewrite E. rewrite Hroot.
    destruct (na <=? n - 1)%nat; auto.
  - rewrite H1 by lia. auto.
Qed.
Lemma cpt_val t k j : near t -> (k < n)%nat -> In j (kids k) -> avx j = true ->
  cpt t j = exp ((val (Ut t j) - val (Ut t k)) / mu_of st (part t) k).
Proof.
  intros Hn Hk Hj Ha. unfold cpt, lpt, Ut.
  rewrite (cp_spec st kids T (part t) (uf (part t)) (near_nz _ Hn) av (av_match _) ch wt lp0 k j Hk Hj).
  destruct (kid_range _ _ T k j) as [H1 H2]; auto.
  assert (Hf : finite (Ut t j)) by (apply avx_Ut; auto; lia).
  unfold Ut in Hf. destruct (node_utilities _ _ _ j); auto. unfold finite in Hf; congruence.
Qed.
Lemma P_step t : near t -> Pt t (n - 1)%nat = 1 /\
  (forall k j, (k < n)%nat -> In j (kids k) -> Pt t j = Pt t k * cpt t j).
Proof.
  intros Hn. unfold Pt, cpt, lpt, Ut.
  apply (P_spec st kids T).
Qed.
Definition DPt := dprob_loop st (part (par p)) chx U cp P Dt.
Lemma dP j : (j < n)%nat -> chx j <> 0 -> is_derive (fun t => Pt t j) (par p) (DPt j p).
Proof.
  intros Hj. remember (n - 1 - j)%nat as d eqn:Hd. revert j Hj Hd.
  induction d as [d IH] using lt_wf_ind. intros j Hj Hd Hc.
  destruct (DP_spec st kids T (part (par p)) U cp chx P Dt) as [R1 R2]. fold DPt in R1, R2.
  destruct (Nat.eq_dec j (n - 1)) as [E|Hne].
  - rewrite E, R1. eapply is_derive_ext_loc; [|apply (d_const 1)].
    apply (filter_imp near); [|apply near_locally]. intros t Ht. symmetry. apply P_step; auto.
  - destruct (parent_ex st kids T j) as [k [Hk Hin]]; [lia|].
    destruct (kid_range _ _ T k j Hk Hin) as [H1 H2].
    assert (Hna : (na <= k)%nat).
    { apply Nat.nlt_ge. intros Hlt. rewrite (ts_leaf _ _ T k Hlt) in Hin. destruct Hin. }
    assert (Hck := chx_parent k j Hk Hin Hc).
    assert (Haj := chx_av j Hj Hc). assert (Hak := chx_av k Hk Hck).
    assert (Hmk : 0 < mu_of st (part (par p)) k) by (apply near_mu; [apply near_self|lia]).
    rewrite (R2 k j p Hk Hin) by lra. destruct (Req_EM_T (chx j) 0) as [Ez|Ez]; [congruence|].
    eapply is_derive_ext_loc.
    { apply (filter_imp near); [|apply near_locally]. intros t Ht. symmetry.
      transitivity (Pt t k * exp ((val (Ut t j) - val (Ut t k)) / mu_of st (part t) k)); [|reflexivity].
      destruct (P_step t Ht) as [_ Hs]. rewrite (Hs k j Hk Hin), (cpt_val t k j); auto. }
    eapply d_eq.
    { apply (d_mult (fun t => Pt t k) (fun t => exp ((val (Ut t j) - val (Ut t k)) / mu_of st (part t) k))).
      - apply (IH (n - 1 - k)%nat); auto; lia.
      - apply (d_exp (fun t => (val (Ut t j) - val (Ut t k)) / mu_of st (part t) k)).
        apply (d_div (fun t => val (Ut t j) - val (Ut t k)) (fun t => mu_of st (part t) k)).
        + apply (d_minus (fun t => val (Ut t j)) (fun t => val (Ut t k))); apply dU; auto.
        + apply d_mu.
        + lra. }
    rewrite <- (cpt_val _ k j near_self Hk Hin Haj).
    rewrite !Dt_fin by auto. field. lra.
Qed.

Lemma P_pos_ch t a : near t -> (a < na)%nat -> av a = true -> 0 < Pt t a.
Proof.
  intros Hn Ha Hav. assert (Hr := ts_root _ _ T). unfold Pt, cpt, lpt, Ut.
  apply (P_pos st kids T (part t) (uf (part t)) (near_nz _ Hn) av (av_match _) ch wt lp0 P0); [lia|].
  fold (Ut t). apply avx_Ut; auto; [lia|]. rewrite (av_cascade_alt st kids T); auto.
Qed.
Lemma ll_t t : near t -> r_loglike (run_case st (part t) (uf (part t)) du av ch wt lp0 P0) =
  Some (wt * Rsum (fun a => ch a * ln (Pt t a)) (seq 0 na)).
Proof.
  intros Hn. unfold run_case.
  assert (E := ll_spec st kids T (part t) (uf (part t)) (near_nz _ Hn) av (av_match _) ch wt lp0 P0).
  unfold Pt, cpt, lpt, Ut.
  destruct (logprob_loop _ _ _ _ _ _) as [lp ll]. simpl in *.
  destruct (dll_loop _ _ _ _ _) as [dll bh]. simpl. apply E.
  intros a Ha Hc. apply (av_match t a Ha). auto.
Qed.
Lemma dll_t : r_dloglike (run_case st par (uf par) du av ch wt lp0 P0) p =
  wt * Rsum (fun a => if Req_EM_T (chx a) 0 then 0 else if Rlt_dec 0 (P a) then
        chx a * (DPt a p / clamp (P a)) else 0) (seq 0 na).
Proof.
  destruct (dll_spec st chx P wt DPt) as [E _]. rewrite <- E. clear E.
  unfold run_case, DPt, Dt, Pt, cpt, lpt, Ut. rewrite part_id. unfold D0.
  destruct (logprob_loop _ _ _ _ _ _) as [lp ll]. simpl.
  destruct (dll_loop _ _ _ _ _) as [dll bh] eqn:Ed. simpl.
  reflexivity.
Qed.
Theorem dLL : (forall a, (a < na)%nat -> ch a <> 0 -> / 10 ^ 250 <= P a) ->
  is_derive (fun t => val (r_loglike (run_case st (part t) (uf (part t)) du av ch wt lp0 P0))) (par p)
    (r_dloglike (run_case st par (uf par) du av ch wt lp0 P0) p).
Proof.
  intros Hcl. assert (Hr := ts_root _ _ T). rewrite dll_t.
  eapply is_derive_ext_loc.
  { apply (filter_imp near); [|apply near_locally]. intros t Ht. symmetry. rewrite (ll_t t Ht).
    simpl. transitivity (wt * Rsum (fun a => ch a * ln (Pt t a)) (seq 0 na)); [reflexivity|]. reflexivity. }
  eapply d_eq.
  { apply (d_mult (fun _ => wt) (fun t => Rsum (fun a => ch a * ln (Pt t a)) (seq 0 na))).
    - apply d_const.
    - apply (is_derive_Rsum (fun a t => ch a * ln (Pt t a))
        (fun a => if Req_EM_T (chx a) 0 then 0 else ch a * (DPt a p * / P a))).
      intros a Ha. apply in_seq in Ha.
      assert (Ec : chx a = ch a) by (apply (ch_cascade_alt st kids T); lia).
      destruct (Req_EM_T (chx a) 0) as [E0|E0].
      + rewrite Ec in E0. apply (is_derive_ext (fun _ => 0)); [|apply d_const].
        intros t. rewrite E0. symmetry. apply Rmult_0_l.
      + eapply d_eq.
        { apply (d_mult (fun _ => ch a) (fun t => ln (Pt t a))); [apply d_const|].
          apply (d_ln (fun t => Pt t a)); [|apply dP; auto; lia].
          apply P_pos_ch; [apply near_self|lia|]. apply Hchav; [lia|]. congruence. }
        ring. }
  rewrite Rmult_0_l, Rplus_0_l. f_equal. apply Rsum_ext. intros a Ha. apply in_seq in Ha.
  assert (Ec : chx a = ch a) by (apply (ch_cascade_alt st kids T); lia).
  destruct (Req_EM_T (chx a) 0) as [E0|E0]; auto.
  assert (Hp : 0 < P a) by (apply P_pos_ch; [apply near_self|lia|apply Hchav; [lia|congruence]]).
  destruct (Rlt_dec 0 (P a)); [|lra]. unfold clamp.
  assert (Hge := Hcl a ltac:(lia) ltac:(congruence)).
  destruct (Rlt_dec (P a) (/ 10 ^ 250)); [exfalso; apply (Rlt_not_le _ _ r0 Hge)|]. rewrite Ec. auto.
Qed.
End Deriv.
