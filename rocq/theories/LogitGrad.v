From Coq Require Import Permutation FunctionalExtensionality.
From Coquelicot Require Import Coquelicot.
From Verif Require Export LogitRun.

Section Grad.
Variable st : slots.
Variable kids : nat -> list nat.
Hypothesis T : tree_slots st kids.
Notation na := (n_alts st).
Notation n := (n_nodes st).
Variable par : nat -> R.
Variable av : nat -> bool.
Notation avx := (array_av_cascade st av).
Variable U : nat -> option R.
Variable cp : nat -> R.
Hypothesis Hcp0 : forall j, avx j = false -> cp j = 0.

(** the row of a nest once it is used by its parent *)
Definition finalize (j : nat) (row : nat -> R) : nat -> R :=
  if (na <=? j)%nat then
    match mu_slots st (j - na) with
    | Some s => upd row s ((row s + val (U j)) / par s)
    | None => row
    end
  else row.
Lemma addmu_fin D j : addmu st par U D j = upd D j (finalize j (D j)).
Proof.
  unfold addmu, finalize. destruct (na <=? j)%nat; [|rewrite upd_same; auto].
  destruct (mu_slots st (j - na)); auto. rewrite upd_same; auto.
Qed.
Definition is_mu (k p : nat) : R :=
  match mu_slots st (k - na) with Some s => if (p =? s)%nat then 1 else 0 | None => 0 end.
Lemma dutil_inner k cs : forall D, NoDup cs -> ~ In k cs ->
  let D' := fold_left (fun D j => dutil_step st par avx U cp D (k, j)) cs D in
  let F := fun j => if avx j then finalize j (D j) else D j in
  (forall i, i <> k -> In i cs -> D' i = F i) /\
  (forall i, i <> k -> ~ In i cs -> D' i = D i) /\
  (forall p, D' k p = D k p + Rsum (fun j => cp j * (F j p - is_mu k p * val (U j))) cs).
Proof.
  induction cs as [|c cs IH]; intros D Hnd Hk; cbv zeta; simpl.
  - repeat split; auto; [tauto|]. intros; lra.
  - inversion Hnd; subst. assert (Hck : c <> k) by (intros ->; apply Hk; left; auto).
    assert (Hk2 : ~ In k cs) by (intros H; apply Hk; right; auto).
    set (D1 := if avx c then _ else D).
    assert (Hother : forall i, i <> k -> i <> c -> D1 i = D i).
    { intros i Hi1 Hi2. unfold D1. destruct (avx c); auto. rewrite upd_neq by auto.
      destruct (mu_slots st (k - na)); rewrite ?upd_neq by auto; rewrite addmu_fin, upd_neq; auto. }
    assert (Hc : D1 c = if avx c then finalize c (D c) else D c).
    { unfold D1. destruct (avx c); auto. rewrite upd_neq by auto.
      destruct (mu_slots st (k - na)); rewrite ?upd_neq by auto; rewrite addmu_fin, upd_eq; auto. }
    assert (Hkk : forall p, D1 k p = D k p + cp c * ((if avx c then finalize c (D c) else D c) p - is_mu k p * val (U c))).
    { intros p. unfold D1, is_mu. destruct (avx c) eqn:Ea.
      - rewrite upd_eq. rewrite addmu_fin.
        destruct (mu_slots st (k - na)) as [s|].
        + rewrite upd_eq. rewrite (upd_neq (upd D c _) k _ c) by auto. rewrite !upd_eq.
          rewrite (upd_neq D c _ k) by auto. unfold upd at 1.
          destruct (p =? s)%nat eqn:Ep; [apply Nat.eqb_eq in Ep; subst|]; lra.
        + rewrite upd_eq. rewrite (upd_neq D c _ k) by auto. lra.
      - rewrite Hcp0 by auto. lra. }
    destruct (IH D1 H2 Hk2) as [I1 [I2 I3]]. cbv zeta in *.
    split; [|split].
    + intros i Hi [ ->|Hin].
      * rewrite I2 by auto. rewrite Hc. auto.
      * rewrite I1 by auto. rewrite Hother; auto. intros ->; auto.
    + intros i Hi Hni. rewrite I2 by tauto. apply Hother; auto. 
    + intros p. rewrite I3, Hkk.
      rewrite (Rsum_ext _ (fun j => cp j * ((if avx j then finalize j (D j) else D j) p - is_mu k p * val (U j)))).
      * lra.
      * intros j Hj. rewrite Hother; auto; intros ->; auto.
Qed.

Variable D0 : nat -> nat -> R.
Definition kstep (D : nat -> nat -> R) (k : nat) :=
  fold_left (fun D j => dutil_step st par avx U cp D (k, j)) (kids k) D.
Definition Dm (m : nat) := fold_left kstep (seq 0 m) D0.
Lemma Dm_S m : Dm (S m) = kstep (Dm m) m.
Proof. unfold Dm. rewrite seq_S, fold_left_app. auto. Qed.
Definition Raw (k : nat) : nat -> R := Dm (S k) k.
Definition Fin (j : nat) : nat -> R := if avx j then finalize j (Raw j) else Raw j.
Lemma flat_seq_S m : flat_map kids (seq 0 (S m)) = flat_map kids (seq 0 m) ++ kids m.
Proof. rewrite seq_S, flat_map_app. simpl. rewrite app_nil_r. auto. Qed.
Lemma Dm_inv m : (m <= n)%nat ->
  (forall k, (k < m)%nat -> In k (flat_map kids (seq 0 m)) -> Dm m k = Fin k) /\
  (forall k, (k < m)%nat -> ~ In k (flat_map kids (seq 0 m)) -> Dm m k = Raw k) /\
  (forall k, (m <= k)%nat -> Dm m k = D0 k) /\
  (forall k p, (k < m)%nat -> Raw k p = D0 k p + Rsum (fun j => cp j * (Fin j p - is_mu k p * val (U j))) (kids k)).
Proof.
  induction m as [|m IH]; intros Hm.
  - repeat split; intros; try lia. auto.
  - destruct IH as [I1 [I2 [I3 I4]]]; [lia|].
    assert (Hnd : NoDup (kids m)) by (apply (kids_nodup st kids T); lia).
    assert (Hnk : ~ In m (kids m)) by (intros H; apply (ts_less _ _ T) in H; lia).
    destruct (dutil_inner m (kids m) (Dm m) Hnd Hnk) as [J1 [J2 J3]]. cbv zeta in *.
    fold (kstep (Dm m) m) in J1, J2, J3. rewrite <- Dm_S in J1, J2, J3.
    assert (Hraw : forall j, In j (kids m) -> (j < m)%nat /\ Dm m j = Raw j).
    { intros j Hj. assert (Hlt := ts_less _ _ T m j Hj). split; auto. apply I2; auto.
      intros Hin. apply in_flat_map in Hin. destruct Hin as [k' [Hk' Hin]]. apply in_seq in Hk'.
      assert (m = k') by (eapply (parent_unique st kids T j); eauto; lia). lia. }
    rewrite flat_seq_S.
    split; [|split; [|split]].
    + intros k Hk Hin. apply in_app_iff in Hin. destruct (Nat.eq_dec k m) as [ ->|Hne].
      * exfalso. destruct Hin as [Hin|Hin]; [|auto]. apply in_flat_map in Hin.
        destruct Hin as [k' [Hk' Hin]]. apply in_seq in Hk'. apply (ts_less _ _ T) in Hin. lia.
      * destruct (in_dec Nat.eq_dec k (kids m)) as [Hkm|Hkm].
        -- rewrite J1 by auto. destruct (Hraw k Hkm) as [_ ->]. auto.
        -- destruct Hin as [Hin|Hin]; [|tauto]. rewrite J2 by auto. apply I1; auto. lia.
    + intros k Hk Hin. rewrite in_app_iff in Hin. destruct (Nat.eq_dec k m) as [ ->|Hne]; [reflexivity|].
      rewrite J2; [apply I2; [lia|]|auto|]; tauto.
    + intros k Hk. rewrite J2; [apply I3; lia|lia|]. intros H. apply (ts_less _ _ T) in H. lia.
    + intros k p Hk. destruct (Nat.eq_dec k m) as [ ->|Hne]; [|apply I4; lia].
      unfold Raw at 1. rewrite J3, (I3 m) by lia. f_equal. apply Rsum_ext. intros j Hj.
      destruct (Hraw j Hj) as [_ ->]. auto.
Qed.
Lemma D_loop : dutility_loop st par avx U cp D0 = Dm n.
Proof.
  unfold dutility_loop. rewrite (ts_edges _ _ T), fold_flat_map. unfold Dm.
  apply fold_ext_in. intros k D _. rewrite fold_map. auto.
Qed.
Lemma D_final j : (j < n)%nat ->
  ((j < n - 1)%nat -> dutility_loop st par avx U cp D0 j = Fin j) /\
  ((j = n - 1)%nat -> dutility_loop st par avx U cp D0 j = Raw j).
Proof.
  intros Hj. rewrite D_loop. destruct (Dm_inv n) as [I1 [I2 _]]; [lia|].
  split; intros H.
  - apply I1; auto. eapply Permutation_in; [symmetry; apply (ts_tree _ _ T)|]. apply in_seq. lia.
  - apply I2; auto. intros Hin. eapply Permutation_in in Hin; [|apply (ts_tree _ _ T)].
    apply in_seq in Hin. lia.
Qed.
Lemma Raw_spec k p : (k < n)%nat ->
  Raw k p = D0 k p + Rsum (fun j => cp j * (Fin j p - is_mu k p * val (U j))) (kids k).
Proof. intros Hk. destruct (Dm_inv n) as [_ [_ [_ H]]]; [lia|]. apply H. auto. Qed.

(** ----- derivative of probabilities ----- *)
Variable chx : nat -> R.
Variable P : nat -> R.
Variable D : nat -> nat -> R.
Notation DP := (dprob_loop st par chx U cp P D).
Lemma DP_spec :
  (forall p, DP (n - 1)%nat p = 0) /\
  (forall k j p, (k < n)%nat -> In j (kids k) -> mu_of st par k <> 0 ->
     DP j p = if Req_EM_T (chx j) 0 then 0
              else ((D j p - D k p + is_mu k p * ((val (U k) - val (U j)) / mu_of st par k))
                      * (P k / mu_of st par k) + DP k p) * cp j).
Proof.
  unfold dprob_loop.
  set (F := fun (Q : nat -> nat -> R) (e : nat * nat) =>
     if Req_EM_T (chx (snd e)) 0 then Q (snd e) else fun p =>
      let s1 :=
        if Req_EM_T (mu_of st par (fst e)) 0 then 0
        else (D (snd e) p - D (fst e) p +
              (match mu_slots st (fst e - na) with
               | Some s => if (p =? s)%nat then (val (U (fst e)) - val (U (snd e))) / mu_of st par (fst e) else 0
               | None => 0 end)) * (P (fst e) / mu_of st par (fst e)) in
      Q (snd e) p + (s1 + Q (fst e) p) * cp (snd e)).
  rewrite (fold_ext_in _ (fun Q e => upd Q (snd e) (F Q e))).
  2:{ intros [up dn] a _. unfold dprob_step, F. simpl.
      destruct (Req_EM_T (chx dn) 0); auto. rewrite upd_same; auto. }
  destruct (fold_down F (rev (edges st))) with (P0 := fun _ _ : nat => 0) as [I1 I2].
  { intros V V' e H1 H2. unfold F. rewrite H1, H2. auto. }
  { rewrite map_rev. apply NoDup_rev. apply (dn_nodup st kids T). }
  { apply (rev_order st kids T). }
  set (W := fold_left _ _ _) in *. split.
  - intros p. rewrite I1; auto. rewrite map_rev, <- in_rev. intros H.
    eapply Permutation_in in H; [|apply (dn_perm st kids T)]. apply in_seq in H. lia.
  - intros k j p Hk Hj Hmu. destruct (kid_range _ _ T k j Hk Hj) as [H1 H2].
    assert (HI := I2 (k, j)). simpl in HI. rewrite HI.
    2:{ rewrite <- in_rev. apply (in_edges_iff st kids T). auto. }
    unfold F at 1. simpl. rewrite upd_eq.
    destruct (Req_EM_T (chx j) 0); auto. rewrite upd_neq by lia.
    destruct (Req_EM_T (mu_of st par k) 0); [congruence|].
    unfold is_mu. destruct (mu_slots st (k - na)) as [s|]; [destruct (p =? s)%nat|]; lra.
Qed.
End Grad.

(** ----- gradient and bhhh accumulation ----- *)
Lemma dll_spec st ch P wt DP :
  (forall p, fst (dll_loop st ch P wt DP) p =
     wt * Rsum (fun a => if Req_EM_T (ch a) 0 then 0 else if Rlt_dec 0 (P a) then
        ch a * (DP a p / clamp (P a)) else 0) (seq 0 (n_alts st))) /\
  (forall p q, snd (dll_loop st ch P wt DP) p q =
     wt * Rsum (fun a => if Req_EM_T (ch a) 0 then 0 else if Rlt_dec 0 (P a) then
        ch a * ((DP a p / clamp (P a)) * (DP a q / clamp (P a))) else 0) (seq 0 (n_alts st))).
Proof.
  unfold dll_loop.
  assert (Hgen : forall l d b,
    (forall p, fst (fold_left (dll_step ch P wt DP) l (d, b)) p = d p +
      wt * Rsum (fun a => if Req_EM_T (ch a) 0 then 0 else if Rlt_dec 0 (P a) then
        ch a * (DP a p / clamp (P a)) else 0) l) /\
    (forall p q, snd (fold_left (dll_step ch P wt DP) l (d, b)) p q = b p q +
      wt * Rsum (fun a => if Req_EM_T (ch a) 0 then 0 else if Rlt_dec 0 (P a) then
        ch a * ((DP a p / clamp (P a)) * (DP a q / clamp (P a))) else 0) l)).
  { induction l as [|a l IH]; intros d b; simpl; [split; intros; lra|].
    destruct (Req_EM_T (ch a) 0) as [E|E].
    - destruct (IH d b) as [H1 H2]. split; intros; [rewrite H1|rewrite H2]; lra.
    - destruct (Rlt_dec 0 (P a)) as [Hp|Hp].
      + assert (Hc : clamp (P a) <> 0).
        { unfold clamp. destruct (Rlt_dec _ _); [|lra]. apply Rinv_neq_0_compat.
          apply pow_nonzero. lra. }
        destruct (IH (fun p => d p + DP a p * (ch a / clamp (P a)) * wt)
          (fun p q => b p q + DP a p * (ch a / clamp (P a)) / ch a * (DP a q * (ch a / clamp (P a)) / ch a) * ch a * wt)) as [H1 H2].
        split; intros; [rewrite H1|rewrite H2]; field; auto.
      + destruct (IH d b) as [H1 H2]. split; intros; [rewrite H1|rewrite H2]; lra. }
  destruct (Hgen (seq 0 (n_alts st)) (fun _ => 0) (fun _ _ => 0)) as [H1 H2].
  split; intros; [rewrite H1|rewrite H2]; lra.
Qed.
