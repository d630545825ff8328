(** Proofs about the derivatives computed by the Cython nested logit kernel. *)
From Coq Require Import Permutation FunctionalExtensionality.
From Verif Require Export NetProofs.
From Coquelicot Require Import Coquelicot.
From Verif Require Export LogitDeriv.
Open Scope list_scope. Open Scope R_scope.

Section Columns.
Variable w : net.
Variable kids : nat -> list (nat * R).
Hypothesis T : net_dag w kids.
Notation na := (w_alts w).
Notation n := (w_nodes w).
Variable mu : nat -> R.
Hypothesis Hmu : forall k, (na <= k < n)%nat -> 0 < mu k.
Variable u : nat -> option R.
Notation U := (net_utilities w mu u).
Variable slot : nat -> option nat.
Variable p : nat.
Notation cnd e := (ocexp (edge_cond mu U e)).

Definition isp (k : nat) : bool := match slot k with Some s => (s =? p)%nat | None => false end.
Definition act (k : nat) : bool := match U k with Some _ => true | None => false end.
Definition modp (k : nat) : bool := (Nat.leb na k && isp k)%bool.
Definition hfin (k : nat) (x : R) : R := (x + uval (U k)) / mu k.
Definition hh (k : nat) (x : R) : R := if (act k && modp k)%bool then hfin k x else x.
Definition adj (e : nat * nat * R) : R :=
  if Req_EM_T (e_al e) 1 then uval (U (e_dn e)) else uval (U (e_dn e)) + mu (e_dn e) * ln (e_al e).
Definition gg (e : nat * nat * R) (x : R) : R := cnd e * (x - (if isp (e_up e) then adj e else 0)).
Definition col (M : nat -> R) (e : nat * nat * R) : nat -> R :=
  let M1 := upd M (e_dn e) (hh (e_dn e) (M (e_dn e))) in upd M1 (e_up e) (M1 (e_up e) + gg e (M1 (e_dn e))).

Lemma act_edge e : In e (w_edges w) -> (act (e_dn e) = true <-> edge_cond mu U e <> None).
Proof.
  intros He. apply (in_edges w kids T) in He as [Hk Hj]. unfold act, edge_cond. split.
  - intros H. assert (Hf : U (e_up e) <> None).
    { apply (U_fin_parent w kids T mu Hmu u _ _ _ Hk Hj). destruct (U (e_dn e)); congruence. }
    destruct (U (e_up e)); [ | congruence ]. destruct (U (e_dn e)); congruence.
  - destruct (U (e_up e)); [ | congruence ]. destruct (U (e_dn e)); congruence.
Qed.
Lemma col_proj D e : In e (w_edges w) -> (fun k => net_dutil_edge w mu slot U D e k p) = col (fun k => D k p) e.
Proof.
  intros He. assert (Ha := act_edge e He). pose proof He as He'. apply (in_edges w kids T) in He' as [Hk Hj].
  assert (Hlt := kid_lt w kids T _ _ _ Hj). apply functional_extensionality. intros k.
  unfold net_dutil_edge, col, gg, hh. destruct (edge_cond mu U e) as [c|] eqn:Ec.
  - assert (Et : act (e_dn e) = true) by (apply Ha; discriminate). rewrite Et. cbn [andb ocexp]. unfold modp, isp, hfin.
    set (D1 := if Nat.leb na (e_dn e) then match slot (e_dn e) with Some s => upd2 D (e_dn e) s ((D (e_dn e) s + uval (U (e_dn e))) / mu (e_dn e)) | None => D end else D).
    set (M1 := upd (fun k0 => D k0 p) (e_dn e) _).
    assert (E1 : forall i, D1 i p = M1 i).
    { intros i. unfold D1, M1, upd. destruct (Nat.eqb_spec i (e_dn e)) as [ ->|Hne].
      - destruct (Nat.leb na (e_dn e)); cbn [andb]; auto. destruct (slot (e_dn e)) as [s|]; auto.
        unfold upd2, upd. rewrite Nat.eqb_refl, (Nat.eqb_sym p s). destruct (Nat.eqb_spec s p) as [ ->|]; auto.
      - destruct (Nat.leb na (e_dn e)); auto. destruct (slot (e_dn e)) as [s|]; auto.
        unfold upd2. rewrite upd_neq; auto. }
    unfold adj. set (ad := if Req_EM_T (e_al e) 1 then _ else _).
    destruct (slot (e_up e)) as [s|].
    + unfold upd at 1 2. destruct (Nat.eqb_spec k (e_up e)) as [ ->|Hne].
      * unfold upd2. rewrite upd_eq, (upd_neq D1) by lia. unfold upd. rewrite (Nat.eqb_sym p s).
        destruct (Nat.eqb_spec s p) as [ ->|]; rewrite !E1; ring.
      * unfold upd2. rewrite upd_neq by auto. apply E1.
    + unfold upd at 1 2. destruct (Nat.eqb_spec k (e_up e)) as [ ->|Hne]; [ rewrite !E1; ring | apply E1 ].
  - assert (Et : act (e_dn e) = false) by (apply not_true_iff_false; intros H; apply Ha in H; congruence).
    rewrite Et. cbn [andb ocexp]. rewrite (upd_id (fun k0 => D k0 p) (e_dn e)) by auto.
    rewrite upd_id; auto. ring.
Qed.
Lemma dutil_col L D : (forall e, In e L -> In e (w_edges w)) ->
  forall k, fold_left (net_dutil_edge w mu slot U) L D k p = fold_left col L (fun i => D i p) k.
Proof.
  revert D. induction L as [|e L IH]; intros D Hin k; cbn [fold_left]; auto.
  rewrite IH by (intros; apply Hin; now right). rewrite col_proj by (apply Hin; now left). auto.
Qed.

(** one block of edges *)
Lemma block k cs M : NoDup (map fst cs) -> ~ In k (map fst cs) ->
  let V := fold_left col (map (mk k) cs) M in
  V k = M k + Rsum (fun ja => gg (mk k ja) (hh (fst ja) (M (fst ja)))) cs /\
  (forall j, In j (map fst cs) -> V j = hh j (M j)) /\
  (forall i, i <> k -> ~ In i (map fst cs) -> V i = M i).
Proof.
  revert M. induction cs as [|ja cs IH]; intros M Hnd Hk; cbn [map fold_left]; cbn zeta.
  - cbn. split; [ lra | ]. split; auto. intros j [].
  - cbn [map] in Hnd, Hk. inversion Hnd as [|x l Hx Hl]; subst.
    assert (Hkj : fst ja <> k) by (intros E; apply Hk; left; auto).
    destruct (IH (col M (mk k ja)) Hl) as (I1 & I2 & I3); [ intros E; apply Hk; right; auto | ]. cbn zeta in I1, I2, I3.
    set (V := fold_left col (map (mk k) cs) (col M (mk k ja))) in *.
    assert (C1 : col M (mk k ja) k = M k + gg (mk k ja) (hh (fst ja) (M (fst ja)))).
    { unfold col, mk, e_dn, e_up. cbn [fst snd]. rewrite upd_eq, upd_eq, upd_neq by auto. auto. }
    assert (C2 : col M (mk k ja) (fst ja) = hh (fst ja) (M (fst ja))).
    { unfold col, mk, e_dn, e_up. cbn [fst snd]. rewrite upd_neq, upd_eq by auto. auto. }
    assert (C3 : forall i, i <> k -> i <> fst ja -> col M (mk k ja) i = M i).
    { intros i H1 H2. unfold col, mk, e_dn, e_up. cbn [fst snd]. rewrite !upd_neq by auto. auto. }
    repeat split.
    + rewrite I1, C1. cbn [Rsum fold_right]. fold (Rsum (fun ja0 => gg (mk k ja0) (hh (fst ja0) (M (fst ja0)))) cs).
      rewrite (Rsum_ext _ (fun ja0 => gg (mk k ja0) (hh (fst ja0) (M (fst ja0)))) cs); [ ring | ]. intros ja' Hj'. rewrite C3; auto.
      * intros E. apply Hk. right. rewrite <- E. now apply in_map.
      * intros E. apply Hx. rewrite <- E. now apply in_map.
    + intros j [ <-|Hj]; [ rewrite I3; auto | rewrite I2, C3; auto ].
      * intros E. apply Hk. right. now rewrite <- E.
      * intros ->. auto.
    + intros i H1 H2. rewrite I3, C3; auto; intros E; apply H2; [ now left | now right ].
Qed.
Variable D0 : nat -> R.
Definition state (m : nat) : nat -> R := fold_left col (flat_map (fun k => map (mk k) (kids k)) (seq 0 m)) D0.
Lemma state_S m : state (S m) = fold_left col (map (mk m) (kids m)) (state m).
Proof. unfold state. rewrite seq_S, flat_map_app, fold_left_app. cbn [flat_map]. now rewrite app_nil_r. Qed.
Definition raw (k : nat) : R := state (S k) k.
Definition fin (k : nat) : R := hh k (raw k).
Hypothesis Hone : forall j k k' al al', modp j = true -> In (j, al) (kids k) -> In (j, al') (kids k') -> k = k'.

Lemma nin_self k : ~ In k (map fst (kids k)).
Proof. intros H. apply in_map_iff in H as ([j al] & E & Hj). cbn in E. subst. apply (kid_lt w kids T) in Hj. lia. Qed.
Lemma in_kids j k : In j (map fst (kids k)) <-> exists al, In (j, al) (kids k).
Proof.
  rewrite in_map_iff. split; [ intros ([x al] & E & H); cbn in E; subst; eauto | intros [al H]; exists (j, al); auto ].
Qed.
Lemma state_inv m : (forall i, (m <= i)%nat -> state m i = D0 i) /\
  (forall i, (i < m)%nat -> (exists k, (k < m)%nat /\ In i (map fst (kids k))) -> state m i = fin i) /\
  (forall i, (i < m)%nat -> (forall k, (k < m)%nat -> ~ In i (map fst (kids k))) -> state m i = raw i).
Proof.
  induction m as [|m (I1 & I2 & I3)].
  - split; [ auto | ]. split; intros; lia.
  - destruct (block m (kids m) (state m) (nd_once _ _ T m) (nin_self m)) as (B1 & B2 & B3). rewrite <- state_S in B1, B2, B3.
    assert (Hkid : forall j, In j (map fst (kids m)) -> (j < m)%nat).
    { intros j Hj. apply in_kids in Hj as [al Hj]. now apply (kid_lt w kids T) in Hj. }
    assert (Hcol : forall j, In j (map fst (kids m)) -> state (S m) j = fin j).
    { intros j Hj. rewrite B2 by auto. unfold hh at 1.
      assert (Hor : {In j (flat_map (fun k => map fst (kids k)) (seq 0 m))} + {~ In j (flat_map (fun k => map fst (kids k)) (seq 0 m))}) by (apply in_dec, Nat.eq_dec).
      destruct Hor as [Hin|Hin].
      - apply in_flat_map in Hin as (k & Hk & Hin). apply in_seq in Hk.
        rewrite I2; [ | now apply Hkid | exists k; split; auto; lia ].
        destruct (act j && modp j)%bool eqn:Em; auto. exfalso. apply andb_true_iff in Em as [_ Em].
        apply in_kids in Hj as [al Hj]. apply in_kids in Hin as [al' Hin]. assert (k = m) by (apply (Hone j k m al' al); auto). lia.
      - rewrite I3; [ auto | now apply Hkid | ]. intros k Hk Hk'. apply Hin. apply in_flat_map. exists k. split; auto. apply in_seq; lia. }
    split; [ | split ].
    + intros i Hi. rewrite B3; [ apply I1; lia | lia | ]. intros Hin. apply Hkid in Hin. lia.
    + intros i Hi (k & Hk & Hin). destruct (in_dec Nat.eq_dec i (map fst (kids m))) as [Hm|Hm]; [ now apply Hcol | ].
      assert (k <> m) by (intros ->; auto). assert (i <> m). { intros ->. apply in_kids in Hin as [al Hin]. apply (kid_lt w kids T) in Hin. lia. }
      rewrite B3 by auto. apply I2; [ lia | ]. exists k. split; auto. lia.
    + intros i Hi Hno. destruct (Nat.eq_dec i m) as [ ->|Hne]; auto.
      rewrite B3 by (auto; apply Hno; lia). apply I3; [ lia | intros; apply Hno; lia ].
Qed.
Lemma raw_rec k : raw k = D0 k + Rsum (fun ja => gg (mk k ja) (fin (fst ja))) (kids k).
Proof.
  unfold raw. destruct (state_inv k) as (I1 & I2 & I3). destruct (state_inv (S k)) as (_ & J2 & _).
  destruct (block k (kids k) (state k) (nd_once _ _ T k) (nin_self k)) as (B1 & B2 & _). rewrite <- state_S in B1, B2.
  rewrite B1, I1 by lia. f_equal. apply Rsum_ext. intros [j al] Hj. cbn [fst]. f_equal.
  assert (Hin : In j (map fst (kids k))) by (apply in_kids; eauto). assert (Hlt := kid_lt w kids T _ _ _ Hj).
  rewrite <- B2 by auto. apply J2; [ lia | ]. exists k. split; auto.
Qed.
Hypothesis HD0 : forall k, (na <= k)%nat -> D0 k = 0.
Hypothesis Hroot : isp (n - 1) = false.
Hypothesis Hex : forall j, (na <= j < n - 1)%nat -> isp j = true -> exists k al, (k < n)%nat /\ In (j, al) (kids k).
Lemma state_final k : (k < n)%nat -> state n k = fin k.
Proof.
  intros Hk. destruct (state_inv n) as (_ & I2 & I3).
  destruct (in_dec Nat.eq_dec k (flat_map (fun k => map fst (kids k)) (seq 0 n))) as [Hin|Hin].
  - apply in_flat_map in Hin as (k' & Hk' & Hin). apply in_seq in Hk'. apply I2; auto. exists k'. split; auto. lia.
  - rewrite I3; auto; [ | intros k' Hk' H; apply Hin; apply in_flat_map; exists k'; split; auto; apply in_seq; lia ].
    unfold fin, hh. destruct (act k && modp k)%bool eqn:Em; auto. exfalso. apply andb_true_iff in Em as [_ Em].
    unfold modp in Em. apply andb_true_iff in Em as [E1 E2]. apply Nat.leb_le in E1.
    assert (k <> n - 1)%nat by (intros ->; congruence). destruct (Hex k) as (k' & al & Hk' & H'); auto; [ lia | ].
    apply Hin. apply in_flat_map. exists k'. split; [ apply in_seq; lia | ]. apply in_kids. eauto.
Qed.

(** ---------- derivatives of the probabilities ---------- *)
Variable D : nat -> nat -> R.
Notation P := (net_probabilities w mu U).
Definition sc (e : nat * nat * R) : R :=
  (D (e_dn e) p - D (e_up e) p + (if isp (e_up e) then (uval (U (e_up e)) - uval (U (e_dn e))) / mu (e_up e) - (if Req_EM_T (e_al e) 1 then 0 else ln (e_al e) / mu (e_up e)) else 0))
  * (P (e_up e) / mu (e_up e)).
Definition qcol (M : nat -> R) (e : nat * nat * R) : nat -> R := upd M (e_dn e) (M (e_dn e) + (sc e + M (e_up e)) * cnd e).
Lemma scratch_sc e : U (e_up e) <> None -> U (e_dn e) <> None -> scratch mu slot U P D e p = Some (sc e).
Proof.
  intros H1 H2. unfold scratch, sc, isp. destruct (slot (e_up e)) as [s|]; [ | f_equal; ring ].
  destruct (s =? p)%nat; [ | f_equal; ring ]. destruct (U (e_up e)); [ | congruence ]. destruct (U (e_dn e)); [ | congruence ].
  cbn [uval]. f_equal. ring.
Qed.
Lemma dprob_col L Q M : (forall e, In e L -> In e (w_edges w)) -> (forall c, act c = true -> Q c p = Some (M c)) ->
  forall c, act c = true -> fold_left (net_dprob_edge mu slot U P D) L Q c p = Some (fold_left qcol L M c).
Proof.
  revert Q M. induction L as [|e L IH]; intros Q M Hin HQ c Hc; cbn [fold_left]; [ now apply HQ | ].
  apply IH; auto; [ intros; apply Hin; now right | ]. clear c Hc. intros c Hc. assert (He := Hin e (or_introl eq_refl)).
  unfold net_dprob_edge, qcol, upd. destruct (Nat.eqb_spec c (e_dn e)) as [ ->|]; auto.
  pose proof He as He'. apply (in_edges w kids T) in He' as [Hk Hj].
  assert (Hd : U (e_dn e) <> None) by (unfold act in Hc; destruct (U (e_dn e)); congruence).
  assert (Hu : U (e_up e) <> None) by (apply (U_fin_parent w kids T mu Hmu u _ _ _ Hk Hj Hd)).
  assert (Hau : act (e_up e) = true) by (unfold act; destruct (U (e_up e)); congruence).
  rewrite scratch_sc, (HQ _ Hc), (HQ _ Hau) by auto. auto.
Qed.
Definition qfin : nat -> R := fold_left qcol (rev (w_edges w)) (fun _ => 0).
Lemma Q_fin c : act c = true -> net_dprobability w mu slot U P D c p = Some (qfin c).
Proof. intros Hc. apply dprob_col; auto. intros e He. now apply in_rev. Qed.
Lemma q_rec c : qfin c = over_parents w kids c (fun k ja => (sc (mk k ja) + qfin k) * cnd (mk k ja)).
Proof.
  pose proof (fold_acc e_dn e_up (fun e x => (sc e + x) * cnd e) (rev (w_edges w)) (rev_order_net w kids T) (fun _ => 0)) as H.
  cbn beta zeta in H. change (fold_left (fun M e => upd M (e_dn e) (M (e_dn e) + (sc e + M (e_up e)) * cnd e)) (rev (w_edges w)) (fun _ => 0)) with qfin in H.
  rewrite H, Rplus_0_l.
  rewrite (Rsum_perm _ (rev (w_edges w)) (w_edges w)) by (symmetry; apply Permutation_rev).
  rewrite (sum_edges w kids T). unfold over_parents. apply Rsum_ext. intros k _. apply Rsum_ext. intros ja _. auto.
Qed.
End Columns.
