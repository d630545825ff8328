(** The derivatives computed by the Cython nested logit kernel are the derivatives. *)
From Verif Require Export NetGrad.
From Coquelicot Require Import Coquelicot.
Open Scope list_scope. Open Scope R_scope.

Section Sums.
Variable width : nat.
Variable ch : nat -> R.
Variable wt : R.
Variable p : nat.
Lemma loglike_sum P : (forall i, (i < width)%nat -> ch i <> 0 -> 0 < P i) ->
  net_loglike width P ch wt = Some (wt * Rsum (fun i => ch i * ln (P i)) (seq 0 width)).
Proof.
  intros H. unfold net_loglike.
  assert (G : forall l x, (forall i, In i l -> (i < width)%nat) ->
    fold_left (fun ll i => if Req_EM_T (ch i) 0 then ll else match ll with
       | Some x => if Rlt_dec 0 (P i) then Some (x + ln (P i) * ch i) else None | None => None end) l (Some x) =
    Some (x + Rsum (fun i => ch i * ln (P i)) l)).
  { induction l as [|i l IHl]; intros x Hl; cbn [fold_left]; [ cbn; f_equal; ring | ]. cbn [Rsum fold_right]. fold (Rsum (fun i => ch i * ln (P i)) l).
    destruct (Req_EM_T (ch i) 0) as [E|E].
    - rewrite IHl by (intros; apply Hl; now right). f_equal. rewrite E. ring.
    - destruct (Rlt_dec 0 (P i)) as [_|Hn]; [ | exfalso; apply Hn; apply H; auto; apply Hl; now left ].
      rewrite IHl by (intros; apply Hl; now right). f_equal. ring. }
  rewrite G by (intros i Hi; apply in_seq in Hi; lia). f_equal. ring.
Qed.
Lemma dll_sum P Q q : (forall i, (i < width)%nat -> ch i <> 0 -> 0 < P i /\ Q i p = Some (q i)) ->
  net_dloglike width P ch wt Q p = Some (wt * Rsum (fun i => if Req_EM_T (ch i) 0 then 0 else ch i * (q i * / P i)) (seq 0 width)).
Proof.
  intros H. unfold net_dloglike. destruct (Req_EM_T wt 0) as [ ->|_]; [ f_equal; ring | ].
  assert (G : forall l x, (forall i, In i l -> (i < width)%nat) ->
    fold_left (fun g a => if Req_EM_T (ch a) 0 then g else if Rlt_dec 0 (P a) then
       oadd g match Q a p with Some x => Some (x * (ch a / P a) * wt) | None => None end else g) l (Some x) =
    Some (x + wt * Rsum (fun i => if Req_EM_T (ch i) 0 then 0 else ch i * (q i * / P i)) l)).
  { induction l as [|i l IHl]; intros x Hl; cbn [fold_left]; [ cbn; f_equal; ring | ].
    cbn [Rsum fold_right]. fold (Rsum (fun i => if Req_EM_T (ch i) 0 then 0 else ch i * (q i * / P i)) l).
    destruct (Req_EM_T (ch i) 0) as [E|E].
    - rewrite IHl by (intros; apply Hl; now right). f_equal. ring.
    - destruct (H i (Hl i (or_introl eq_refl)) E) as [H1 H2]. destruct (Rlt_dec 0 (P i)); [ | contradiction ]. rewrite H2. cbn [oadd].
      rewrite IHl by (intros; apply Hl; now right). f_equal. field. lra. }
  rewrite G by (intros i Hi; apply in_seq in Hi; lia). f_equal. ring.
Qed.
End Sums.
Section NetDeriv.
Variable w : net.
Variable kids : nat -> list (nat * R).
Hypothesis T : net_dag w kids.
Notation na := (w_alts w).
Notation n := (w_nodes w).
Variable slot : nat -> option nat.
Variable fixed : nat -> R.
Variable uf : (nat -> R) -> nat -> option R.
Variable par : nat -> R.
Variable du : nat -> nat -> R.
Variable p : nat.
Notation part t := (upd par p t).
Notation mut t := (net_mu slot fixed (part t)).
Hypothesis Hav : forall t a, (a < na)%nat -> (uf (part t) a = None <-> uf par a = None).
Hypothesis Hdu : forall a, (a < na)%nat -> uf par a <> None ->
  is_derive (fun t => uval (uf (part t) a)) (par p) (du a p).
Hypothesis Hmu : forall k, (na <= k < n)%nat -> 0 < net_mu slot fixed par k.
Hypothesis Hroot : slot (n - 1)%nat <> Some p.
Hypothesis Hsep : forall k j, (na <= k < n)%nat -> slot k = Some p -> net_under kids k j -> j <> k ->
  ((na <= j)%nat -> slot j <> Some p) /\ ((j < na)%nat -> uf par j <> None -> du j p = 0).
Hypothesis Hone : forall j k k' al al', (na <= j)%nat -> slot j = Some p ->
  In (j, al) (kids k) -> In (j, al') (kids k') -> k = k'.
Hypothesis Hex : forall j, (na <= j < n - 1)%nat -> slot j = Some p -> exists k al, (k < n)%nat /\ In (j, al) (kids k).
Hypothesis Halpha : forall k j al, slot k = Some p -> In (j, al) (kids k) -> al <> 1 -> net_mu slot fixed par j = 1.

Lemma npart_id : part (par p) = par.
Proof. apply part_id. Qed.
Lemma nmu_part t k : mut t k = match slot k with None => fixed k | Some s => if (s =? p)%nat then t else par s end.
Proof. unfold net_mu, upd. destruct (slot k); auto. Qed.
Notation nr := (near par p).
Lemma nnear_mu t : nr t -> forall k, (na <= k < n)%nat -> 0 < mut t k.
Proof.
  intros Hn k Hk. rewrite nmu_part. assert (H := Hmu k Hk). unfold net_mu in H. destruct (slot k) as [s|]; auto.
  destruct (Nat.eqb_spec s p) as [ ->|]; auto. unfold near, delta in Hn. destruct (Rlt_dec 0 (par p)); [ | lra ].
  apply Rabs_def2 in Hn. lra.
Qed.
Definition NU (t : R) := net_utilities w (mut t) (uf (part t)).
Definition NP (t : R) := net_probabilities w (mut t) (NU t).
Notation U := (NU (par p)).
Notation mu0 := (mut (par p)).
Lemma nself : nr (par p). Proof. apply near_self. Qed.
Lemma mu0_pos k : (na <= k < n)%nat -> 0 < mu0 k. Proof. apply nnear_mu, nself. Qed.
Lemma NU_none t k : nr t -> (k < n)%nat -> (NU t k = None <-> U k = None).
Proof.
  intros Hn Hk. assert (G : NU t k <> None <-> U k <> None).
  { unfold NU. rewrite (U_fin_under w kids T (mut t) (nnear_mu t Hn) (uf (part t)) k Hk).
    rewrite (U_fin_under w kids T mu0 mu0_pos (uf (part (par p))) k Hk).
    assert (E : forall a, (a < na)%nat -> (uf (part t) a <> None <-> uf (part (par p)) a <> None)).
    { intros a Ha. rewrite (Hav t a Ha), (Hav (par p) a Ha). tauto. }
    split; intros (a & Ha & Hu & Hf); exists a; repeat split; auto; apply E; auto. }
  destruct (NU t k), (NU (par p) k); split; intros; try congruence; exfalso; (apply (proj1 G); congruence) || (apply (proj2 G); congruence).
Qed.
Notation at0 k := (act w mu0 (uf (part (par p))) k).
Lemma at_iff t k : nr t -> (k < n)%nat -> (NU t k <> None <-> at0 k = true).
Proof.
  intros Hn Hk. assert (H := NU_none t k Hn Hk). unfold act. fold (NU (par p)).
  destruct (NU t k) as [x|], (NU (par p) k) as [y|]; split; try congruence; intros _; exfalso;
    [ assert (X : Some x = None) by (now apply H) | assert (X : Some y = None) by (now apply H) ]; discriminate.
Qed.
Notation isp0 := (isp slot p).
Definition mup (k : nat) : R := if isp0 k then 1 else 0.
Lemma nd_mu k : is_derive (fun t => mut t k) (par p) (mup k).
Proof.
  apply (is_derive_ext (fun t => match slot k with None => fixed k | Some s => if (s =? p)%nat then t else par s end)).
  - intros t. now rewrite nmu_part.
  - unfold mup, isp. destruct (slot k) as [s|]; [ | apply @is_derive_const ].
    destruct (s =? p)%nat; [ apply @is_derive_id | apply @is_derive_const ].
Qed.
Lemma isp_slot k : isp0 k = true <-> slot k = Some p.
Proof. unfold isp. destruct (slot k) as [s|]; [ rewrite Nat.eqb_eq; split; congruence | split; congruence ]. Qed.
Lemma isp_not k : slot k <> Some p -> isp0 k = false.
Proof. intros H. apply not_true_iff_false. now rewrite isp_slot. Qed.

(** the utility of an available nest, as a function of the parameter *)
Definition nterm (t : R) (k : nat) (ja : nat * R) : R :=
  if at0 (fst ja) then exp ((ln (snd ja) + uval (NU t (fst ja))) / mut t k) else 0.
Lemma nterm_ok t k : nr t -> (k < n)%nat -> Rsum (nterm t k) (kids k) = nest_sum (mut t k) (NU t) (kids k).
Proof.
  intros Hn Hk. apply Rsum_ext. intros [j al] Hj. unfold nterm, term. cbn [fst snd].
  assert (Hlt := kid_lt w kids T _ _ _ Hj). assert (H := at_iff t j Hn ltac:(lia)).
  destruct (NU t j) as [x|]; destruct (at0 j); auto; exfalso; destruct H as [H1 H2].
  - assert (false = true) by (apply H1; discriminate). discriminate.
  - apply H2; auto.
Qed.
Lemma NU_val t k : nr t -> (na <= k < n)%nat -> at0 k = true ->
  uval (NU t k) = mut t k * ln (Rsum (nterm t k) (kids k)) /\ 0 < Rsum (nterm t k) (kids k).
Proof.
  intros Hn Hk Ha. assert (Hf : NU t k <> None) by (apply at_iff; auto; lia).
  destruct (U_val w kids T (mut t) (nnear_mu t Hn) (uf (part t)) k Hk Hf) as [Hp E]. fold (NU t) in *.
  rewrite nterm_ok by (auto; lia). rewrite E. split; auto.
Qed.

(** the column of the derivatives *)
Notation D0 := (fun k => if (k <? na)%nat then du k p else 0).
Notation fin0 := (fin w kids mu0 (uf (part (par p))) slot p D0).
Notation raw0 := (raw w kids mu0 (uf (part (par p))) slot p D0).
Definition ND : nat -> nat -> R := net_dutility w mu0 slot U du.
Lemma Hone' j k k' al al' : modp w slot p j = true -> In (j, al) (kids k) -> In (j, al') (kids k') -> k = k'.
Proof. unfold modp. rewrite andb_true_iff, Nat.leb_le, isp_slot. intros [H1 H2]. now apply Hone. Qed.
Lemma ND_fin k : (k < n)%nat -> ND k p = fin0 k.
Proof.
  intros Hk. unfold ND, net_dutility.
  rewrite (dutil_col w kids T mu0 mu0_pos (uf (part (par p))) slot p) by auto.
  rewrite <- (state_final w kids T mu0 (uf (part (par p))) slot p D0); auto.
  - unfold state. rewrite (nd_edges _ _ T). auto.
  - apply Hone'.
  - now apply isp_not.
  - intros j Hj Hs. apply isp_slot in Hs. auto.
Qed.
Lemma raw0_rec k : raw0 k = D0 k + Rsum (fun ja => gg w mu0 (uf (part (par p))) slot p (mk k ja) (fin0 (fst ja))) (kids k).
Proof. apply (raw_rec w kids T). apply Hone'. Qed.
Lemma fin_zero_net j : (j < n)%nat -> ((na <= j)%nat -> slot j <> Some p) ->
  (forall i, net_under kids j i -> i <> j -> ((na <= i)%nat -> slot i <> Some p) /\ ((i < na)%nat -> uf par i <> None -> du i p = 0)) ->
  ((j < na)%nat -> uf par j <> None -> du j p = 0) -> at0 j = true -> fin0 j = 0.
Proof.
  induction j as [j IH] using lt_wf_ind. intros Hj H1 H2 H3 Ha.
  assert (Hm : modp w slot p j = false).
  { unfold modp. destruct (Nat.leb_spec na j); auto. cbn [andb]. apply isp_not. auto. }
  unfold fin, hh. rewrite Hm, andb_false_r. rewrite raw0_rec. destruct (Nat.ltb_spec j na) as [Hlt|Hge].
  - rewrite (nd_leaf _ _ T) by auto. cbn. rewrite H3; auto; [ lra | ].
    apply (at_iff (par p)) in Ha; [ | apply nself | lia ]. unfold NU in Ha. rewrite (U_alt_net w kids T _ mu0_pos) in Ha by auto.
    now rewrite npart_id in Ha.
  - rewrite Rsum_zero; [ lra | ]. intros [i al] Hi. assert (Hlt := kid_lt w kids T _ _ _ Hi). unfold gg. cbn [fst].
    change (e_up (mk j (i, al))) with j. rewrite (isp_not j) by auto.
    destruct (at0 i) eqn:Eai.
    + rewrite (IH i); auto; try lia.
      * rewrite Rminus_0_r. ring.
      * intros Hge'. apply (H2 i); auto; [ eapply nu_step; [ eauto | constructor ] | lia ].
      * intros i' Hi' Hne. apply H2; [ eapply nu_step; eauto | ].
        assert (Hle : forall a b, net_under kids a b -> (b <= a)%nat).
        { induction 1 as [|a b c d Hb _ IHb]; auto. apply (kid_lt w kids T) in Hb. lia. }
        apply Hle in Hi'. lia.
      * intros Hl' Hu'. apply (H2 i); auto; [ eapply nu_step; [ eauto | constructor ] | lia ].
    + assert (E : U i = None). { unfold act in Eai. fold (NU (par p)) in Eai. destruct (NU (par p) i); congruence. }
      pose proof (cnd_child_none w mu0 (uf (part (par p))) j (i, al) E) as Hc. unfold NU. rewrite Hc. ring.
Qed.
Lemma fin_zero_kid_net k j al : (na <= k < n)%nat -> slot k = Some p -> In (j, al) (kids k) -> at0 j = true -> fin0 j = 0.
Proof.
  intros Hk Hs Hj Ha. assert (Hlt := kid_lt w kids T _ _ _ Hj).
  assert (Hu : net_under kids k j) by (eapply nu_step; [ eauto | constructor ]).
  assert (Hle : forall a b, net_under kids a b -> (b <= a)%nat).
  { induction 1 as [|a b c d Hb _ IHb]; auto. apply (kid_lt w kids T) in Hb. lia. }
  apply fin_zero_net; auto; try lia.
  - apply (Hsep k j); auto. lia.
  - intros i Hi Hne. apply (Hsep k i); auto; [ eapply nu_step; eauto | apply Hle in Hi; lia ].
  - apply (Hsep k j); auto. lia.
Qed.
Notation cnd0 e := (ocexp (edge_cond mu0 U e)).
Lemma cnd0_share k ja : (k < n)%nat -> In ja (kids k) -> at0 k = true -> cnd0 (mk k ja) = nterm (par p) k ja / Rsum (nterm (par p) k) (kids k).
Proof.
  intros Hk Hj Ha. unfold NU at 1. rewrite (cnd_share w kids T mu0 mu0_pos (uf (part (par p)))); auto.
  - unfold share. fold (NU (par p)). rewrite nterm_ok by (auto; apply nself). f_equal.
    unfold nterm, term, act. fold (NU (par p)). destruct (NU (par p) (fst ja)); auto.
  - apply (at_iff (par p)) in Ha; auto. apply nself.
Qed.
Lemma dU_net k : (k < n)%nat -> at0 k = true -> is_derive (fun t => uval (NU t k)) (par p) (ND k p).
Proof.
  induction k as [k IH] using lt_wf_ind. intros Hk Ha. rewrite ND_fin by auto.
  destruct (Nat.lt_ge_cases k na) as [Hlt|Hge].
  - assert (Hf : uf par k <> None).
    { apply (at_iff (par p)) in Ha; [ | apply nself | lia ]. unfold NU in Ha. rewrite (U_alt_net w kids T _ mu0_pos) in Ha by auto.
      now rewrite npart_id in Ha. }
    eapply is_derive_ext_loc.
    { apply (filter_imp nr); [ | apply near_locally ]. intros t Ht. symmetry.
      transitivity (uval (uf (part t) k)); [ | reflexivity ]. unfold NU. now rewrite (U_alt_net w kids T _ (nnear_mu t Ht)) by auto. }
    replace (fin0 k) with (du k p); [ now apply Hdu | ].
    unfold fin, hh, modp. destruct (Nat.leb_spec na k); [ lia | ]. cbn [andb]. rewrite andb_false_r, raw0_rec.
    rewrite (nd_leaf _ _ T) by auto. cbn [Rsum fold_right]. apply Nat.ltb_lt in Hlt. rewrite Hlt. lra.
  - assert (Hk' : (na <= k < n)%nat) by lia. set (m0 := mu0 k). assert (Hm0 : 0 < m0) by now apply mu0_pos.
    destruct (NU_val (par p) k nself Hk' Ha) as [HUk HS0]. fold m0 in HUk. set (S0 := Rsum (nterm (par p) k) (kids k)) in *.
    set (m' := mup k).
    assert (Hd : is_derive (fun t => mut t k * ln (Rsum (nterm t k) (kids k))) (par p)
      (m' * ln S0 + m0 * (Rsum (fun ja => nterm (par p) k ja * ((ND (fst ja) p * m0 - (ln (snd ja) + uval (U (fst ja))) * m') / m0 ^ 2)) (kids k) * / S0))).
    { apply (d_mult (fun t => mut t k) (fun t => ln (Rsum (nterm t k) (kids k)))); [ apply nd_mu | ].
      apply (d_ln (fun t => Rsum (nterm t k) (kids k))); [ exact HS0 | ].
      apply (is_derive_Rsum (fun ja t => nterm t k ja)). intros [j al] Hj. assert (Hjk := kid_lt w kids T _ _ _ Hj). unfold nterm. cbn [fst snd].
      destruct (at0 j) eqn:Eaj; [ | rewrite Rmult_0_l; apply d_const ].
      apply (d_exp (fun t => (ln al + uval (NU t j)) / mut t k)).
      apply (d_div (fun t => ln al + uval (NU t j)) (fun t => mut t k)); [ | apply nd_mu | fold m0; lra ].
      eapply d_eq; [ apply @is_derive_plus; [ apply (d_const (ln al)) | apply IH; auto; lia ] | ]. unfold plus; cbn. ring. }
    eapply is_derive_ext_loc.
    { apply (filter_imp nr); [ | apply near_locally ]. intros t Ht. symmetry.
      transitivity (mut t k * ln (Rsum (nterm t k) (kids k))); [ apply (NU_val t k Ht Hk' Ha) | reflexivity ]. }
    eapply d_eq; [ exact Hd | ]. clear Hd.
    transitivity (m' * ln S0 + Rsum (fun ja => cnd0 (mk k ja) * (ND (fst ja) p - m' * (ln (snd ja) + uval (U (fst ja))) / m0)) (kids k)).
    { f_equal. rewrite (Rsum_ext (fun ja => cnd0 (mk k ja) * _) (fun ja => (m0 * / S0) * (nterm (par p) k ja * ((ND (fst ja) p * m0 - (ln (snd ja) + uval (U (fst ja))) * m') / m0 ^ 2)))).
      - rewrite Rsum_scal. ring.
      - intros ja Hj. rewrite cnd0_share by auto. fold S0. field. lra. }
    assert (Hraw : raw0 k = Rsum (fun ja => cnd0 (mk k ja) * (ND (fst ja) p - (if isp0 k then adj w mu0 (uf (part (par p))) (mk k ja) else 0))) (kids k)).
    { rewrite raw0_rec. destruct (Nat.ltb_spec k na); [ lia | ]. rewrite Rplus_0_l. apply Rsum_ext. intros [j al] Hj.
      assert (Hjk := kid_lt w kids T _ _ _ Hj). unfold gg. change (e_up (mk k (j, al))) with k. cbn [fst]. rewrite ND_fin by lia. auto. }
    unfold fin, hh, modp. rewrite Ha. destruct (Nat.leb_spec na k); [ | lia ]. cbn [andb]. unfold m', mup in *.
    destruct (isp0 k) eqn:Ei.
    + unfold hfin. fold (NU (par p)). fold m0. rewrite HUk, Hraw. apply isp_slot in Ei.
      rewrite (Rsum_ext _ (fun ja => (- / m0) * (cnd0 (mk k ja) * (ln (snd ja) + uval (U (fst ja)))))).
      2:{ intros [j al] Hj. cbn [fst snd]. assert (Hjk := kid_lt w kids T _ _ _ Hj). destruct (at0 j) eqn:Eaj.
          - rewrite ND_fin, (fin_zero_kid_net k j al) by (auto; lia). field. lra.
          - assert (E : U j = None). { unfold act in Eaj. fold (NU (par p)) in Eaj. destruct (NU (par p) j); congruence. }
            pose proof (cnd_child_none w mu0 (uf (part (par p))) k (j, al) E) as Hc. fold (NU (par p)) in Hc. rewrite Hc. ring. }
      rewrite (Rsum_ext (fun ja => cnd0 (mk k ja) * (ND (fst ja) p - adj w mu0 (uf (part (par p))) (mk k ja))) (fun ja => (- 1) * (cnd0 (mk k ja) * (ln (snd ja) + uval (U (fst ja)))))).
      2:{ intros [j al] Hj. cbn [fst snd]. assert (Hjk := kid_lt w kids T _ _ _ Hj). destruct (at0 j) eqn:Eaj.
          - rewrite ND_fin, (fin_zero_kid_net k j al) by (auto; lia). unfold adj, mk, e_al, e_dn. cbn [fst snd]. fold (NU (par p)).
            destruct (Req_EM_T al 1) as [ ->|Hal]; [ rewrite ln_1; ring | ].
            assert (E : mu0 j = 1) by (rewrite npart_id; apply (Halpha k j al); auto). rewrite E. ring.
          - assert (E : U j = None). { unfold act in Eaj. fold (NU (par p)) in Eaj. destruct (NU (par p) j); congruence. }
            pose proof (cnd_child_none w mu0 (uf (part (par p))) k (j, al) E) as Hc. fold (NU (par p)) in Hc. rewrite Hc. ring. }
      rewrite !Rsum_scal. field. lra.
    + rewrite Hraw, Rmult_0_l, Rplus_0_l. apply Rsum_ext. intros ja _. unfold Rdiv. ring.
Qed.

(** ---------- probabilities ---------- *)
Definition NQ : nat -> nat -> option R := net_dprobability w mu0 slot U (NP (par p)) ND.
Notation q0 := (qfin w mu0 (uf (part (par p))) slot p ND).
Lemma cnd_t t k j al : nr t -> (k < n)%nat -> In (j, al) (kids k) -> at0 j = true ->
  ocexp (edge_cond (mut t) (NU t) (mk k (j, al))) = exp ((uval (NU t j) - uval (NU t k) + ln al) / mut t k).
Proof.
  intros Hn Hk Hj Ha. assert (Hlt := kid_lt w kids T _ _ _ Hj). assert (Hge := kid_nest w kids T _ _ _ Hj).
  assert (Huj : NU t j <> None) by (apply at_iff; auto; lia).
  assert (Huk : NU t k <> None) by (apply (U_fin_parent w kids T (mut t) (nnear_mu t Hn) (uf (part t)) k j al); auto).
  unfold edge_cond, mk, e_up, e_dn, e_al. cbn [fst snd]. destruct (NU t k) as [a|]; [ | congruence ]. destruct (NU t j) as [b|]; [ | congruence ].
  cbn [uval ocexp]. f_equal. assert (Hm := nnear_mu t Hn k (conj Hge Hk)).
  destruct (Req_EM_T al 1) as [ ->|]; [ rewrite ln_1; field; lra | field; lra ].
Qed.
Lemma dP_net c : (c < n)%nat -> at0 c = true -> is_derive (fun t => NP t c) (par p) (q0 c).
Proof.
  remember (n - 1 - c)%nat as d eqn:Hd. revert c Hd. induction d as [d IH] using lt_wf_ind. intros c Hd Hc Ha.
  pose proof (q_rec w kids T mu0 (uf (part (par p))) slot p ND c) as Hq. fold (NU (par p)) in Hq.
  destruct (Nat.eq_dec c (n - 1)) as [E|Hne].
  - rewrite Hq. eapply is_derive_ext_loc.
    { apply (filter_imp nr); [ | apply near_locally ]. intros t Ht. symmetry. transitivity 1; [ | reflexivity ].
      rewrite E. apply (net_P_root w kids T (mut t) (uf (part t))). }
    replace (over_parents w kids c _) with 0; [ apply (d_const 1) | ]. symmetry. unfold over_parents. apply Rsum_zero. intros k Hk.
    apply in_seq in Hk. apply Rsum_zero. intros [j al] Hj. cbn [fst]. apply (kid_lt w kids T) in Hj. destruct (Nat.eqb_spec j c); auto. lia.
  - rewrite Hq. eapply is_derive_ext_loc.
    { apply (filter_imp nr); [ | apply near_locally ]. intros t Ht. symmetry.
      transitivity (over_parents w kids c (fun k ja => ocexp (edge_cond (mut t) (NU t) (mk k ja)) * NP t k)); [ | reflexivity ].
      apply (net_P_node w kids T (mut t) (uf (part t))). lia. }
    unfold over_parents. apply (is_derive_Rsum (fun k t => Rsum (fun ja => if (fst ja =? c)%nat then ocexp (edge_cond (mut t) (NU t) (mk k ja)) * NP t k else 0) (kids k))).
    intros k Hk. apply in_seq in Hk. apply (is_derive_Rsum (fun ja t => if (fst ja =? c)%nat then ocexp (edge_cond (mut t) (NU t) (mk k ja)) * NP t k else 0)).
    intros [j al] Hj. cbn [fst]. destruct (Nat.eqb_spec j c) as [ ->|]; [ | apply d_const ].
    assert (Hlt := kid_lt w kids T _ _ _ Hj). assert (Hge := kid_nest w kids T _ _ _ Hj).
    assert (Hak : at0 k = true).
    { apply (at_iff (par p)); [ apply nself | lia | ]. apply (U_fin_parent w kids T mu0 mu0_pos (uf (part (par p))) k c al); auto; [ lia | ].
      apply (at_iff (par p)) in Ha; auto. apply nself. }
    assert (Hm0 := mu0_pos k ltac:(lia)).
    eapply is_derive_ext_loc.
    { apply (filter_imp nr); [ | apply near_locally ]. intros t Ht. symmetry.
      transitivity (exp ((uval (NU t c) - uval (NU t k) + ln al) / mut t k) * NP t k); [ | reflexivity ].
      rewrite (cnd_t t k c al); auto. lia. }
    eapply d_eq.
    { apply (d_mult (fun t => exp ((uval (NU t c) - uval (NU t k) + ln al) / mut t k)) (fun t => NP t k)).
      - apply (d_exp (fun t => (uval (NU t c) - uval (NU t k) + ln al) / mut t k)).
        apply (d_div (fun t => uval (NU t c) - uval (NU t k) + ln al) (fun t => mut t k)); [ | apply nd_mu | lra ].
        apply @is_derive_plus; [ | apply (d_const (ln al)) ].
        apply (d_minus (fun t => uval (NU t c)) (fun t => uval (NU t k))); apply dU_net; auto; lia.
      - apply (IH (n - 1 - k)%nat); auto; lia. }
    rewrite <- (cnd_t (par p) k c al nself ltac:(lia) Hj Ha). unfold sc, mk, e_up, e_dn, e_al. cbn [fst snd].
    fold (NU (par p)). fold (NP (par p)). unfold plus; cbn [AbelianGroup.plus]. unfold mup.
    destruct (isp0 k); destruct (Req_EM_T al 1) as [ ->|]; rewrite ?ln_1; cbn; field; lra.
Qed.
Lemma NQ_val c : at0 c = true -> NQ c p = Some (q0 c).
Proof. intros Ha. unfold NQ. apply (Q_fin w kids T mu0 mu0_pos); auto. Qed.

(** ---------- log likelihood ---------- *)
Variable width : nat.
Variable ch : nat -> R.
Variable wt : R.
Hypothesis Hwidth : (width <= n)%nat.
Hypothesis Hch : forall i, (i < width)%nat -> ch i <> 0 -> NU (par p) i <> None /\ net_under kids (n - 1) i.
Lemma ch_pos t i : nr t -> (i < width)%nat -> ch i <> 0 -> 0 < NP t i.
Proof.
  intros Hn Hi Hc. destruct (Hch i Hi Hc) as [H1 H2]. apply (net_P_pos w kids T (mut t) (nnear_mu t Hn) (uf (part t)) i); auto; [ lia | ].
  apply at_iff; auto; [ lia | ]. apply (at_iff (par p)) in H1; auto; [ apply nself | lia ].
Qed.
Theorem dLL_net : exists g, net_dloglike width (NP (par p)) ch wt NQ p = Some g /\
  is_derive (fun t => uval (net_loglike width (NP t) ch wt)) (par p) g.
Proof.
  rewrite (dll_sum width ch wt p (NP (par p)) NQ q0).
  2:{ intros i Hi Hc. split; [ apply ch_pos; auto; apply nself | ]. apply NQ_val.
      destruct (Hch i Hi Hc) as [H1 _]. apply (at_iff (par p)) in H1; auto; [ apply nself | lia ]. }
  eexists. split; [ reflexivity | ]. eapply is_derive_ext_loc.
  { apply (filter_imp nr); [ | apply near_locally ]. intros t Ht. symmetry.
    transitivity (wt * Rsum (fun i => ch i * ln (NP t i)) (seq 0 width)); [ | reflexivity ].
    rewrite loglike_sum; auto. intros i Hi Hc. now apply ch_pos. }
  eapply d_eq.
  { apply (d_mult (fun _ => wt) (fun t => Rsum (fun i => ch i * ln (NP t i)) (seq 0 width))); [ apply d_const | ].
    apply (is_derive_Rsum (fun i t => ch i * ln (NP t i)) (fun i => if Req_EM_T (ch i) 0 then 0 else ch i * (q0 i * / NP (par p) i))).
    intros i Hi. apply in_seq in Hi. destruct (Req_EM_T (ch i) 0) as [E|E].
    - apply (is_derive_ext (fun _ => 0)); [ | apply d_const ]. intros t. rewrite E. symmetry. apply Rmult_0_l.
    - eapply d_eq.
      { apply (d_mult (fun _ => ch i) (fun t => ln (NP t i))); [ apply d_const | ].
        apply (d_ln (fun t => NP t i)); [ apply ch_pos; auto; [ apply nself | lia ] | ]. apply dP_net; [ lia | ].
        destruct (Hch i ltac:(lia) E) as [H1 _]. apply (at_iff (par p)) in H1; auto; [ apply nself | lia ]. }
      ring. }
  ring.
Qed.
End NetDeriv.
