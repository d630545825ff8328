(** Theorems about the Cython nested and cross-nested logit kernel (C63). *)
From Coq Require Import FunctionalExtensionality.
From Verif Require Export NetDeriv LogitRun.
From Coquelicot Require Import Coquelicot.
Open Scope list_scope. Open Scope R_scope.

Section Props.
Variable w : net.
Variable kids : nat -> list (nat * R).
Variable mu : nat -> R.
Variable slot : nat -> option nat.
Variable u : nat -> option R.
Variable du : nat -> nat -> R.
Variable width : nat.
Variable ch : nat -> R.
Variable wt : R.
Notation na := (w_alts w).
Notation n := (w_nodes w).
Notation out := (net_run w mu slot u du width ch wt).

(** The utility of a nest is the logsum of its available children, each weighted by its allocation; a
    nest has one iff an available alternative lies below it. *)
Theorem C63_logsum : net_dag w kids -> (forall k, (na <= k < n)%nat -> 0 < mu k) ->
  (forall a, (a < na)%nat -> v_util out a = u a) /\
  forall k, (na <= k < n)%nat ->
    (v_util out k <> None <-> exists a, (a < na)%nat /\ net_under kids k a /\ u a <> None) /\
    (v_util out k <> None -> v_util out k = Some (mu k * ln (Rsum (fun ja =>
       match v_util out (fst ja) with Some x => exp ((ln (snd ja) + x) / mu k) | None => 0 end) (kids k)))).
Proof.
  intros T M. cbn [net_run v_util]. split; [ intros; now apply (U_alt_net w kids T) | ]. intros k Hk.
  split; [ apply (U_fin_under w kids T mu M u k); lia | ]. intros Hf.
  now destruct (U_val w kids T mu M u k Hk Hf) as [_ E].
Qed.
(** The root has probability 1; every other node gets from each parent that parent's probability times
    its share in the parent; so the probabilities of the alternatives add up to 1, unavailable ones
    have 0, available ones that can be reached have more than 0. *)
Theorem C63_probabilities : net_dag w kids -> (forall k, (na <= k < n)%nat -> 0 < mu k) ->
  (exists a, (a < na)%nat /\ net_under kids (n - 1) a /\ u a <> None) ->
  v_prob out (n - 1)%nat = 1 /\
  (forall c, (c < n - 1)%nat -> v_prob out c = over_parents w kids c (fun k ja =>
     match v_util out k with Some _ => v_prob out k * share (mu k) (v_util out) (kids k) ja | None => 0 end)) /\
  Rsum (v_prob out) (seq 0 na) = 1 /\
  (forall a, (a < na)%nat -> 0 <= v_prob out a <= 1 /\ (u a = None -> v_prob out a = 0) /\
     (u a <> None -> net_under kids (n - 1) a -> 0 < v_prob out a)).
Proof.
  intros T M Hex. assert (Hr := nd_root _ _ T). cbn [net_run v_util v_prob].
  assert (Hf : net_utilities w mu u (n - 1) <> None) by (apply (U_fin_under w kids T mu M u); [ lia | exact Hex ]).
  assert (Hs := net_P_sum w kids T mu M u Hf).
  assert (Hnn : forall c, (c < n)%nat -> 0 <= net_probabilities w mu (net_utilities w mu u) c) by (apply (net_P_nonneg w kids T mu u)).
  split; [ apply (net_P_root w kids T mu u) | ]. split; [ | split; [ exact Hs | ] ].
  - intros c Hc. rewrite (net_P_node w kids T mu u c Hc). unfold over_parents. apply Rsum_ext. intros k Hk. apply in_seq in Hk.
    apply Rsum_ext. intros ja Hj. destruct (fst ja =? c)%nat; auto.
    destruct (net_utilities w mu u k) eqn:Ek.
    + rewrite (cnd_share w kids T mu M u k ja); [ ring | lia | auto | congruence ].
    + rewrite (cnd_none w mu u k ja Ek). ring.
  - intros a Ha. repeat split.
    + apply Hnn. lia.
    + rewrite <- Hs. apply (Rsum_ge_one (net_probabilities w mu (net_utilities w mu u))); [ | apply in_seq; lia ]. intros x Hx. apply in_seq in Hx. apply Hnn. lia.
    + intros E. apply (net_P_none w kids T mu u); [ lia | ]. now rewrite (U_alt_net w kids T mu M u).
    + intros E Hu. apply (net_P_pos w kids T mu M u); auto; [ lia | ]. now rewrite (U_alt_net w kids T mu M u).
Qed.
(** Nothing available: every probability below the root is 0 and a choice has log likelihood minus
    infinity. *)
Theorem C63_none_available : net_dag w kids -> (forall k, (na <= k < n)%nat -> 0 < mu k) ->
  (forall a, (a < na)%nat -> u a = None) ->
  (forall c, (c < n - 1)%nat -> v_prob out c = 0) /\
  forall i, (i < width)%nat -> (i < n - 1)%nat -> ch i <> 0 -> v_ll out = None.
Proof.
  intros T M Hno. cbn [net_run v_prob v_ll].
  assert (Hz : forall c, (c < n - 1)%nat -> net_probabilities w mu (net_utilities w mu u) c = 0).
  { intros c Hc. apply (net_P_none w kids T mu u); auto. destruct (net_utilities w mu u c) eqn:E; auto. exfalso.
    assert (Hf : net_utilities w mu u c <> None) by congruence. apply (U_fin_under w kids T mu M u) in Hf; [ | lia ].
    destruct Hf as (a & Ha & _ & Hu). apply Hu. now apply Hno. }
  split; auto. intros i Hi Hi' Hc. unfold net_loglike.
  assert (G : forall l acc, In i l \/ acc = None -> fold_left (fun ll i => if Req_EM_T (ch i) 0 then ll else match ll with
       | Some x => if Rlt_dec 0 (net_probabilities w mu (net_utilities w mu u) i) then Some (x + ln (net_probabilities w mu (net_utilities w mu u) i) * ch i) else None
       | None => None end) l acc = None).
  { induction l as [|j l IH]; intros acc H; cbn [fold_left]; [ destruct H as [[]|]; auto | ]. apply IH.
    destruct H as [[ ->|H]| ->]; [ | now left | right; now destruct (Req_EM_T (ch j) 0) ].
    right. destruct (Req_EM_T (ch i) 0); [ contradiction | ]. destruct acc as [x|]; auto.
    destruct (Rlt_dec 0 _) as [Hp|]; auto. rewrite Hz in Hp by auto. lra. }
  rewrite G; auto. left. apply in_seq. lia.
Qed.
(** The log likelihood of a case whose chosen nodes are possible. *)
Theorem C63_loglike : net_dag w kids -> (forall k, (na <= k < n)%nat -> 0 < mu k) -> (width <= n)%nat ->
  (forall i, (i < width)%nat -> ch i <> 0 -> v_util out i <> None /\ net_under kids (n - 1) i) ->
  v_ll out = Some (wt * Rsum (fun i => ch i * ln (v_prob out i)) (seq 0 width)).
Proof.
  intros T M Hw Hc. cbn [net_run v_ll v_prob]. apply loglike_sum. intros i Hi Hci. destruct (Hc i Hi Hci) as [H1 H2].
  apply (net_P_pos w kids T mu M u); auto. lia.
Qed.
(** A node with no utility under a nest whose logsum parameter is free: its reported derivative of the
    probability is NaN. *)
Theorem C63_unavailable_dprob_nan_refuted k j al p : net_dag w kids -> (forall k, (na <= k < n)%nat -> 0 < mu k) ->
  (k < n)%nat -> In (j, al) (kids k) -> slot k = Some p -> v_util out j = None -> v_dprob out j p = None.
Proof.
  intros T M Hk Hj Hs E. cbn [net_run v_dprob v_util] in *. unfold net_dprobability.
  set (U := net_utilities w mu u) in *. set (P := net_probabilities w mu U). set (D := net_dutility w mu slot U du).
  assert (Hin : In (mk k (j, al)) (rev (w_edges w))). { apply -> in_rev. apply (in_edges w kids T). split; auto. }
  assert (G : forall L Q, In (mk k (j, al)) L \/ Q j p = None -> fold_left (net_dprob_edge mu slot U P D) L Q j p = None).
  { induction L as [|e L IH]; intros Q H; cbn [fold_left]; [ destruct H as [[]|]; auto | ]. apply IH.
    destruct H as [[ ->|H]|H]; [ | now left | ]; right; unfold net_dprob_edge, upd.
    - cbn [mk e_dn e_up fst snd]. rewrite Nat.eqb_refl. unfold scratch, mk, e_up, e_dn. cbn [fst snd]. rewrite Hs, Nat.eqb_refl, E.
      destruct (U k); cbn [oadd]; now destruct (Q j p).
    - destruct (Nat.eqb_spec j (e_dn e)) as [ <-|]; auto. rewrite H. auto. }
  apply G. now left.
Qed.
End Props.

(** ---------- derivatives ---------- *)
(** What the gradient theorems need, besides the graph: near the current parameters the availability
    does not change and [du] are the derivatives of the utilities of the alternatives; every logsum
    parameter is positive; the logsum parameter in slot [p] is not the root's; below a nest that uses
    it, it is not used again, neither by a nest nor by an available alternative; such a nest has exactly one
    parent; and its children with an allocation below one have logsum parameter 1. *)
Record grad_ok (w : net) (kids : nat -> list (nat * R)) (slot : nat -> option nat) (fixed : nat -> R)
    (uf : (nat -> R) -> nat -> option R) (par : nat -> R) (du : nat -> nat -> R) (p : nat) : Prop := {
  go_av : forall t a, (a < w_alts w)%nat -> (uf (upd par p t) a = None <-> uf par a = None);
  go_du : forall a, (a < w_alts w)%nat -> uf par a <> None ->
    is_derive (fun t => uval (uf (upd par p t) a)) (par p) (du a p);
  go_mu : forall k, (w_alts w <= k < w_nodes w)%nat -> 0 < net_mu slot fixed par k;
  go_root : slot (w_nodes w - 1)%nat <> Some p;
  go_sep : forall k j, (w_alts w <= k < w_nodes w)%nat -> slot k = Some p -> net_under kids k j -> j <> k ->
    ((w_alts w <= j)%nat -> slot j <> Some p) /\ ((j < w_alts w)%nat -> uf par j <> None -> du j p = 0);
  go_one : forall j k k' al al', (w_alts w <= j)%nat -> slot j = Some p ->
    In (j, al) (kids k) -> In (j, al') (kids k') -> k = k';
  go_ex : forall j, (w_alts w <= j < w_nodes w - 1)%nat -> slot j = Some p -> exists k al, (k < w_nodes w)%nat /\ In (j, al) (kids k);
  go_alpha : forall k j al, slot k = Some p -> In (j, al) (kids k) -> al <> 1 -> net_mu slot fixed par j = 1 }.

Section GradProps.
Variable w : net.
Variable kids : nat -> list (nat * R).
Variable slot : nat -> option nat.
Variable fixed : nat -> R.
Variable uf : (nat -> R) -> nat -> option R.
Variable par : nat -> R.
Variable du : nat -> nat -> R.
Variable p : nat.
Variable width : nat.
Variable ch : nat -> R.
Variable wt : R.
Notation n := (w_nodes w).
(** The kernel's results at parameters [q]. *)
Notation run q := (net_run w (net_mu slot fixed q) slot (uf q) du width ch wt).

(** The gradient reported for parameter [p] is the derivative of the log likelihood. *)
Theorem C63_gradient_partial : net_dag w kids -> grad_ok w kids slot fixed uf par du p -> (width <= n)%nat ->
  (forall i, (i < width)%nat -> ch i <> 0 -> v_util (run par) i <> None /\ net_under kids (n - 1) i) ->
  exists g, v_dll (run par) p = Some g /\ is_derive (fun t => uval (v_ll (run (upd par p t)))) (par p) g.
Proof.
  intros T [] Hw Hc.
  destruct (dLL_net w kids T slot fixed uf par du p go_av0 go_du0 go_mu0 go_root0 go_sep0 go_one0 go_ex0 go_alpha0 width ch wt Hw) as (g & E & Hd).
  { intros i Hi Hci. unfold NU. rewrite npart_id. now apply Hc. }
  exists g. split; [ | exact Hd ]. rewrite <- E. cbn [net_run v_dll]. unfold NQ, NP, ND, NU. now rewrite npart_id.
Qed.
(** So are the reported derivatives of the logsums and of the probabilities of available nodes. *)
Theorem C63_dutility_dprobability_partial : net_dag w kids -> grad_ok w kids slot fixed uf par du p ->
  forall c, (c < n)%nat -> v_util (run par) c <> None ->
  is_derive (fun t => uval (v_util (run (upd par p t)) c)) (par p) (v_dutil (run par) c p) /\
  exists q, v_dprob (run par) c p = Some q /\ is_derive (fun t => v_prob (run (upd par p t)) c) (par p) q.
Proof.
  intros T [] c Hc Hf.
  assert (Ha : act w (net_mu slot fixed (upd par p (par p))) (uf (upd par p (par p))) c = true).
  { unfold act. rewrite npart_id. cbn [net_run v_util] in Hf. destruct (net_utilities w _ (uf par) c); congruence. }
  split.
  - assert (H := dU_net w kids T slot fixed uf par du p go_av0 go_du0 go_mu0 go_root0 go_sep0 go_one0 go_ex0 go_alpha0 c Hc Ha).
    unfold ND, NU in H. rewrite npart_id in H. exact H.
  - assert (H := dP_net w kids T slot fixed uf par du p go_av0 go_du0 go_mu0 go_root0 go_sep0 go_one0 go_ex0 go_alpha0 c Hc Ha).
    eexists. split; [ | exact H ].
    rewrite <- (NQ_val w kids T slot fixed uf par du p go_mu0 c Ha). cbn [net_run v_dprob]. unfold NQ, NP, ND, NU. now rewrite npart_id.
Qed.
End GradProps.

(** ---------- translation ---------- *)
Definition oshift (c : R) (x : option R) : option R := match x with Some v => Some (v + c) | None => None end.
Lemma term_shift m U U' c cs : m <> 0 -> (forall ja, In ja cs -> U' (fst ja) = oshift c (U (fst ja))) ->
  nest_sum m U' cs = exp (c / m) * nest_sum m U cs.
Proof.
  intros Hm H. unfold nest_sum. rewrite <- Rsum_scal. apply Rsum_ext. intros ja Hj. unfold term. rewrite H by auto.
  destruct (U (fst ja)) as [x|]; cbn [oshift]; [ | ring ]. rewrite <- exp_plus. f_equal. field. auto.
Qed.
Lemma net_U_shift w kids mu u u' c : net_dag w kids -> (forall k, (w_alts w <= k < w_nodes w)%nat -> 0 < mu k) ->
  (forall a, (a < w_alts w)%nat -> u' a = oshift c (u a)) ->
  forall k, (k < w_nodes w)%nat -> net_utilities w mu u' k = oshift c (net_utilities w mu u k).
Proof.
  intros T M Hu. induction k as [k IH] using lt_wf_ind. intros Hk. destruct (Nat.lt_ge_cases k (w_alts w)) as [Hlt|Hge].
  - rewrite !(U_alt_net w kids T mu M) by auto. now apply Hu.
  - assert (Hm := M k (conj Hge Hk)).
    assert (H1 := proj2 (net_U_spec w kids T mu M u) k (conj Hge Hk)).
    assert (H2 := proj2 (net_U_spec w kids T mu M u') k (conj Hge Hk)).
    set (U := net_utilities w mu u) in *. set (U' := net_utilities w mu u') in *.
    unfold is_logsum in H1, H2. rewrite (term_shift (mu k) U U' c (kids k)) in H2; [ | lra | ].
    2:{ intros [j al] Hj. apply (kid_lt w kids T) in Hj. cbn. apply IH; lia. }
    assert (He := exp_pos (c / mu k)). assert (Hn := nest_sum_nonneg (mu k) U (kids k)).
    destruct (Rlt_dec 0 (nest_sum (mu k) U (kids k))) as [Hp|Hp].
    + destruct (Rlt_dec 0 _) as [_|Hq]; [ | exfalso; apply Hq; apply Rmult_lt_0_compat; auto ].
      rewrite H1, H2. cbn [oshift]. f_equal. rewrite ln_mult, ln_exp by auto. field. lra.
    + destruct (Rlt_dec 0 _) as [Hq|_]; [ | now rewrite H1, H2 ]. exfalso. apply Hp. destruct Hn as [Hn|Hn]; auto. rewrite <- Hn in Hq. lra.
Qed.
(** Adding a constant to every utility (as the guard against overflow does, dataframes.pyx 2456-2462) moves
    the logsums by that constant and changes no probability and no log likelihood. *)
Theorem C63_translation w kids mu slot u u' du du' width ch wt c : net_dag w kids ->
  (forall k, (w_alts w <= k < w_nodes w)%nat -> 0 < mu k) ->
  (forall a, (a < w_alts w)%nat -> u' a = oshift c (u a)) ->
  let out := net_run w mu slot u du width ch wt in
  let out' := net_run w mu slot u' du' width ch wt in
  (forall k, (k < w_nodes w)%nat -> v_util out' k = oshift c (v_util out k) /\ v_prob out' k = v_prob out k) /\
  v_ll out' = v_ll out.
Proof.
  intros T M Hu. cbn zeta. cbn [net_run v_util v_prob v_ll].
  assert (HU := net_U_shift w kids mu u u' c T M Hu). set (U := net_utilities w mu u) in *.
  set (U' := net_utilities w mu u') in *.
  assert (He : forall e, In e (w_edges w) -> edge_cond mu U' e = edge_cond mu U e).
  { intros e He. apply (in_edges w kids T) in He as [Hk Hj]. assert (Hlt := kid_lt w kids T _ _ _ Hj).
    unfold edge_cond. rewrite !HU by lia. destruct (U (e_up e)) as [a|]; cbn [oshift]; auto. destruct (U (e_dn e)) as [b|]; cbn [oshift]; auto.
    do 2 f_equal. f_equal. ring. }
  assert (HP : net_probabilities w mu U' = net_probabilities w mu U).
  { unfold net_probabilities. assert (G : forall L M0, (forall e, In e L -> In e (w_edges w)) -> fold_left (tot_step mu U') L M0 = fold_left (tot_step mu U) L M0).
    { induction L as [|e L IH]; intros M0 Hin; auto. cbn [fold_left]. rewrite IH by (intros; apply Hin; now right). f_equal.
      unfold tot_step. now rewrite He by (apply Hin; now left). }
    apply G. intros e Hin. now apply in_rev. }
  rewrite HP. auto.
Qed.
Lemma grad_mu_near w kids slot fixed uf par du p : grad_ok w kids slot fixed uf par du p ->
  locally (par p) (fun t => forall k, (w_alts w <= k < w_nodes w)%nat -> 0 < net_mu slot fixed (upd par p t) k).
Proof.
  intros G.
  assert (Hmu : forall k, (w_alts w <= k < w_nodes w)%nat -> locally (par p) (fun t => 0 < net_mu slot fixed (upd par p t) k)).
  { intros k Hk. assert (H := go_mu _ _ _ _ _ _ _ _ G k Hk). unfold net_mu in *. destruct (slot k) as [s|]; [ | now apply filter_forall ].
    unfold upd. destruct (Nat.eqb_spec s p) as [ ->|]; [ | now apply filter_forall ]. exact (open_gt 0 (par p) H). }
  assert (GG : forall m, locally (par p) (fun t => forall k, (w_alts w <= k < w_nodes w)%nat -> (k < m)%nat -> 0 < net_mu slot fixed (upd par p t) k)).
    { induction m as [|m IH]; [ apply filter_forall; intros; lia | ]. destruct (le_lt_dec (w_nodes w) m) as [L|L].
      - eapply filter_imp; [ | exact IH ]. intros t H k Hk _. apply H; auto. lia.
      - destruct (le_lt_dec (w_alts w) m) as [L2|L2].
        + eapply filter_imp; [ | exact (filter_and _ _ IH (Hmu m (conj L2 L))) ]. intros t [H1 H2] k Hk Hm.
          destruct (Nat.eq_dec k m) as [ ->|]; auto. apply H1; auto. lia.
        + eapply filter_imp; [ | exact IH ]. intros t H k Hk Hm. apply H; auto. lia. }
  eapply filter_imp; [ | exact (GG (w_nodes w)) ]. intros t H k Hk. apply H; auto. lia.
Qed.
(** Where the gradient is the derivative, it is not changed by that constant either. *)
Theorem C63_translation_gradient_partial w kids slot fixed uf par du p width ch wt c u' : net_dag w kids ->
  grad_ok w kids slot fixed uf par du p -> (width <= w_nodes w)%nat ->
  (forall i, (i < width)%nat -> ch i <> 0 ->
     v_util (net_run w (net_mu slot fixed par) slot (uf par) du width ch wt) i <> None /\ net_under kids (w_nodes w - 1) i) ->
  (forall a, (a < w_alts w)%nat -> u' a = oshift c (uf par a)) ->
  v_dll (net_run w (net_mu slot fixed par) slot u' du width ch wt) p =
  v_dll (net_run w (net_mu slot fixed par) slot (uf par) du width ch wt) p.
Proof.
  intros T G Hw Hc Hu.
  set (uf' := fun (q : nat -> R) a => if Nat.ltb a (w_alts w) then oshift c (uf q a) else u' a).
  assert (Hs : forall q a, (a < w_alts w)%nat -> uf' q a = oshift c (uf q a)).
  { intros q a Ha. unfold uf'. now rewrite (proj2 (Nat.ltb_lt _ _) Ha). }
  assert (Eu : u' = uf' par).
  { apply functional_extensionality. intros a. unfold uf'. destruct (Nat.ltb_spec a (w_alts w)); auto. }
  assert (G' : grad_ok w kids slot fixed uf' par du p).
  { destruct G. constructor; auto.
    - intros t a Ha. rewrite !Hs by auto. specialize (go_av0 t a Ha). destruct (uf (upd par p t) a), (uf par a); cbn; split; intros E; try discriminate; auto;
        destruct go_av0 as [G1 G2]; [ discriminate (G2 E) | discriminate (G1 E) ].
    - intros a Ha Hf. rewrite Hs in Hf by auto. assert (Hf' : uf par a <> None) by (destruct (uf par a); cbn in Hf; congruence).
      eapply (is_derive_ext (fun t => uval (uf (upd par p t) a) + c)).
      + intros t. rewrite Hs by auto. assert (Ht := go_av0 t a Ha). destruct (uf (upd par p t) a); cbn; auto. exfalso. apply Hf'. now apply Ht.
      + assert (H := go_du0 a Ha Hf'). replace (du a p) with (du a p + 0) by ring. apply @is_derive_plus; [ exact H | apply @is_derive_const ].
    - intros k j Hk Es Hun Hne. destruct (go_sep0 k j Hk Es Hun Hne) as [S1 S2]. split; auto. intros Hj Hf. apply S2; auto.
      rewrite Hs in Hf by auto. destruct (uf par j); cbn in Hf; congruence. }
  destruct (C63_gradient_partial w kids slot fixed uf par du p width ch wt T G Hw Hc) as (g & E & Hd).
  assert (Htr := C63_translation w kids (net_mu slot fixed par) slot (uf par) (uf' par) du du width ch wt c T (go_mu _ _ _ _ _ _ _ _ G) (fun a Ha => Hs par a Ha)).
  cbv zeta in Htr. destruct Htr as [HU _].
  assert (Hc' : forall i, (i < width)%nat -> ch i <> 0 ->
     v_util (net_run w (net_mu slot fixed par) slot (uf' par) du width ch wt) i <> None /\ net_under kids (w_nodes w - 1) i).
  { intros i Hi Hci. destruct (Hc i Hi Hci) as [H1 H2]. split; auto. rewrite (proj1 (HU i ltac:(lia))).
    destruct (v_util (net_run w (net_mu slot fixed par) slot (uf par) du width ch wt) i); cbn; congruence. }
  destruct (C63_gradient_partial w kids slot fixed uf' par du p width ch wt T G' Hw Hc') as (g' & E' & Hd').
  rewrite Eu, E, E'. f_equal.
  assert (Hall := grad_mu_near w kids slot fixed uf par du p G).
  assert (Hd2 : is_derive (fun t => uval (v_ll (net_run w (net_mu slot fixed (upd par p t)) slot (uf (upd par p t)) du width ch wt))) (par p) g').
  { eapply is_derive_ext_loc; [ | exact Hd' ]. eapply filter_imp; [ | exact Hall ]. intros t Ht. cbv beta. f_equal.
    apply (C63_translation w kids (net_mu slot fixed (upd par p t)) slot (uf (upd par p t)) (uf' (upd par p t)) du du width ch wt c T Ht (fun a Ha => Hs _ a Ha)). }
  apply is_derive_unique in Hd. apply is_derive_unique in Hd2. congruence.
Qed.
