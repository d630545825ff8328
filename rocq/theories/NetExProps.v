(** C63, continued: the arrays of every nesting graph; agreement of the two engines; concrete networks. *)
From Coq Require Import Permutation ZArith FunctionalExtensionality.
From Verif Require Import TreeModel TreeSpec TreeProofs TreeLogitProps.
From Verif Require Export NetProps NetBridge.
From Verif Require LogitProps.
From Coquelicot Require Import Coquelicot.
Open Scope list_scope. Open Scope R_scope.

(** The arrays the Cython engine builds from a rooted acyclic nesting graph meet the requirements of the
    theorems; the children and allocations are those of the graph: each parent of a node gets one over
    the number of its parents, so the allocations of every node with a parent add up to one. *)
Theorem C63_arrays_from_graph : forall g std,
  gwf g -> acyclic g -> NoDup (gsugg g) -> incl (gsugg g) (gnodes g) ->
  standard_sort g = Some std -> rooted g -> (exists v, link g (groot g) v) ->
  exists kids, net_dag (graph_net g std) kids /\
    (forall k c, nth_error std k = Some c -> forall j al, In (j, al) (kids k) <->
       exists d, link g c d /\ nth_error std j = Some d /\ al = / INR (length (preds g d))) /\
    (forall j d u, nth_error std j = Some d -> link g u d ->
       over_parents (graph_net g std) kids j (fun _ ja => snd ja) = 1).
Proof.
  intros g std W A S1 S2 Hs Hr Hc. exists (gkids g std). split; [ | split ].
  - apply graph_dag; auto.
  - intros k c. apply gkids_in; auto.
  - intros j d u. apply alloc_sum; auto.
Qed.

Lemma loglike_none width P ch wt i : (i < width)%nat -> ch i <> 0 -> P i = 0 -> net_loglike width P ch wt = None.
Proof.
  intros Hi Hc Hp. unfold net_loglike.
  assert (G : forall l acc, In i l \/ acc = None -> fold_left (fun ll i => if Req_EM_T (ch i) 0 then ll else match ll with
       | Some x => if Rlt_dec 0 (P i) then Some (x + ln (P i) * ch i) else None | None => None end) l acc = None).
  { induction l as [|j l IH]; intros acc H; cbn [fold_left]; [ destruct H as [[]|]; auto | ]. apply IH.
    destruct H as [[ ->|H]| ->]; [ | now left | right; now destruct (Req_EM_T (ch j) 0) ].
    right. destruct (Req_EM_T (ch i) 0); [ contradiction | ]. destruct acc as [x|]; auto.
    destruct (Rlt_dec 0 _) as [Hq|]; auto. rewrite Hp in Hq. lra. }
  rewrite G; auto. left. apply in_seq. lia.
Qed.

(** On a nesting tree the two engines compute the same logsums, probabilities and log likelihoods. *)
Theorem C63_engines_agree : forall g std mus par u du av ch wt lp0 P0 slot du',
  gwf g -> acyclic g -> NoDup (gsugg g) -> incl (gsugg g) (gnodes g) ->
  standard_sort g = Some std -> rooted g -> (exists v, link g (groot g) v) -> single_parent g ->
  let st := model_slots g std mus in
  mu_positive st par -> av_matches st u av ->
  let numba := run_case st par u du av ch wt lp0 P0 in
  (forall k, (n_alts st <= k)%nat -> slot k = mus k) ->
  let cython := net_run (graph_net g std) (net_mu slot (fun _ => 1) par) slot u du' (n_alts st) ch wt in
  (forall k, (k < n_nodes st)%nat -> v_util cython k = r_utility numba k /\ v_prob cython k = r_prob numba k) /\
  v_ll cython = r_loglike numba.
Proof.
  intros g std mus par u du av ch wt lp0 P0 slot du' W A S1 S2 Hs Hr Hc Hsp st Hm Ha numba Hsl cython.
  destruct (ms_sizes g std mus) as [Ma Mn]. fold st in Ma, Mn.
  assert (T := bridge_tree g std mus W A S1 S2 Hs Hr Hc Hsp). fold st in T.
  assert (Hroot := ts_root _ _ T).
  assert (Emu : forall k, (length (elementals g) <= k)%nat -> net_mu slot (fun _ => 1) par k = mu_of st par k).
  { intros k Hk. rewrite <- Ma in Hk. unfold net_mu, mu_of. rewrite Hsl by auto.
    assert (Es : mu_slots st (k - n_alts st) = mus k); [ | now rewrite Es; destruct (mus k) ].
    unfold st, model_slots in *. destruct (node_slot_arrays g std) as [[n0 s0] nu]. cbn [mu_slots n_alts] in *. f_equal. lia. }
  assert (HU : forall k, (k < n_nodes st)%nat -> v_util cython k = r_utility numba k).
  { intros k Hk. cbn [cython net_run v_util]. unfold numba. rewrite LogitProps.out_utility. apply (agree_U g std W A S1 S2 Hs Hr Hc mus par _ Emu Hm Hsp u). now rewrite <- Mn. }
  assert (HP : forall k, (k < n_nodes st)%nat -> v_prob cython k = r_prob numba k).
  { intros k Hk. cbn [cython net_run v_prob]. unfold numba. rewrite LogitProps.out_prob. apply (agree_P g std W A S1 S2 Hs Hr Hc mus par _ Emu Hm Hsp u av Ha). now rewrite <- Mn. }
  split; [ auto | ].
  set (bad := existsb (fun a => if Req_EM_T (ch a) 0 then false else negb (av a)) (seq 0 (n_alts st))).
  destruct bad eqn:Eb.
  - apply existsb_exists in Eb as (a & Hin & Hbad). apply in_seq in Hin. destruct (Req_EM_T (ch a) 0) as [|Hca]; [ discriminate | ].
    apply negb_true_iff in Hbad. unfold numba. rewrite (LogitProps.C06_chosen_unavailable st (kids g std)); auto.
    2:{ exists a. repeat split; auto. lia. }
    cbn [cython net_run v_ll]. apply (loglike_none _ _ _ _ a); auto; [ lia | ].
    change (v_prob cython a = 0). rewrite HP by lia. unfold numba. rewrite LogitProps.out_prob.
    apply (LogitRun.P_unavailable st (kids g std) T par u (LogitProps.mu_positive_nz st par Hm) av Ha); [ lia | ].
    rewrite (LogitRun.U_alt st (kids g std) T) by lia. intros Hf. apply Ha in Hf; [ congruence | lia ].
  - assert (Hok : forall a, (a < n_alts st)%nat -> ch a <> 0 -> av a = true).
    { intros a Hlt Hca. destruct (av a) eqn:Ea; auto. exfalso. assert (bad = true); [ | congruence ].
      apply existsb_exists. exists a. split; [ apply in_seq; lia | ]. destruct (Req_EM_T (ch a) 0); [ congruence | now rewrite Ea ]. }
    unfold numba. rewrite (LogitProps.C06_loglike st (kids g std)); auto. fold numba.
    cbn [cython net_run v_ll]. fold st. rewrite loglike_sum.
    + do 2 f_equal. apply Rsum_ext. intros a Hin. apply in_seq in Hin. rewrite <- HP by lia. auto.
    + intros a Hlt Hca. change (0 < v_prob cython a). rewrite HP by lia. unfold numba. rewrite LogitProps.out_prob.
      apply (LogitRun.P_pos st (kids g std) T par u (LogitProps.mu_positive_nz st par Hm) av Ha); [ lia | ].
      rewrite (LogitRun.U_alt st (kids g std) T) by lia. apply Ha; [ lia | ]. now apply Hok.
Qed.

Lemma under_net g std k j : net_under (gkids g std) k j <-> under (kids g std) k j.
Proof.
  split.
  - induction 1 as [k|k j al a H _ IH]; [ constructor | ].
    apply (under_step _ k j a); auto. unfold gkids in H. apply in_map_iff in H as (j' & E & H). injection E as <- _. auto.
  - induction 1 as [k|k j a H _ IH]; [ constructor | ].
    apply (nu_step _ k j (even_split g std j) a); auto. unfold gkids. apply in_map_iff. exists j. auto.
Qed.
Lemma under_below g std k j c : gwf g -> Permutation std (gnodes g) -> NoDup std ->
  under (kids g std) k j -> nth_error std k = Some c -> j = k \/ exists d, nth_error std j = Some d /\ below g c d.
Proof.
  intros W HP HN H. revert c. induction H as [k|k j a H _ IH]; intros c Hk; auto. right.
  apply kids_in in H as (c' & d & E & Hd & ->). assert (c' = c) by congruence. subst c'. apply succs_link in Hd.
  assert (Hin : In d std).
  { apply (Permutation_in _ (Permutation_sym HP)). destruct Hd as (e & He & _ & <-). now apply (proj1 (proj2 W)). }
  destruct (IH d (nth_slot std d HN Hin)) as [ ->|(d' & E' & Hb)].
  - exists d. split; [ now apply nth_slot | ]. now apply Relation_Operators.t_step.
  - exists d'. split; auto. eapply Relation_Operators.t_trans; [ apply Relation_Operators.t_step; eauto | auto ].
Qed.
(** ... and, where both are right, the same gradient (partial: C07_gradient_partial and C63_gradient_partial
    list the situations left out).  [c] and [d] are codes of the nodes of the graph. *)
Theorem C63_engines_agree_gradient_partial : forall g std mus (uf : (nat -> R) -> nat -> option R) par av du p ch wt lp0 P0 slot,
  gwf g -> acyclic g -> NoDup (gsugg g) -> incl (gsugg g) (gnodes g) ->
  standard_sort g = Some std -> rooted g -> (exists v, link g (groot g) v) -> single_parent g ->
  let st := model_slots g std mus in
  (forall k, (n_alts st <= k)%nat -> slot k = mus k) -> (forall k, (k < n_alts st)%nat -> slot k = None) ->
  (forall t a, (a < n_alts st)%nat -> (av a = true <-> uf (LogitModel.upd par p t) a <> None)) ->
  (forall a, (a < n_alts st)%nat -> av a = true ->
     is_derive (fun t => val (uf (LogitModel.upd par p t) a)) (par p) (du a p)) ->
  mu_positive st par ->
  mus (n_nodes st - 1)%nat = None ->
  (forall k s j c d, nth_error std k = Some c -> nth_error std j = Some d -> below g c d -> mus k = Some s ->
     (~ is_leaf g d -> mus j <> Some s) /\ (is_leaf g d -> av j = true -> du j s = 0)) ->
  (forall a, (a < n_alts st)%nat -> 0 <= ch a /\ (ch a <> 0 -> av a = true)) ->
  let numba := run_case st par (uf par) du av ch wt lp0 P0 in
  let cython := net_run (graph_net g std) (net_mu slot (fun _ => 1) par) slot (uf par) du (n_alts st) ch wt in
  (forall a, (a < n_alts st)%nat -> ch a <> 0 -> / 10 ^ 250 <= r_prob numba a) ->
  v_dll cython p = Some (r_dloglike numba p).
Proof.
  intros g std mus uf par av du p ch wt lp0 P0 slot W A S1 S2 Hs Hr Hc Hsp st Hsl Hsl0 Hav Hdu Hm Hroot Hsep Hch numba cython Hfl.
  destruct (ms_sizes g std mus) as [Ma Mn]. fold st in Ma, Mn. destruct (w_sizes g std) as [Wa Wn].
  assert (T := bridge_tree g std mus W A S1 S2 Hs Hr Hc Hsp). fold st in T.
  assert (G := graph_dag g std W A S1 S2 Hs Hr Hc). assert (Hrt := ts_root _ _ T).
  assert (HN := std_nodup g std W A S1 S2 Hs Hr). assert (HP := std_perm g std W A S1 S2 Hs Hr).
  destruct (C20_kernel_arrays_from_graph g std mus W A S1 S2 Hs Hr Hc) as (kk & _ & _ & _ & HK).
  assert (Hleaf : forall k c, nth_error std k = Some c -> ((k < n_alts st)%nat <-> is_leaf g c)) by (intros k c E; now apply (HK k c E)).
  assert (Hmus : forall k, (n_alts st <= k)%nat -> mu_slots st (k - n_alts st) = mus k).
  { intros k Hk. unfold st, model_slots in *. destruct (node_slot_arrays g std) as [[n0 s0] nu]. cbn [mu_slots n_alts] in *. f_equal. lia. }
  assert (Hmu : forall q k, (n_alts st <= k)%nat -> net_mu slot (fun _ => 1) q k = mu_of st q k).
  { intros q k Hk. unfold net_mu, mu_of. rewrite Hmus, Hsl by auto. now destruct (mus k). }
  assert (Hsepk : forall k s j, (k < n_nodes st)%nat -> mus k = Some s -> under (kids g std) k j -> j <> k ->
     ((n_alts st <= j)%nat -> mus j <> Some s) /\ ((j < n_alts st)%nat -> av j = true -> du j s = 0)).
  { intros k s j Hk Es Hu Hne. destruct (nth_error std k) as [c|] eqn:Ek; [ | apply nth_error_None in Ek; lia ].
    destruct (under_below g std k j c W HP HN Hu Ek) as [|(d & Ed & Hb)]; [ contradiction | ].
    destruct (Hsep k s j c d Ek Ed Hb Es) as [H1 H2]. split; intros Hj.
    - apply H1. intros Hl. apply (Hleaf j d Ed) in Hl. lia.
    - apply H2. now apply (Hleaf j d Ed). }
  (* the numba gradient *)
  assert (D1 : is_derive (fun t => val (r_loglike (run_case st (LogitModel.upd par p t) (uf (LogitModel.upd par p t)) du av ch wt lp0 P0)))
    (par p) (r_dloglike numba p)).
  { apply (LogitProps.C07_gradient_partial st (kids g std)); auto.
    - rewrite Hmus by lia. auto.
    - intros k s j Hk Es Hu Hne. rewrite Hmus in Es by lia. destruct (Hsepk k s j ltac:(lia) Es Hu Hne) as [H1 H2].
      split; auto. intros Hj. rewrite Hmus by lia. auto.
    - intros a Ha. apply Hch; auto.
    - intros a Ha. apply Hch; auto. }
  (* the Cython gradient *)
  assert (Hp0 : LogitModel.upd par p (par p) = par) by (apply upd_id; auto).
  assert (O : grad_ok (graph_net g std) (gkids g std) slot (fun _ => 1) uf par du p).
  { constructor.
    - intros t a Ha. rewrite Wa, <- Ma in Ha. assert (E1 := Hav t a Ha). assert (E2 := Hav (par p) a Ha). rewrite Hp0 in E2.
      destruct (uf (LogitModel.upd par p t) a), (uf par a), (av a); split; try congruence; intros;
        exfalso; destruct E1, E2; intuition congruence.
    - intros a Ha Hf. rewrite Wa, <- Ma in Ha. apply Hdu; auto. apply (Hav (par p) a Ha). now rewrite Hp0.
    - intros k Hk. rewrite Wa, Wn, <- Ma, <- Mn in Hk. rewrite Hmu by lia. now apply Hm.
    - rewrite Wn, <- Mn, Hsl by lia. congruence.
    - intros k j Hk Es Hu Hne. rewrite Wa, Wn, <- Ma, <- Mn in Hk. rewrite Hsl in Es by lia. apply under_net in Hu.
      destruct (Hsepk k p j ltac:(lia) Es Hu Hne) as [H1 H2]. rewrite Wa, <- Ma. split.
      + intros Hj. rewrite Hsl by lia. auto.
      + intros Hj Hf. apply H2; auto. apply (Hav (par p) j Hj). now rewrite Hp0.
    - intros j k k' al al' _ _ H1 H2.
      assert (R1 : forall k0 a0, In (j, a0) (gkids g std k0) -> (k0 < n_nodes st)%nat /\ In j (kids g std k0)).
      { intros k0 a0 H. unfold gkids in H. apply in_map_iff in H as (j' & E & H). injection E as <- _. split; auto.
        apply kids_in in H as (c & d & E & _). rewrite Mn. apply nth_error_Some. congruence. }
      apply R1 in H1 as [K1 I1]. apply R1 in H2 as [K2 I2].
      apply (LogitProofs.parent_unique st (kids g std) T j k k'); auto.
    - intros j Hj _. rewrite Wa, Wn, <- Ma, <- Mn in Hj. destruct (LogitProofs.parent_ex st (kids g std) T j) as (k & Hk & Hin); [ lia | ].
      exists k, (even_split g std j). rewrite Wn, <- Mn. split; auto. unfold gkids. apply in_map_iff. exists j. auto.
    - intros k j al _ Hj Hal. exfalso. apply Hal. apply (tree_alpha g std W A S1 S2 Hs Hr Hsp k j al Hj). }
  destruct (C63_gradient_partial (graph_net g std) (gkids g std) slot (fun _ => 1) uf par du p (n_alts st) ch wt G O) as (d & Ed & D2).
  { rewrite Wn, <- Mn. lia. }
  { intros i Hi Hci. split.
    - cbn [net_run v_util]. rewrite (U_alt_net _ _ G _ (go_mu _ _ _ _ _ _ _ _ O)) by (rewrite Wa, <- Ma; auto).
      rewrite <- Hp0. apply Hav; auto. apply Hch; auto.
    - apply under_net. rewrite Wn, <- Mn. apply (LogitRun.all_under_root st (kids g std) T). lia. }
  fold cython in Ed. rewrite Ed. f_equal.
  assert (U2 := is_derive_unique _ _ _ D2). rewrite <- U2. apply is_derive_unique.
  eapply is_derive_ext_loc; [ | exact D1 ].
  apply (filter_imp (near par p)); [ | apply near_locally ]. intros t Ht. cbn beta.
  assert (Hmt : mu_positive st (LogitModel.upd par p t)).
  { intros k Hk. rewrite <- Hmu by lia. apply (nnear_mu (graph_net g std) slot (fun _ => 1) par p (go_mu _ _ _ _ _ _ _ _ O) t Ht). rewrite Wa, Wn, <- Ma, <- Mn. auto. }
  destruct (C63_engines_agree g std mus (LogitModel.upd par p t) (uf (LogitModel.upd par p t)) du av ch wt lp0 P0 slot du W A S1 S2 Hs Hr Hc Hsp Hmt) as [_ E]; auto.
  { intros a Ha. apply Hav; auto. }
  fold st in E. rewrite <- E. auto.
Qed.
