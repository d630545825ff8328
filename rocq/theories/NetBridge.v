(** Proofs: the Cython kernel on the arrays of a nesting graph; agreement with the numba kernel. *)
From Coq Require Import Relations Permutation ZArith.
From Verif Require Import TreeModel TreeSpec TreeProofs TreeLogitProps.
From Verif Require Export NetProofs NetTreeModel.
From Verif Require LogitRun.
Open Scope list_scope. Open Scope R_scope.

Definition gkids (g : graph) (std : list Z) (k : nat) : list (nat * R) :=
  map (fun j => (j, even_split g std j)) (kids g std k).

Lemma block_nth {A} (L : list A) d s m : (s + m <= length L)%nat ->
  map (fun i => nth (s + i) L d) (seq 0 m) = firstn m (skipn s L).
Proof.
  revert L m. induction s as [|s IH]; intros L m H; cbn [skipn Nat.add].
  - revert L H. induction m as [|m IHm]; intros L H; cbn [seq map firstn]; auto.
    destruct L as [|x L]; cbn [length] in *; [ lia | ]. cbn [nth]. f_equal. rewrite <- seq_shift, map_map. apply IHm. cbn in H. lia.
  - destruct L as [|x L]; cbn [length] in *; [ lia | ]. cbn [nth]. apply IH. lia.
Qed.
Lemma skipn_map' {A B} (f : A -> B) n l : skipn n (map f l) = map f (skipn n l).
Proof. revert l. induction n; intros [|x l]; cbn; auto. Qed.

Section Bridge.
Variable g : graph.
Variable std : list Z.
Hypothesis W : gwf g.
Hypothesis A : acyclic g.
Hypothesis S1 : NoDup (gsugg g).
Hypothesis S2 : incl (gsugg g) (gnodes g).
Hypothesis Hstd : standard_sort g = Some std.
Hypothesis Hr : rooted g.
Hypothesis Hchild : exists v, link g (groot g) v.
Notation w := (graph_net g std).
Let D := bridge_dag g std (fun _ => None) W A S1 S2 Hstd Hr Hchild.
Let F := std_facts g std W A S1 S2 Hstd Hr.

Lemma std_perm : Permutation std (gnodes g). Proof. destruct F as (nn & _ & _ & H & _). exact H. Qed.
Lemma std_nodup : NoDup std. Proof. destruct F as (nn & _ & _ & _ & H & _). exact H. Qed.
Lemma node_std x : In x (gnodes g) <-> In x std.
Proof. split; apply Permutation_in; [ symmetry | ]; apply std_perm. Qed.
Lemma w_sizes : w_alts w = length (elementals g) /\ w_nodes w = length std.
Proof. unfold graph_net. destruct (node_slot_arrays g std) as [[n0 st] nu]. auto. Qed.
Lemma ms_sizes mus : n_alts (model_slots g std mus) = length (elementals g) /\ n_nodes (model_slots g std mus) = length std.
Proof. unfold model_slots. destruct (node_slot_arrays g std) as [[n0 st] nu]. auto. Qed.

Lemma succs_nodup c : NoDup (succs g c).
Proof.
  assert (H := proj2 (proj2 W)). unfold succs. revert H. generalize (gedges g). intros L H. induction L as [|e es IH]; cbn [filter map]; [ constructor | ].
  cbn [map] in H. inversion H as [|x l Hn Hl]; subst. destruct (Z.eqb_spec (eu e) c) as [E|E]; [ | now apply IH ].
  cbn [map]. constructor; [ | now apply IH ]. intros Hin. apply Hn. apply in_map_iff in Hin as (f & Ef & Hf).
  apply filter_In in Hf as [Hf Hc]. apply Z.eqb_eq in Hc. apply in_map_iff. exists f. split; auto. congruence.
Qed.
Lemma kids_nodup k : NoDup (kids g std k).
Proof.
  unfold kids. destruct (nth_error std k) as [c|]; [ | constructor ].
  assert (Hin : forall d, In d (succs g c) -> In d std).
  { intros d Hd. apply succs_link in Hd as (e & He & _ & <-). apply node_std. assert (H := proj1 (proj2 W)). now apply H. }
  assert (Hn := succs_nodup c). induction (succs g c) as [|d ds IH]; cbn [map]; [ constructor | ]. inversion Hn as [|x l H1 H2]; subst.
  constructor; [ | apply IH; auto; intros; apply Hin; now right ]. intros Hs. apply in_map_iff in Hs as (d' & Ed & Hd').
  apply slot_inj in Ed; [ subst; contradiction | apply std_nodup | apply Hin; now right | apply Hin; now left ].
Qed.
Lemma split_pos k j : In j (kids g std k) -> 0 < even_split g std j.
Proof.
  intros H. apply kids_in in H as (c & d & Hk & Hd & ->). unfold even_split. apply Rinv_0_lt_compat. apply lt_0_INR.
  assert (Hin : In d std). { apply succs_link in Hd as (e & He & _ & <-). apply node_std. assert (H := proj1 (proj2 W)). now apply H. }
  rewrite (nth_error_nth std (slot std d) 0%Z (nth_slot std d std_nodup Hin)).
  apply succs_link in Hd as (e & He & Eu & Ev). unfold preds. rewrite map_length.
  assert (Hf : In e (filter (fun e => (ev e =? d)%Z) (gedges g))) by (apply filter_In; split; auto; now apply Z.eqb_eq).
  destruct (filter _ (gedges g)); [ destruct Hf | cbn; lia ].
Qed.
Lemma graph_dag : net_dag w (gkids g std).
Proof.
  destruct w_sizes as [Ea En]. destruct (ms_sizes (fun _ => None)) as [Ma Mn].
  constructor.
  - rewrite Ea, En, <- Ma, <- Mn. apply (ts_root _ _ D).
  - intros k Hk. rewrite Ea, <- Ma in Hk. unfold gkids. now rewrite (ts_leaf _ _ D k Hk).
  - intros k j a Hj. unfold gkids in Hj. apply in_map_iff in Hj as (j' & E & Hj). injection E as <- <-.
    split; [ now apply (ts_less _ _ D) | now apply (split_pos k) ].
  - intros k. unfold gkids. rewrite map_map. cbn [fst]. rewrite map_id. apply kids_nodup.
  - rewrite En. unfold graph_net. destruct (node_slot_arrays g std) as [[n0 st] nu]. cbn [w_edges].
    rewrite (edge_arrays_kids g std W std_perm). rewrite !flat_map_concat_map, concat_map, map_map. f_equal. apply map_ext.
    intros k. unfold gkids. rewrite !map_map. auto.
  - intros k Hk. rewrite Ea, En in Hk. assert (HA := node_arrays_block g std W std_perm).
    assert (HD := ts_children _ _ D k). unfold slice, graph_net. unfold model_slots in HD.
    destruct (node_slot_arrays g std) as [[n0 st] nu] eqn:En0. cbn [w_first w_num w_edges]. cbn [n_alts n_nodes] in HD.
    destruct (HA k) as (H1 & H2 & H3); [ lia | ]. unfold gkids.
    destruct (kids g std k) as [|j r] eqn:Ek.
    + rewrite H3 by auto. auto.
    + destruct (H2 ltac:(discriminate)) as (s & Es & Eb). rewrite Es.
      assert (Hlen : length (firstn (nu k) (skipn s (edge_slot_arrays g std))) = nu k) by (rewrite Eb, map_length; auto).
      rewrite firstn_length, skipn_length in Hlen. cbn [length] in H1.
      rewrite block_nth by (rewrite map_length; lia). rewrite skipn_map', firstn_map, Eb, !map_map. auto.
Qed.
Lemma gkids_in k c : nth_error std k = Some c -> forall j al, In (j, al) (gkids g std k) <->
  exists d, link g c d /\ nth_error std j = Some d /\ al = / INR (length (preds g d)).
Proof.
  intros Hk j al. unfold gkids. rewrite in_map_iff. split.
  - intros (j' & E & Hj). injection E as <- <-. apply kids_in in Hj as (c' & d & Hc & Hd & ->).
    assert (c' = c) by congruence. subst c'. exists d. apply succs_link in Hd. split; auto.
    assert (Hin : In d std). { destruct Hd as (e & He & _ & <-). apply node_std. assert (H := proj1 (proj2 W)). now apply H. }
    split; [ now apply nth_slot; [ apply std_nodup | ] | ].
    unfold even_split. now rewrite (nth_error_nth std (slot std d) 0%Z (nth_slot std d std_nodup Hin)).
  - intros (d & Hl & Hj & ->). exists j. split.
    + unfold even_split. now rewrite (nth_error_nth std j 0%Z Hj).
    + apply kids_in. exists c, d. split; auto. split; [ now apply succs_link | ]. symmetry. apply slot_nth; auto. apply std_nodup.
Qed.
Lemma count_dn d : In d std ->
  length (filter (fun e => (snd e =? slot std d)%nat) (edge_slot_arrays g std)) = length (preds g d).
Proof.
  intros Hd. assert (HE : Permutation (edge_slot_arrays g std) (map (fun e => (slot std (eu e), slot std (ev e))) (gedges g))).
  { rewrite (edge_slot_arrays_flat g std W std_perm), <- (edge_fill_flat g std). apply edge_fill_perm; auto. apply std_perm. }
  assert (HF : forall (f : nat * nat -> bool) l l', Permutation l l' -> length (filter f l) = length (filter f l')).
  { intros f l l' HP. induction HP; cbn [filter]; auto; try congruence.
    - destruct (f x); cbn; congruence.
    - destruct (f x), (f y); cbn; auto. }
  rewrite (HF _ _ _ HE). unfold preds. rewrite map_length.
  assert (Hin : forall e, In e (gedges g) -> In (ev e) std). { intros e He. apply node_std. assert (H := proj1 (proj2 W)). now apply H. }
  clear HE HF. revert Hin. generalize (gedges g). intros L Hin. induction L as [|e es IH]; cbn [map filter]; auto. cbn [snd].
  assert (Eb : (slot std (ev e) =? slot std d)%nat = (ev e =? d)%Z).
  { destruct (Z.eqb_spec (ev e) d) as [ ->|Hne]; [ apply Nat.eqb_refl | ]. apply Nat.eqb_neq. intros E. apply Hne.
    apply (slot_inj std) in E; auto; [ apply std_nodup | apply Hin; now left ]. }
  rewrite Eb. destruct (ev e =? d)%Z; cbn [length]; [ f_equal | ]; apply IH; intros; apply Hin; now right.
Qed.
Lemma alloc_sum c d u : nth_error std c = Some d -> link g u d ->
  over_parents w (gkids g std) c (fun _ ja => snd ja) = 1.
Proof.
  intros Hc Hl. unfold over_parents.
  assert (Q := sum_edges w (gkids g std) graph_dag (fun e => if (e_dn e =? c)%nat then e_al e else 0)).
  cbn [mk e_dn e_al fst snd] in Q. etransitivity; [ symmetry; exact Q | clear Q ].
  assert (Ee : w_edges w = map (fun e => (e, even_split g std (snd e))) (edge_slot_arrays g std)).
  { unfold graph_net. destruct (node_slot_arrays g std) as [[n0 st] nu]. auto. }
  rewrite Ee. unfold Rsum.
  assert (G : forall L, fold_right (fun e s => (if (e_dn e =? c)%nat then e_al e else 0) + s) 0 (map (fun e : nat * nat => (e, even_split g std (snd e))) L) =
    INR (length (filter (fun e => (snd e =? c)%nat) L)) * even_split g std c).
  { induction L as [|e L IH]; cbn [map fold_right filter]; [ cbn; ring | ]. rewrite IH. unfold e_dn, e_al. cbn [fst snd].
    destruct (Nat.eqb_spec (snd e) c) as [ ->|]; [ | ring ]. cbn [length]. rewrite S_INR. ring. }
  rewrite G. assert (Hin : In d std) by (eapply nth_error_In; eauto).
  assert (Cn := count_dn d Hin). rewrite (slot_nth std d c std_nodup Hc) in Cn. rewrite Cn.
  unfold even_split. rewrite (nth_error_nth std c 0%Z Hc). apply Rinv_r. apply not_0_INR.
  destruct Hl as (e & He & Eu & Ev). unfold preds. rewrite map_length.
  assert (Hf : In e (filter (fun e => (ev e =? d)%Z) (gedges g))) by (apply filter_In; split; auto; now apply Z.eqb_eq).
  destruct (filter _ (gedges g)); [ destruct Hf | cbn; lia ].
Qed.
Lemma tree_alpha : single_parent g -> forall k j al, In (j, al) (gkids g std k) -> al = 1.
Proof.
  intros Hs k j al Hj. unfold gkids in Hj. apply in_map_iff in Hj as (j' & E & Hj). injection E as <- <-.
  assert (Hk := Hj). apply kids_in in Hk as (c & d & Hc & Hd & Ej).
  assert (Hin : In d std). { apply succs_link in Hd as (e & He & _ & <-). apply node_std. assert (H := proj1 (proj2 W)). now apply H. }
  subst j'. unfold even_split. rewrite (nth_error_nth std (slot std d) 0%Z (nth_slot std d std_nodup Hin)).
  assert (L : preds g d = c :: nil); [ | rewrite L; cbn; field ].
  apply succs_link in Hd as (e & He & Eu & Ev). subst c. rewrite <- Ev in *. clear Ev d.
  assert (Hall : forall f, In f (gedges g) -> ev f = ev e -> eu f = eu e).
  { intros f Hf Ef. apply (Hs _ _ (ev e)); [ exists f; auto | exists e; auto ]. }
  assert (Hn := proj2 (proj2 W)). unfold preds. clear -Hall Hn He. induction (gedges g) as [|f fs IH]; [ destruct He | ].
  cbn [map] in Hn. inversion Hn as [|x l H1 H2]; subst. cbn [filter]. destruct (Z.eqb_spec (ev f) (ev e)) as [Ef|Ef].
  - cbn [map]. rewrite (Hall f) by (auto; now left). f_equal.
    assert (N : filter (fun e0 => (ev e0 =? ev e)%Z) fs = nil); [ | now rewrite N ].
    destruct (filter _ fs) as [|h hs] eqn:Eh; auto. exfalso. assert (Hh : In h (filter (fun e0 => (ev e0 =? ev e)%Z) fs)) by (rewrite Eh; now left).
    apply filter_In in Hh as [Hh Hh']. apply Z.eqb_eq in Hh'. apply H1. apply in_map_iff. exists h. split; auto.
    rewrite (Hall h (or_intror Hh) Hh'), (Hall f (or_introl eq_refl) Ef). congruence.
  - apply IH; auto; [ destruct He as [ ->|He]; congruence | intros; apply Hall; auto; now right ].
Qed.

(** agreement with the numba kernel *)
Section Agree.
Variable mus : nat -> option nat.
Variable par : nat -> R.
Notation st := (model_slots g std mus).
Variable mu : nat -> R.
Hypothesis Emu : forall k, (length (elementals g) <= k)%nat -> mu k = mu_of st par k.
Hypothesis Hmu : mu_positive st par.
Hypothesis Hs : single_parent g.
Variable u : nat -> option R.
Variable av : nat -> bool.
Hypothesis Hav : av_matches st u av.
Let T := bridge_tree g std mus W A S1 S2 Hstd Hr Hchild Hs.
Lemma mu_w : forall k, (w_alts w <= k < w_nodes w)%nat -> 0 < mu k.
Proof. intros k Hk. destruct w_sizes as [Ea En], (ms_sizes mus) as [Ma Mn]. rewrite Emu by lia. apply Hmu. lia. Qed.
Lemma mu_nz : forall k, (n_alts st <= k < n_nodes st)%nat -> mu_of st par k <> 0.
Proof. intros k Hk. assert (H := Hmu k Hk). lra. Qed.
Lemma agree_U k : (k < length std)%nat -> net_utilities w mu u k = node_utilities st par u k.
Proof.
  induction k as [k IH] using lt_wf_ind. intros Hk.
  destruct (w_sizes) as [Ea En]. destruct (ms_sizes mus) as [Ma Mn].
  destruct (Nat.lt_ge_cases k (length (elementals g))) as [Hlt|Hge].
  - rewrite (U_alt_net w (gkids g std) graph_dag mu mu_w u) by (rewrite Ea; auto).
    rewrite (LogitRun.U_alt st (kids g std) T) by (rewrite Ma; auto). auto.
  - rewrite (LogitRun.U_nest st (kids g std) T) by (rewrite ?Ma, ?Mn; try lia; apply mu_nz; rewrite ?Ma, ?Mn; lia).
    rewrite <- Emu by lia.
    assert (H := proj2 (net_U_spec w (gkids g std) graph_dag mu mu_w u) k). rewrite Ea, En in H. specialize (H (conj Hge Hk)).
    set (U := net_utilities w mu u) in *. set (V := node_utilities st par u) in *.
    assert (Es : nest_sum (mu k) U (gkids g std k) = Rsum (LogitSpec.oexp (mu k)) (map V (kids g std k))).
    { unfold nest_sum. rewrite LogitProofs.Rsum_map. unfold gkids. rewrite LogitProofs.Rsum_map. apply LogitProofs.Rsum_ext. intros j Hj.
      unfold term. cbn [fst snd]. assert (Hlt := ts_less _ _ T k j Hj). rewrite IH by lia.
      assert (E1 : even_split g std j = 1). { apply (tree_alpha Hs k j). unfold gkids. apply in_map_iff. exists j. auto. }
      rewrite E1, ln_1. unfold LogitSpec.oexp. fold V. destruct (V j); auto. f_equal. f_equal. ring. }
    unfold is_logsum in H. rewrite Es in H. unfold LogitProofs.logsum. destruct (existsb _ _) eqn:Ex.
    + destruct (Rlt_dec 0 _) as [_|Hn]; auto. exfalso. apply Hn. rewrite <- Es. apply (nest_sum_pos (mu k) U (gkids g std k)).
      apply existsb_exists in Ex as (x & Hx & Hf). apply in_map_iff in Hx as (j & <- & Hj). exists (j, even_split g std j).
      split; [ unfold gkids; apply in_map_iff; exists j; auto | ]. cbn [fst]. rewrite IH by (assert (Hlt := ts_less _ _ T k j Hj); lia).
      fold V. destruct (V j); congruence.
    + destruct (Rlt_dec 0 _) as [Hp|_]; auto. exfalso. rewrite <- Es in Hp. apply (nest_sum_pos (mu k) U (gkids g std k)) in Hp as ([j al] & Hj & Hf).
      unfold gkids in Hj. apply in_map_iff in Hj as (j' & E & Hj). injection E as <- <-. cbn [fst] in Hf.
      rewrite IH in Hf by (assert (Hlt := ts_less _ _ T k j' Hj); lia).
      assert (Ht : existsb (fun x => match x with Some _ => true | None => false end) (map V (kids g std k)) = true); [ | congruence ].
      apply existsb_exists. exists (V j'). split; [ now apply in_map | ]. fold V in Hf. destruct (V j'); congruence.
Qed.
Lemma agree_P wt chx lp0 P0 k : (k < length std)%nat ->
  net_probabilities w mu (net_utilities w mu u) k =
  probabilities st (array_av_cascade st av) (cond_prob (array_av_cascade st av) (fst (logprob_loop st par (node_utilities st par u) (array_ch_cascade st chx) wt lp0))) P0 k.
Proof.
  destruct (w_sizes) as [Ea En]. destruct (ms_sizes mus) as [Ma Mn].
  destruct (LogitRun.P_spec st (kids g std) T par u av chx wt lp0 P0) as [R1 R2].
  set (Q := probabilities _ _ _ _) in *. assert (Hroot := nd_root _ _ graph_dag).
  remember (length std - k)%nat as m eqn:Em. revert k Em. induction m as [m IH] using lt_wf_ind. intros k Em Hk.
  destruct (Nat.eq_dec k (length std - 1)) as [ ->|Hne].
  - rewrite <- En at 1. rewrite (net_P_root w (gkids g std) graph_dag mu u). rewrite <- R1. now rewrite Mn.
  - destruct (LogitProofs.parent_ex st (kids g std) T k) as (up & Hup & Hin); [ rewrite Mn; lia | ]. rewrite Mn in Hup.
    rewrite (net_P_node w (gkids g std) graph_dag mu u) by (rewrite En; lia).
    assert (Hlt := ts_less _ _ T up k Hin). rewrite (R2 up k) by (rewrite ?Mn; auto).
    assert (Ep : over_parents w (gkids g std) k (fun k0 ja => ocexp (edge_cond mu (net_utilities w mu u) (mk k0 ja)) * net_probabilities w mu (net_utilities w mu u) k0)
      = ocexp (edge_cond mu (net_utilities w mu u) (mk up (k, 1))) * net_probabilities w mu (net_utilities w mu u) up).
    { unfold over_parents. rewrite (LogitProofs.Rsum_ext _ (fun k0 => if (up =? k0)%nat then ocexp (edge_cond mu (net_utilities w mu u) (mk up (k, 1))) * net_probabilities w mu (net_utilities w mu u) up else 0)).
      - apply (Rsum_pick _ up). rewrite En; auto.
      - intros k0 Hk0. apply in_seq in Hk0. rewrite En in Hk0. destruct (Nat.eqb_spec up k0) as [ <-|Hno].
        + unfold gkids. rewrite LogitProofs.Rsum_map. cbn [fst].
          rewrite (LogitProofs.Rsum_ext _ (fun j => if (k =? j)%nat then ocexp (edge_cond mu (net_utilities w mu u) (mk up (k, 1))) * net_probabilities w mu (net_utilities w mu u) up else 0)).
          * assert (Hnd := kids_nodup up). clear -Hin Hnd. induction (kids g std up) as [|j js IH]; [ destruct Hin | ].
            inversion Hnd as [|x l H1 H2]; subst. unfold Rsum. cbn [fold_right]. fold (Rsum (fun j0 => if (k =? j0)%nat then ocexp (edge_cond mu (net_utilities w mu u) (mk up (k, 1))) * net_probabilities w mu (net_utilities w mu u) up else 0) js).
            destruct (Nat.eqb_spec k j) as [ <-|Hkj].
            -- assert (Z0 : Rsum (fun j0 => if (k =? j0)%nat then ocexp (edge_cond mu (net_utilities w mu u) (mk up (k, 1))) * net_probabilities w mu (net_utilities w mu u) up else 0) js = 0); [ | rewrite Z0; ring ].
               clear -H1. induction js as [|i js IH]; auto. unfold Rsum. cbn [fold_right]. fold (Rsum (fun j0 => if (k =? j0)%nat then ocexp (edge_cond mu (net_utilities w mu u) (mk up (k, 1))) * net_probabilities w mu (net_utilities w mu u) up else 0) js).
               destruct (Nat.eqb_spec k i) as [ <-|]; [ exfalso; apply H1; now left | ]. rewrite IH; [ ring | ]. intros H. apply H1. now right.
            -- destruct Hin as [Hin|Hin]; [ congruence | ]. rewrite IH by auto. ring.
          * intros j Hj. rewrite (Nat.eqb_sym j k). destruct (Nat.eqb_spec k j) as [ <-|]; auto.
            assert (E1 : even_split g std k = 1). { apply (tree_alpha Hs up k). unfold gkids. apply in_map_iff. exists k. auto. }
            now rewrite E1.
        + assert (Hnk : ~ In k (kids g std k0)).
          { intros H. apply Hno. apply (LogitProofs.parent_unique st (kids g std) T k up k0); rewrite ?Mn; auto; lia. }
          unfold gkids. rewrite LogitProofs.Rsum_map. cbn [fst]. clear -Hnk. induction (kids g std k0) as [|j js IH]; auto.
          unfold Rsum in *. cbn [fold_right]. destruct (Nat.eqb_spec j k) as [ ->|]; [ exfalso; apply Hnk; now left | ].
          rewrite IH; [ ring | ]. intros H. apply Hnk. now right. }
    rewrite Ep. rewrite (IH (length std - up)%nat) by lia. rewrite Rmult_comm. f_equal.
    rewrite (LogitRun.cp_spec st (kids g std) T par u mu_nz av Hav chx wt lp0 up k) by (rewrite ?Mn; auto).
    assert (Hg := proj2 (LogitProofs.kid_range _ _ T up k ltac:(rewrite Mn; auto) Hin)). rewrite <- Emu by lia.
    unfold edge_cond, mk, e_up, e_dn, e_al. cbn [fst snd]. rewrite (agree_U up Hup), (agree_U k Hk).
    destruct (Req_EM_T 1 1) as [_|]; [ | congruence ].
    destruct (node_utilities st par u k) as [x|] eqn:Ex.
    + assert (Hf : node_utilities st par u up <> None).
      { rewrite <- (agree_U up Hup). apply (U_fin_parent w (gkids g std) graph_dag mu mu_w u up k (even_split g std k)); [ rewrite En; auto | | ].
        - unfold gkids. apply in_map_iff. exists k. auto.
        - rewrite (agree_U k Hk). congruence. }
      destruct (node_utilities st par u up) as [y|]; [ | congruence ]. cbn [ocexp val]. now rewrite Rplus_0_r.
    + destruct (node_utilities st par u up); auto.
Qed.
End Agree.
End Bridge.
