(** Property C68: each alternative's data goes to its own node. *)
From Coq Require Import Permutation Sorted Relations.
From Verif Require Import TreeModel TreeSpec TreeProofs TreeLogitProps.
From Verif Require Import LogitModel LogitSpec LogitProofs.
From Verif Require Import UtilityModel UtilitySpec.
From Verif Require Import AltsProofs.
Open Scope R_scope.

(** The nested logit model on codes determines every utility and probability: two solutions
    for the same graph, logsum parameters and alternatives' utilities agree on every node. *)
Theorem C68_reference_unique : forall g mu u V P V' P',
  nesting g -> nested g mu u V P -> nested g mu u V' P' ->
  forall c, In c (gnodes g) -> V c = V' c /\ P c = P' c.
Proof.
  intros g mu u V P V' P' G H1 H2 c Hc. split.
  - apply (unique_V g G mu u u V V' P P' H1 H2); auto.
  - apply (unique_P g G mu u u V V' P P' H1 H2); auto.
Qed.

(** What is computed, for every order of the data's alternatives: the column labelled [c] is
    the nested logit answer for node [c] when each elemental node carries the data of the
    alternative that stands at ITS POSITION in the data. *)
Theorem C68_answers : forall m d par hold lp0 P0 ans,
  let g := s_graph m in let alts := prepared_alts g d in
  let at_node := carried (elementals g) alts in
  nesting g -> positive_mu m par -> NoDup alts -> sizes_ok m d par alts ->
  evaluate m d par hold lp0 P0 = Some ans ->
  nested g (node_mu m par) (fun c => ext_utility m d par (at_node c))
    (column ans r_utility) (column ans r_prob) /\
  ((forall c, is_leaf g c -> chosen d (at_node c) <> 0 -> available d (at_node c) = true) ->
   r_loglike (a_result ans) =
     Some (d_wt d * Rsum (fun c => chosen d (at_node c) * ln (column ans r_prob c)) (elementals g))) /\
  ((exists c, is_leaf g c /\ chosen d (at_node c) <> 0 /\ available d (at_node c) = false) ->
   r_loglike (a_result ans) = None).
Proof.
  intros m d par hold lp0 P0 ans g alts at_node G HM HD HZ HE.
  exact (eval_nested m d par hold lp0 P0 G HM HD HZ ans HE).
Qed.

(** When it stops: never if utility_co and the choice expressions speak of alternatives the data
    has and the numbers of alternatives agree; always (KeyError, ValueError) otherwise. *)
Theorem C68_evaluates : forall m d par hold lp0 P0,
  let g := s_graph m in let alts := prepared_alts g d in
  nesting g -> keys_ok m d alts -> length alts = length (elementals g) ->
  exists ans, evaluate m d par hold lp0 P0 = Some ans.
Proof. intros m d par hold lp0 P0 g alts G K L. apply evaluate_some; auto. Qed.
Theorem C68_stops : forall m d par hold lp0 P0,
  let g := s_graph m in let alts := prepared_alts g d in
  (length alts <> length (elementals g) \/ (exists f, In f (s_co m) /\ ~ In (fst f) alts) \/
   (exists l a, d_ch d = ChDict l /\ In a alts /\ dict_get l a = None)) ->
  evaluate m d par hold lp0 P0 = None.
Proof.
  intros m d par hold lp0 P0 g alts H. unfold evaluate. fold g. fold alts.
  destruct (standard_sort g); auto.
  destruct (co_slots alts (s_co m)) as [co|] eqn:Ec; auto.
  destruct (choice_array alts (d_ch d)) as [ch|] eqn:Eh; auto.
  destruct (Nat.eqb_spec (length alts) (length (elementals g))) as [E|]; auto.
  exfalso. destruct H as [H|[H|[lst [a [H1 [H2 H3]]]]]]; [auto| |].
  - rewrite (co_slots_fail alts (s_co m) H) in Ec. discriminate.
  - rewrite H1 in Eh. unfold choice_array in Eh.
    destruct (forallb _ alts) eqn:Ef; [|discriminate]. rewrite forallb_forall in Ef.
    specialize (Ef a H2). rewrite H3 in Ef. discriminate.
Qed.

(** The property, when the data's alternatives come in the order of the graph's elementals: every
    column is the nested logit answer for the node it is labelled with, from that
    alternative's own utility, availability and choice. *)
Lemma nested_ext g mu u u' V P : (forall c, is_leaf g c -> u c = u' c) ->
  nested g mu u V P -> nested g mu u' V P.
Proof.
  intros H [H1 H2 H3 H4 H5]. constructor; auto. intros c Hc. rewrite <- H by auto. auto.
Qed.
Theorem C68_own_data : forall m d par hold lp0 P0 ans V P,
  let g := s_graph m in
  nesting g -> positive_mu m par -> sizes_ok m d par (elementals g) ->
  prepared_alts g d = elementals g ->
  nested g (node_mu m par) (ext_utility m d par) V P ->
  evaluate m d par hold lp0 P0 = Some ans ->
  (forall c, In c (gnodes g) -> column ans r_utility c = V c /\ column ans r_prob c = P c) /\
  ((forall c, is_leaf g c -> chosen d c <> 0 -> available d c = true) ->
   r_loglike (a_result ans) = Some (d_wt d * Rsum (fun c => chosen d c * ln (P c)) (elementals g))) /\
  ((exists c, is_leaf g c /\ chosen d c <> 0 /\ available d c = false) ->
   r_loglike (a_result ans) = None).
Proof.
  intros m d par hold lp0 P0 ans V P g G HM HZ HA HR HE.
  assert (HEN : NoDup (elementals g)).
  { eapply Permutation_NoDup; [symmetry; apply (elementals_perm g (ng_wf _ G) (ng_sugg _ G))|].
    apply NoDup_filter. apply (ng_wf _ G). }
  destruct (C68_answers m d par hold lp0 P0 ans G HM) as [H1 [H2 H3]]; fold g; try rewrite HA; auto.
  fold g in H1, H2, H3. rewrite HA in H1, H2, H3.
  assert (H1' : nested g (node_mu m par) (ext_utility m d par) (column ans r_utility) (column ans r_prob)).
  { eapply nested_ext; [|exact H1]. intros c _. simpl. rewrite carried_same. auto. }
  assert (HU := C68_reference_unique g _ _ _ _ _ _ G H1' HR). split; [exact HU|]. split.
  - intros Hc. rewrite H2.
    + f_equal. f_equal. apply Rsum_ext. intros c Hin. rewrite carried_same. f_equal. f_equal.
      apply HU. apply (Permutation_in _ (elementals_perm g (ng_wf _ G) (ng_sugg _ G))) in Hin.
      apply in_leaves in Hin. apply Hin.
    + intros c Hl. rewrite carried_same. auto.
  - intros [c [Hl [H4 H5]]]. apply H3. exists c. rewrite carried_same. auto.
Qed.

(** Three ways to be in that order: no order suggested and the data sorted by code; the data's order
    suggested to the graph; data without alternatives of its own. *)
Lemma sorted_unique l1 : forall l2, StronglySorted Z.le l1 -> StronglySorted Z.le l2 ->
  Permutation l1 l2 -> l1 = l2.
Proof.
  induction l1 as [|x l1 IH]; intros l2 S1 S2 HP.
  - apply Permutation_nil in HP. auto.
  - destruct l2 as [|y l2]; [symmetry in HP; apply Permutation_nil in HP; discriminate|].
    inversion S1 as [|? ? S1a S1b]; subst. inversion S2 as [|? ? S2a S2b]; subst.
    rewrite Forall_forall in S1b, S2b.
    assert (x = y).
    { assert (Hx : In x (y :: l2)) by (eapply Permutation_in; [exact HP|simpl; auto]).
      assert (Hy : In y (x :: l1)) by (eapply Permutation_in; [symmetry; exact HP|simpl; auto]).
      destruct Hx as [Hx|Hx]; [auto|]. destruct Hy as [Hy|Hy]; [auto|].
      assert (y <= x)%Z by auto. assert (x <= y)%Z by auto. lia. }
    subst y. f_equal. apply IH; auto. eapply Permutation_cons_inv; eauto.
Qed.
Lemma filter_all {A} (f : A -> bool) l : (forall x, In x l -> f x = true) -> filter f l = l.
Proof.
  induction l as [|x l IH]; simpl; intros H; auto. rewrite (H x) by auto. f_equal. apply IH. auto.
Qed.
Lemma filter_none {A} (f : A -> bool) l : (forall x, In x l -> f x = false) -> filter f l = [].
Proof.
  induction l as [|x l IH]; simpl; intros H; auto. rewrite (H x) by auto. apply IH. auto.
Qed.
Lemma elementals_nosugg g : gsugg g = [] -> elementals g = zsort (leaves g).
Proof. intros H. unfold elementals. rewrite H. simpl. apply filter_all. auto. Qed.
Theorem C68_sorted_alternatives : forall g d alts,
  d_alts d = Some alts -> gsugg g = [] ->
  StronglySorted Z.le alts -> NoDup alts -> (forall a, In a alts <-> is_leaf g a) -> gwf g ->
  prepared_alts g d = elementals g.
Proof.
  intros g d alts Hd Hs HS HN HL W. unfold prepared_alts. rewrite Hd, (elementals_nosugg g Hs).
  apply sorted_unique; auto; [apply zsort_sorted|]. rewrite zsort_perm.
  apply NoDup_Permutation; auto; [apply NoDup_filter; apply W|]. intros a. rewrite HL. symmetry. apply in_leaves.
Qed.
Theorem C68_suggested_order : forall g d alts,
  d_alts d = Some alts -> (forall a, In a alts <-> is_leaf g a) ->
  prepared_alts (suggest_elemental_order alts g) d = elementals (suggest_elemental_order alts g).
Proof.
  intros g d alts Hd HL. unfold prepared_alts. rewrite Hd. unfold elementals.
  set (g' := suggest_elemental_order alts g).
  assert (Es : gsugg g' = alts).
  { unfold g', suggest_elemental_order. cbn [gsugg]. apply filter_all. intros a Ha.
    apply zmem_In. apply HL in Ha. apply Ha. }
  assert (El : forall a, is_leaf g' a <-> is_leaf g a) by (intros; tauto).
  rewrite Es. rewrite (filter_all _ alts).
  - rewrite filter_none; [rewrite app_nil_r; auto|]. intros a Ha.
    apply negb_false_iff. apply zmem_In. apply HL. apply El. apply in_leaves.
    eapply Permutation_in; [apply zsort_perm|auto].
  - intros a Ha. apply HL in Ha. apply El in Ha. apply in_leaves in Ha. unfold leaves in Ha.
    apply filter_In in Ha. destruct Ha as [H1 H2]. rewrite H2, andb_true_r. apply zmem_In; auto.
Qed.
Theorem C68_data_without_alternatives : forall g d, d_alts d = None -> prepared_alts g d = elementals g.
Proof. intros g d H. unfold prepared_alts. rewrite H. auto. Qed.

(** Multinomial logit (every elemental directly below the root, no nest): in ANY order of the
    data's alternatives the k-th number is right for the data's k-th alternative, and the log
    likelihood is right. *)
Definition flat (g : graph) : Prop := forall c, In c (gnodes g) -> c <> groot g -> is_leaf g c /\ link g (groot g) c.
Lemma map_carried E : forall D, NoDup E -> length E = length D -> map (carried E D) E = D.
Proof.
  induction E as [|e E IH]; intros D HN HL; destruct D as [|x D]; try discriminate; auto.
  inversion HN as [|? ? H1 H2]; subst. cbn [map]. f_equal.
  - simpl. rewrite Z.eqb_refl. auto.
  - rewrite <- (IH D) at 2; auto. apply map_ext_in. intros c Hc. simpl.
    destruct (Z.eqb_spec e c) as [ ->|]; [tauto|auto].
Qed.
Lemma NoDup_pairs_snd (g : graph) c : NoDup (map (fun e => (eu e, TreeModel.ev e)) (gedges g)) -> NoDup (children_of g c).
Proof.
  unfold children_of. generalize (gedges g). intros L. induction L as [|e L IH]; simpl; intros H; [constructor|].
  inversion H as [|? ? H1 H2]; subst. destruct (Z.eqb_spec (eu e) c) as [E|]; auto.
  simpl. constructor; auto. intros Hin. apply H1. apply in_map_iff in Hin. destruct Hin as [e' [E1 E2]].
  apply filter_In in E2. destruct E2 as [E2 E3]. apply Z.eqb_eq in E3. apply in_map_iff. exists e'. split; auto. congruence.
Qed.
Theorem C68_mnl_any_order : forall m d par hold lp0 P0 ans,
  let g := s_graph m in let alts := prepared_alts g d in
  let total := Rsum (fun b => oexp (node_mu m par (groot g)) (ext_utility m d par b)) alts in
  nesting g -> flat g -> positive_mu m par -> sizes_ok m d par alts ->
  NoDup alts ->
  evaluate m d par hold lp0 P0 = Some ans ->
  (forall k a, nth_error alts k = Some a ->
     r_utility (a_result ans) k = ext_utility m d par a /\
     r_prob (a_result ans) k = oexp (node_mu m par (groot g)) (ext_utility m d par a) / total) /\
  ((forall a, In a alts -> chosen d a <> 0 -> available d a = true) ->
   r_loglike (a_result ans) = Some (d_wt d *
     Rsum (fun a => chosen d a * ln (oexp (node_mu m par (groot g)) (ext_utility m d par a) / total)) alts)).
Proof.
  intros m d par hold lp0 P0 ans g alts total G F HM HZ HD HE.
  destruct (C68_answers m d par hold lp0 P0 ans G HM HD HZ HE) as [[N1 N2 N3 N4 N5] [H2 _]]. fold g in N1, N2, N3, N4, N5, H2. fold alts in N1, H2.
  destruct (eval_inv m d par hold lp0 P0 G ans HE) as [std [co [ch [nests [Hs [_ [_ [Hlen [Hstd [HA _]]]]]]]]]].
  fold g alts in Hs, Hlen, Hstd.
  destruct (std_facts g std (ng_wf _ G) (ng_acyclic _ G) (ng_sugg _ G) (ng_sugg_in _ G) Hs (ng_rooted _ G))
    as [n' [_ [HLv [HP [HN _]]]]].
  assert (HEN : NoDup (elementals g)) by (rewrite Hstd in HN; eapply nodup_app_left; eauto).
  assert (Hroot : ~ is_leaf g (groot g)).
  { intros [_ Hl]. destruct (ng_child _ G) as [v Hv]. apply (Hl v); auto. }
  assert (HEleaf : forall c, In c (elementals g) <-> is_leaf g c).
  { intros c. rewrite <- in_leaves. split; apply Permutation_in; auto. symmetry; auto. }
  assert (Hlink : forall c, is_leaf g c <-> link g (groot g) c).
  { intros c. split.
    - intros Hl. apply F; [apply Hl|]. intros ->. auto.
    - intros Hl. apply F; [destruct Hl as [e [He [_ <-]]]; apply (ng_wf _ G); auto|].
      intros ->. apply (ng_acyclic _ G (groot g)). apply t_step. auto. }
  assert (Hch : Permutation (children_of g (groot g)) (elementals g)).
  { apply NoDup_Permutation; auto; [apply NoDup_pairs_snd; apply (ng_wf _ G)|].
    intros c. rewrite children_of_link, HEleaf. symmetry. apply Hlink. }
  assert (Hmap : map (carried (elementals g) alts) (elementals g) = alts) by (apply map_carried; auto).
  assert (Htot : Rsum (fun e => oexp (node_mu m par (groot g)) (column ans r_utility e)) (children_of g (groot g)) = total).
  { rewrite (Rsum_perm _ _ _ Hch). unfold total. rewrite <- Hmap at 1. rewrite Rsum_map. apply Rsum_ext.
    intros c Hc. rewrite N1; auto. apply HEleaf; auto. }
  assert (Hcol : forall k a, nth_error alts k = Some a -> exists c, nth_error (elementals g) k = Some c /\
      slot std c = k /\ is_leaf g c /\ carried (elementals g) alts c = a).
  { intros k a Ha. assert (Hk : (k < length alts)%nat) by (apply nth_error_Some; congruence).
    destruct (nth_error (elementals g) k) as [c|] eqn:Ec; [|apply nth_error_None in Ec; lia].
    exists c. split; auto. split; [apply slot_nth; auto; rewrite Hstd, nth_error_app1; auto; lia|].
    split; [apply HEleaf; eapply nth_error_In; eauto|]. eapply carried_nth; eauto. }
  assert (HPc : forall c, is_leaf g c -> column ans r_prob c =
      oexp (node_mu m par (groot g)) (ext_utility m d par (carried (elementals g) alts c)) / total).
  { intros c Hl. rewrite (N5 (groot g) c) by (apply Hlink; auto). rewrite N4, Htot, N1 by auto. lra. }
  split.
  - intros k a Ha. destruct (Hcol k a Ha) as [c [Ec [Es [Hl Hc]]]].
    assert (Q1 := N1 c Hl). assert (Q2 := HPc c Hl). unfold column in Q1, Q2. rewrite HA, Es, Hc in Q1.
    rewrite HA, Es, Hc in Q2. split; auto.
  - intros Hc. rewrite H2.
    + f_equal. f_equal. match goal with |- _ = Rsum ?f _ => rewrite <- (f_equal (Rsum f) Hmap) end. rewrite Rsum_map. apply Rsum_ext. intros c Hin.
      rewrite HPc by (apply HEleaf; auto). auto.
    + intros c Hl. apply Hc. apply (eq_ind _ (fun L => In (carried (elementals g) alts c) L)) with (2 := Hmap).
      apply in_map. apply HEleaf. auto.
Qed.

(** ---------- the graph larch builds when the user gives none ---------- *)
Definition star (root : Z) (l : list Z) : graph := mkG (root :: l) (map (fun a => mkEdge root a true) l) root [].
Lemma star_link root l u v : link (star root l) u v <-> u = root /\ In v l.
Proof.
  unfold link, star. cbn [gedges]. split.
  - intros [e [He [<- <-]]]. apply in_map_iff in He. destruct He as [a [<- Ha]]. auto.
  - intros [-> Hv]. exists (mkEdge root v true). split; auto. apply in_map_iff. eauto.
Qed.
Lemma star_nesting root l : NoDup l -> ~ In root l -> l <> [] -> nesting (star root l) /\ flat (star root l).
Proof.
  intros HN Hr Hne.
  assert (Hb : forall u v, below (star root l) u v -> u = root /\ In v l).
  { intros u v H. induction H as [u v H|u v w H1 IH1 H2 IH2]; [apply star_link; auto|tauto]. }
  split.
  - constructor.
    + split; [constructor; auto|]. split.
      * intros e He. apply in_map_iff in He. destruct He as [a [<- Ha]]. simpl. auto.
      * unfold star. cbn [gedges]. rewrite map_map. cbn [eu TreeModel.ev]. clear Hr Hne Hb.
        induction HN as [|x r H1 H2 IH]; simpl; constructor; auto.
        intros Hin. apply in_map_iff in Hin. destruct Hin as [y [E Hy]]. injection E as ->. auto.
    + intros x Hx. apply Hb in Hx. destruct Hx as [-> Hx]. auto.
    + constructor.
    + intros x [].
    + split; [simpl; auto|]. intros v Hv Hv2. cbn [groot star] in *. destruct Hv as [Hv|Hv]; [congruence|].
      apply t_step. apply star_link. auto.
    + destruct l as [|a l]; [congruence|]. exists a. apply star_link. simpl; auto.
    + intros u u' v H1 H2. apply star_link in H1. apply star_link in H2. destruct H1, H2. congruence.
  - intros c Hc Hc2. cbn [groot star gnodes] in *. destruct Hc as [Hc|Hc]; [congruence|].
    split; [|apply star_link; auto]. split; [simpl; auto|]. intros w Hw. apply star_link in Hw.
    destruct Hw as [ -> _]. auto.
Qed.
Lemma star_leaves root l : ~ In root l -> l <> [] -> leaves (star root l) = l.
Proof.
  intros Hr Hne. unfold leaves. cbn [gnodes star filter].
  assert (Hd : forall c, (outdeg (star root l) c =? 0)%nat = negb (c =? root)%Z).
  { intros c. destruct (Z.eqb_spec c root) as [ ->|Hc].
    - simpl. apply Nat.eqb_neq. unfold outdeg. destruct l as [|a r]; [congruence|].
      unfold succs, star. cbn [gedges map filter eu]. rewrite Z.eqb_refl. simpl. discriminate.
    - simpl. apply Nat.eqb_eq. unfold outdeg, succs. rewrite map_length. apply length_zero_iff_nil.
      apply filter_none. intros e He. apply in_map_iff in He. destruct He as [a [<- _]]. cbn [eu].
      apply Z.eqb_neq. auto. }
  fold (star root l). rewrite Hd, Z.eqb_refl. cbn [negb]. apply filter_all. intros x Hx.
  rewrite Hd. apply negb_true_iff, Z.eqb_neq. intros ->. auto.
Qed.
Lemma initialize_star root codes : NoDup codes ->
  initialize_graph root codes = star root (filter (fun a => negb (a =? root)%Z) codes).
Proof.
  intros HN. unfold initialize_graph.
  assert (E0 : empty_tree root = star root []).
  { unfold empty_tree, add_node. simpl. rewrite Z.eqb_refl. reflexivity. }
  rewrite E0.
  assert (Hgen : forall cs done, NoDup (done ++ cs) -> ~ In root done ->
     fold_left (fun g a => add_node a [] PNone g) cs (star root done) =
     star root (done ++ filter (fun a => negb (a =? root)%Z) cs)).
  { induction cs as [|a cs IH]; intros done Hnd Hrt; cbn [fold_left filter]; [rewrite app_nil_r; auto|].
    assert (Hpre : forall v, ~ In v done -> preds (star root done) v = []).
    { intros v Hv. unfold preds. replace (filter _ _) with (@nil edge); auto. symmetry.
      apply filter_none. intros e He. apply in_map_iff in He. destruct He as [b [<- Hb]]. cbn [TreeModel.ev].
      apply Z.eqb_neq. intros ->. auto. }
    assert (Ha : ~ In a done).
    { intros Ha. apply NoDup_remove_2 in Hnd. apply Hnd. apply in_app_iff. auto. }
    destruct (Z.eqb_spec a root) as [ ->|Hne].
    - assert (Es : add_node root [] PNone (star root done) = star root done).
      { unfold add_node. assert (En : nx_add_node root (star root done) = star root done).
        { unfold nx_add_node. cbn [gnodes star]. unfold zmem. cbn [existsb]. rewrite Z.eqb_refl. auto. }
        rewrite En. cbn [fold_left]. cbn [groot star]. rewrite Z.eqb_refl, andb_false_r. auto. }
      rewrite Es. cbn [negb]. apply IH; auto. apply NoDup_remove_1 in Hnd. auto.
    - cbn [negb].
      assert (Es : add_node a [] PNone (star root done) = star root (done ++ [a])).
      { unfold add_node.
        assert (En : nx_add_node a (star root done) = mkG (root :: done ++ [a]) (map (fun a => mkEdge root a true) done) root []).
        { unfold nx_add_node. replace (zmem a (gnodes (star root done))) with false; auto.
          symmetry. apply not_true_iff_false. rewrite zmem_In. intros [Hx|Hx]; [congruence|auto]. }
        rewrite En. cbn [fold_left]. unfold indeg.
        replace (preds _ a) with (@nil Z) by (symmetry; apply (Hpre a Ha)).
        cbn [length Nat.eqb groot]. replace (a =? root)%Z with false by (symmetry; apply Z.eqb_neq; auto).
        cbn [negb andb]. unfold add_edge, nx_add_edge.
        assert (En1 : forall x es, In x (root :: done ++ [a]) -> nx_add_node x (mkG (root :: done ++ [a]) es root []) = mkG (root :: done ++ [a]) es root []).
        { intros x es Hx. unfold nx_add_node. replace (zmem x _) with true; auto. symmetry. apply zmem_In. auto. }
        rewrite (En1 root) by (simpl; auto). rewrite (En1 a) by (simpl; right; apply in_app_iff; simpl; auto).
        replace (has_edge _ root a) with false.
        - unfold star. cbn [gnodes gedges groot gsugg]. rewrite map_app. reflexivity.
        - symmetry. apply not_true_iff_false. unfold has_edge. rewrite existsb_exists. intros [e [He Hie]].
          cbn [gedges] in He. apply in_map_iff in He. destruct He as [b [<- Hb]]. unfold is_edge in Hie.
          apply andb_prop in Hie. destruct Hie as [_ Hie]. apply Z.eqb_eq in Hie. cbn [TreeModel.ev] in Hie. subst b. auto. }
      rewrite Es. rewrite IH.
      + rewrite <- app_assoc. auto.
      + rewrite <- app_assoc. auto.
      + intros Hin. apply in_app_iff in Hin. destruct Hin as [Hin|[Hin|[]]]; auto. }
  apply (Hgen codes []); auto.
Qed.

(** A model without a graph of its own, on data whose alternatives come in any order: the numbers
    are right, position by position; the labels are the codes in increasing order. *)
Theorem C68_default_graph : forall m d par hold lp0 P0 root codes,
  s_graph m = initialize_graph root codes -> d_alts d = Some codes ->
  NoDup codes -> ~ In root codes -> codes <> [] ->
  positive_mu m par -> sizes_ok m d par codes -> keys_ok m d codes ->
  exists ans, evaluate m d par hold lp0 P0 = Some ans /\
    firstn (length codes) (a_labels ans) = zsort codes /\
    (forall k a, nth_error codes k = Some a ->
       r_prob (a_result ans) k = oexp (node_mu m par root) (ext_utility m d par a) /
         Rsum (fun b => oexp (node_mu m par root) (ext_utility m d par b)) codes).
Proof.
  intros m d par hold lp0 P0 root codes Hg Hd HN Hr Hne HM HZ HK.
  assert (Ef : filter (fun a => negb (a =? root)%Z) codes = codes).
  { apply filter_all. intros a Ha. apply negb_true_iff, Z.eqb_neq. intros ->. auto. }
  rewrite (initialize_star root codes HN), Ef in Hg.
  destruct (star_nesting root codes HN Hr Hne) as [G F]. rewrite <- Hg in G, F.
  assert (Ea : prepared_alts (s_graph m) d = codes) by (unfold prepared_alts; rewrite Hd; auto).
  assert (Eel : elementals (s_graph m) = zsort codes).
  { rewrite elementals_nosugg by (rewrite Hg; auto). rewrite Hg, star_leaves; auto. }
  assert (Elen : length (zsort codes) = length codes) by (apply Permutation_length; apply zsort_perm).
  assert (Egr : groot (s_graph m) = root) by (rewrite Hg; auto).
  destruct (C68_evaluates m d par hold lp0 P0 G) as [ans HE]; [rewrite Ea; auto|rewrite Ea, Eel; auto|].
  exists ans. split; auto. split.
  - destruct (eval_inv m d par hold lp0 P0 G ans HE) as [std [co [ch [nests [_ [_ [_ [_ [Hstd [HA _]]]]]]]]]].
    rewrite HA, Hstd, Eel. rewrite <- Elen. rewrite firstn_app, Nat.sub_diag, firstn_all. apply app_nil_r.
  - destruct (C68_mnl_any_order m d par hold lp0 P0 ans G F HM) as [H _]; try rewrite Ea; auto.
    rewrite Ea, Egr in H. intros k a Hk. apply H. auto.
Qed.

(** ... so the labels are right exactly when the data's codes are in increasing order. *)
Theorem C68_default_labels : forall m d par hold lp0 P0 root codes ans,
  s_graph m = initialize_graph root codes -> d_alts d = Some codes ->
  NoDup codes -> ~ In root codes -> codes <> [] ->
  evaluate m d par hold lp0 P0 = Some ans ->
  ((forall k a, nth_error codes k = Some a -> nth_error (a_labels ans) k = Some a) <->
   StronglySorted Z.le codes).
Proof.
  intros m d par hold lp0 P0 root codes ans Hg Hd HN Hr Hne HE.
  assert (Ef : filter (fun a => negb (a =? root)%Z) codes = codes).
  { apply filter_all. intros a Ha. apply negb_true_iff, Z.eqb_neq. intros ->. auto. }
  rewrite (initialize_star root codes HN), Ef in Hg.
  destruct (star_nesting root codes HN Hr Hne) as [G _]. rewrite <- Hg in G.
  assert (Eel : elementals (s_graph m) = zsort codes).
  { rewrite elementals_nosugg by (rewrite Hg; auto). rewrite Hg, star_leaves; auto. }
  assert (Elen : length (zsort codes) = length codes) by (apply Permutation_length; apply zsort_perm).
  destruct (eval_inv m d par hold lp0 P0 G ans HE) as [std [co [ch [nests [_ [_ [_ [_ [Hstd [HA _]]]]]]]]]].
  rewrite Eel in Hstd. split.
  - intros H. assert (E : codes = zsort codes); [|rewrite E; apply zsort_sorted].
    assert (Hnth : forall k, nth_error codes k = nth_error (zsort codes) k).
    { intros k. destruct (nth_error codes k) as [a|] eqn:E.
      - assert (Hk : (k < length codes)%nat) by (apply nth_error_Some; congruence).
        specialize (H k a E). rewrite HA, Hstd, nth_error_app1 in H by lia. auto.
      - symmetry. apply nth_error_None. apply nth_error_None in E. lia. }
    clear -Hnth. revert Hnth. generalize (zsort codes). induction codes as [|x l IH]; intros l2 H.
    + destruct l2; auto. specialize (H 0%nat). discriminate.
    + destruct l2 as [|y l2]; [specialize (H 0%nat); discriminate|].
      assert (H0 := H 0%nat). injection H0 as ->. f_equal. apply IH. intros k. apply (H (S k)).
  - intros HS k a Hk. assert (E : codes = zsort codes) by (apply sorted_unique; auto; [apply zsort_sorted|symmetry; apply zsort_perm]).
    rewrite HA, Hstd, <- E. rewrite nth_error_app1; auto. apply nth_error_Some. congruence.
Qed.

(** An alternative with the root's code (0 unless another is asked for) is never evaluated
    silently: the widths differ. *)
Theorem C68_root_code_clash : forall m d par hold lp0 P0 root codes,
  s_graph m = initialize_graph root codes -> d_alts d = Some codes ->
  NoDup codes -> In root codes -> (2 <= length codes)%nat ->
  evaluate m d par hold lp0 P0 = None.
Proof.
  intros m d par hold lp0 P0 root codes Hg Hd HN Hr H2. apply C68_stops. left.
  rewrite (initialize_star root codes HN) in Hg.
  set (l := filter (fun a => negb (a =? root)%Z) codes) in *.
  assert (Hl : length codes = S (length l)).
  { assert (Hp : Permutation codes (root :: l)); [|apply Permutation_length in Hp; auto].
    apply NoDup_Permutation; auto.
    - constructor; [|apply NoDup_filter; auto]. intros Hx. apply filter_In in Hx. destruct Hx as [_ Hx].
      rewrite Z.eqb_refl in Hx. discriminate.
    - intros x. simpl. unfold l. rewrite filter_In, negb_true_iff, Z.eqb_neq.
      destruct (Z.eq_dec x root) as [ ->|]; split; intros; tauto || auto. destruct H; [congruence|tauto]. }
  assert (Hne : l <> []) by (intros E; rewrite E in Hl; simpl in Hl; lia).
  assert (Hnr : ~ In root l).
  { intros Hx. apply filter_In in Hx. destruct Hx as [_ Hx]. rewrite Z.eqb_refl in Hx. discriminate. }
  unfold prepared_alts. rewrite Hd, elementals_nosugg by (rewrite Hg; auto). rewrite Hg, star_leaves by auto.
  rewrite (Permutation_length (zsort_perm l)). lia.
Qed.

(** A choice code the data has no alternative for is silently no choice at all. *)
Theorem C68_unknown_choice_refuted : forall m d par hold lp0 P0 ans code,
  let g := s_graph m in let alts := prepared_alts g d in
  nesting g -> positive_mu m par -> NoDup alts -> sizes_ok m d par alts ->
  d_ch d = ChCode code -> ~ In code alts ->
  evaluate m d par hold lp0 P0 = Some ans -> r_loglike (a_result ans) = Some 0.
Proof.
  intros m d par hold lp0 P0 ans code g alts G HM HD HZ Hc Hn HE.
  destruct (C68_answers m d par hold lp0 P0 ans G HM HD HZ HE) as [_ [H _]]. fold g in H. fold alts in H.
  destruct (eval_inv m d par hold lp0 P0 G ans HE) as [std [co [ch [nests [_ [_ [_ [Hlen _]]]]]]]].
  fold g in Hlen. fold alts in Hlen.
  assert (HEN := elementals_perm g (ng_wf _ G) (ng_sugg _ G)).
  assert (HN : NoDup (elementals g)).
  { eapply Permutation_NoDup; [symmetry; exact HEN|]. apply NoDup_filter. apply (ng_wf _ G). }
  assert (Hz : forall c, In c (elementals g) -> chosen d (carried (elementals g) alts c) = 0).
  { intros c Hin. assert (Hin2 : In (carried (elementals g) alts c) alts).
    { apply (eq_ind _ (fun L => In (carried (elementals g) alts c) L)) with (2 := map_carried (elementals g) alts HN (eq_sym Hlen)).
      apply in_map. auto. }
    unfold chosen. rewrite Hc. destruct (Z.eqb_spec code (carried (elementals g) alts c)) as [E|]; auto.
    exfalso. apply Hn. rewrite E. auto. }
  rewrite H.
  - rewrite Rsum_zero; [f_equal; ring|]. intros c Hin. rewrite Hz by auto. ring.
  - intros c Hl Hne. exfalso. apply Hne. apply Hz. eapply Permutation_in; [symmetry; exact HEN|].
    apply in_leaves. auto.
Qed.

(** ---------- cases ---------- *)
(** A nest 10 over alternatives 1 and 3; alternative 2 directly below the root. *)
Definition ex_g : graph := mkG [0; 1; 2; 3; 10]%Z
  [mkEdge 0 2 true; mkEdge 10 1 false; mkEdge 10 3 false; mkEdge 0 10 true]%Z 0%Z [].
Example ex_g_built : add_node 10 [1; 3]%Z PNone (initialize_graph 0 [1; 2; 3]%Z) = ex_g.
Proof. vm_compute. reflexivity. Qed.
Example ex_g_value : gnodes ex_g = [0; 1; 2; 3; 10]%Z /\
  map (fun e => (eu e, TreeModel.ev e)) (gedges ex_g) = [(0, 2); (10, 1); (10, 3); (0, 10)]%Z /\
  elementals ex_g = [1; 2; 3]%Z.
Proof. vm_compute. auto. Qed.
Lemma ex_link u v : link ex_g u v <-> In (u, v) [(0, 2); (10, 1); (10, 3); (0, 10)]%Z.
Proof.
  destruct ex_g_value as [_ [E _]]. rewrite <- E. unfold link. rewrite in_map_iff. split.
  - intros [e [H1 [<- <-]]]. exists e. split; [reflexivity|exact H1].
  - intros [e [H1 H2]]. injection H1 as <- <-. exists e. repeat split; exact H2.
Qed.
Lemma ex_nesting : nesting ex_g.
Proof.
  destruct ex_g_value as [En [Ee _]].
  assert (Hnd : forall l : list Z, (fix nd l := match l with [] => true | x :: r => negb (existsb (Z.eqb x) r) && nd r end) l = true -> NoDup l).
  { induction l as [|x l IH]; intros H; constructor; apply andb_prop in H; destruct H as [H1 H2]; auto.
    intros Hx. apply negb_true_iff in H1. apply not_true_iff_false in H1. apply H1.
    apply existsb_exists. exists x. split; auto. apply Z.eqb_refl. }
  set (rank := fun c : Z => if (c =? 0)%Z then 2%nat else if (c =? 10)%Z then 1%nat else 0%nat).
  assert (Hr : forall u v, below ex_g u v -> (rank v < rank u)%nat).
  { intros u v H. induction H as [u v H|]; [|lia]. apply ex_link in H. simpl in H.
    repeat (destruct H as [H|H]; [injection H as <- <-; vm_compute; lia|]). destruct H. }
  constructor.
  - split; [rewrite En; apply Hnd; reflexivity|]. split.
    + intros e He. assert (H : In (eu e, TreeModel.ev e) [(0, 2); (10, 1); (10, 3); (0, 10)]%Z).
      { rewrite <- Ee. apply in_map_iff. exists e. auto. }
      rewrite En. simpl in H. repeat (destruct H as [H|H]; [injection H as <- <-; simpl; auto 10|]). destruct H.
    + rewrite Ee. repeat constructor; simpl; intuition; try discriminate.
  - intros x Hx. apply Hr in Hx. lia.
  - vm_compute. constructor.
  - intros x Hx. vm_compute in Hx. destruct Hx.
  - split; [rewrite En; simpl; auto|]. intros v Hv Hv0. rewrite En in Hv. 
    change (groot ex_g) with 0%Z in *.
    assert (L : forall u v, In (u, v) [(0, 2); (10, 1); (10, 3); (0, 10)]%Z -> below ex_g u v).
    { intros u w H. apply t_step. apply ex_link. auto. }
    simpl in Hv. destruct Hv as [ <-|[ <-|[ <-|[ <-|[ <-|[]]]]]]; [congruence| | | |].
    + eapply t_trans; [apply (L 0 10)%Z|apply (L 10 1)%Z]; simpl; auto 10.
    + apply L; simpl; auto.
    + eapply t_trans; [apply (L 0 10)%Z|apply (L 10 3)%Z]; simpl; auto 10.
    + apply L; simpl; auto 10.
  - exists 2%Z. apply ex_link. simpl. auto.
  - intros u u' v H1 H2. apply ex_link in H1. apply ex_link in H2. simpl in H1, H2.
    repeat (destruct H1 as [H1|H1]; [injection H1 as <- <-;
       repeat (destruct H2 as [H2|H2]; [injection H2; intros; subst; (reflexivity || discriminate)|]); destruct H2|]).
    destruct H1.
Qed.
(** The nest's logsum parameter is parameter 0; all utilities are 0; alternative 2 is chosen. *)
Definition ex_m : settings := mkSet ex_g (fun c => if (c =? 10)%Z then Some 0%nat else None) [] None [] [].
Definition ex_d (alts : list Z) : case := mkCase (Some alts) (fun _ _ => 0) (fun _ => 0) (ChCode 2) AvAll 1.
Definition ex_par : nat -> R := fun _ => 1 / 2.
(** Its nested logit answer. *)
Definition ex_V : Z -> option R := fun c =>
  if (c =? 0)%Z then Some (ln (1 + exp (1 / 2 * ln 2))) else if (c =? 10)%Z then Some (1 / 2 * ln 2) else Some 0.
Definition ex_P : Z -> R := fun c =>
  let t := 1 + exp (1 / 2 * ln 2) in
  if (c =? 0)%Z then 1 else if (c =? 2)%Z then 1 / t
  else if (c =? 10)%Z then exp (1 / 2 * ln 2) / t else exp (1 / 2 * ln 2) / t * (1 / 2).
Lemma ex_children0 : children_of ex_g 0 = [2; 10]%Z. Proof. vm_compute. auto. Qed.
Lemma ex_children10 : children_of ex_g 10 = [1; 3]%Z. Proof. vm_compute. auto. Qed.
Lemma ex_leaf c : In c (gnodes ex_g) -> ~ is_leaf ex_g c -> c = 0%Z \/ c = 10%Z.
Proof.
  intros H1 H2. destruct (Z.eq_dec c 0); auto. destruct (Z.eq_dec c 10); auto. exfalso. apply H2.
  split; auto. intros w Hw. apply ex_link in Hw. simpl in Hw.
  repeat (destruct Hw as [Hw|Hw]; [injection Hw as <- <-; congruence|]). destruct Hw.
Qed.
Lemma ex_util alts a : ext_utility ex_m (ex_d alts) ex_par a = Some 0.
Proof.
  unfold ext_utility, available, utility_of, idco_utility, log_size, linear_ca. simpl. f_equal. ring.
Qed.
Lemma oexp_0 mu : oexp mu (Some 0) = 1.
Proof. simpl. unfold Rdiv. rewrite Rmult_0_l. apply exp_0. Qed.
Lemma ex_nested alts : nested ex_g (node_mu ex_m ex_par) (ext_utility ex_m (ex_d alts) ex_par) ex_V ex_P.
Proof.
  assert (Mu0 : node_mu ex_m ex_par 0 = 1) by reflexivity.
  assert (Mu10 : node_mu ex_m ex_par 10 = 1 / 2) by reflexivity.
  assert (S0 : Rsum (fun e => oexp 1 (ex_V e)) (children_of ex_g 0) = 1 + exp (1 / 2 * ln 2)).
  { rewrite ex_children0. cbn [Rsum fold_right]. change (ex_V 2) with (Some 0). change (ex_V 10) with (Some (1 / 2 * ln 2)).
    rewrite oexp_0. unfold oexp. replace (1 / 2 * ln 2 / 1) with (1 / 2 * ln 2) by field. lra. }
  assert (S10 : Rsum (fun e => oexp (1 / 2) (ex_V e)) (children_of ex_g 10) = 2).
  { rewrite ex_children10. cbn [Rsum fold_right]. change (ex_V 1) with (Some 0). change (ex_V 3) with (Some 0).
    rewrite oexp_0. lra. }
  constructor.
  - intros c [H1 H2]. rewrite ex_util. unfold ex_V.
    destruct (Z.eqb_spec c 0) as [ ->|]; [exfalso; apply (H2 2%Z); apply ex_link; simpl; auto|].
    destruct (Z.eqb_spec c 10) as [ ->|]; [exfalso; apply (H2 1%Z); apply ex_link; simpl; auto|]. auto.
  - intros c H1 H2 H3. exfalso. destruct (ex_leaf c H1 H2) as [ ->| ->].
    + assert (E : link ex_g 0 2) by (apply ex_link; simpl; auto). specialize (H3 2%Z E). discriminate.
    + assert (E : link ex_g 10 1) by (apply ex_link; simpl; auto). specialize (H3 1%Z E). discriminate.
  - intros c H1 [w [Hw _]]. destruct (ex_leaf c H1) as [ ->| ->].
    + intros [_ H]. apply (H w). auto.
    + rewrite Mu0, S0. unfold ex_V. simpl. f_equal. ring.
    + rewrite Mu10, S10. reflexivity.
  - reflexivity.
  - assert (Ht : 0 < exp (1 / 2 * ln 2)) by apply exp_pos.
    intros c w Hl. apply ex_link in Hl. simpl in Hl.
    destruct Hl as [Hl|[Hl|[Hl|[Hl|[]]]]]; injection Hl as <- <-; rewrite ?Mu0, ?Mu10, ?S0, ?S10.
    + change (ex_V 2) with (Some 0). rewrite oexp_0. unfold ex_P. simpl. field. lra.
    + change (ex_V 1) with (Some 0). rewrite oexp_0. unfold ex_P. simpl. field. lra.
    + change (ex_V 3) with (Some 0). rewrite oexp_0. unfold ex_P. simpl. field. lra.
    + change (ex_V 10) with (Some (1 / 2 * ln 2)). unfold oexp.
      replace (1 / 2 * ln 2 / 1) with (1 / 2 * ln 2) by field. unfold ex_P. simpl. field. lra.
Qed.
Lemma ex_mu : positive_mu ex_m ex_par.
Proof.
  intros c H1 H2. destruct (ex_leaf c H1 H2) as [ ->| ->]; unfold node_mu, ex_par; simpl; lra.
Qed.
Lemma ex_keys alts : keys_ok ex_m (ex_d alts) alts.
Proof. split; simpl; auto. intros f []. Qed.
Lemma ex_sizes alts : sizes_ok ex_m (ex_d alts) ex_par alts.
Proof. intros H. exfalso. apply H. reflexivity. Qed.

(** Sorted data: the log likelihood is the right one, ln P(2). *)
Example C68_own_data_example : exists ans,
  evaluate ex_m (ex_d [1; 2; 3]%Z) ex_par (fun _ => false) (fun _ => None) (fun _ => 0) = Some ans /\
  r_loglike (a_result ans) = Some (ln (1 / (1 + exp (1 / 2 * ln 2)))) /\
  column ans r_prob 1 = exp (1 / 2 * ln 2) / (1 + exp (1 / 2 * ln 2)) * (1 / 2).
Proof.
  assert (Ea : prepared_alts ex_g (ex_d [1; 2; 3]%Z) = elementals ex_g) by (destruct ex_g_value as [_ [_ ->]]; reflexivity).
  destruct (C68_evaluates ex_m (ex_d [1; 2; 3]%Z) ex_par (fun _ => false) (fun _ => None) (fun _ => 0) ex_nesting (ex_keys _)) as [ans HE].
  { change (s_graph ex_m) with ex_g. rewrite Ea. auto. }
  exists ans. split; auto.
  assert (Hz : sizes_ok ex_m (ex_d [1; 2; 3]%Z) ex_par (elementals (s_graph ex_m))) by (intros H; exfalso; apply H; reflexivity).
  destruct (C68_own_data ex_m (ex_d [1; 2; 3]%Z) ex_par _ _ _ ans ex_V ex_P ex_nesting ex_mu Hz Ea (ex_nested [1; 2; 3]%Z) HE) as [H1 [H2 _]].
  split.
  - rewrite H2; [|auto]. change (s_graph ex_m) with ex_g. destruct ex_g_value as [_ [_ ->]]. cbn [Rsum fold_right].
    unfold chosen, ex_d, ex_P. simpl. f_equal. ring.
  - destruct (H1 1%Z) as [_ ->]; [vm_compute; auto|]. reflexivity.
Qed.

(** The same data with its alternatives in another order: the log likelihood is that of another
    alternative. *)
Theorem C68_nested_order_refuted : exists m d par V P ans,
  let g := s_graph m in let alts := prepared_alts g d in
  nesting g /\ positive_mu m par /\ NoDup alts /\ sizes_ok m d par alts /\ keys_ok m d alts /\
  (forall a, In a alts <-> is_leaf g a) /\
  nested g (node_mu m par) (ext_utility m d par) V P /\
  evaluate m d par (fun _ => false) (fun _ => None) (fun _ => 0) = Some ans /\
  r_loglike (a_result ans) <> Some (d_wt d * Rsum (fun c => chosen d c * ln (P c)) (elementals g)).
Proof.
  destruct (C68_evaluates ex_m (ex_d [2; 1; 3]%Z) ex_par (fun _ => false) (fun _ => None) (fun _ => 0) ex_nesting (ex_keys _)) as [ans HE].
  { change (s_graph ex_m) with ex_g. destruct ex_g_value as [_ [_ ->]]. reflexivity. }
  assert (HD : NoDup [2; 1; 3]%Z) by (repeat constructor; simpl; intuition; discriminate).
  exists ex_m, (ex_d [2; 1; 3]%Z), ex_par, ex_V, ex_P, ans.
  split; [apply ex_nesting|]. split; [apply ex_mu|]. split; [exact HD|]. split; [apply ex_sizes|]. split; [apply ex_keys|].
  split.
  { intros a. split.
    - intros Ha. assert (Hn : In a (gnodes ex_g) /\ a <> 0%Z /\ a <> 10%Z).
      { destruct ex_g_value as [ -> _]. simpl in Ha. destruct Ha as [ <-|[ <-|[ <-|[]]]]; simpl; repeat split; auto 10; discriminate. }
      destruct (leaf_dec ex_g a (proj1 Hn)) as [|Hl]; auto. exfalso. destruct (ex_leaf a (proj1 Hn) Hl); tauto.
    - intros Hl. apply in_leaves in Hl. change (leaves (s_graph ex_m)) with [1; 2; 3]%Z in Hl. simpl in *. tauto. }
  split; [apply ex_nested|]. split; [exact HE|].
  destruct (C68_answers ex_m (ex_d [2; 1; 3]%Z) ex_par _ _ _ ans ex_nesting ex_mu HD (ex_sizes _) HE) as [N [H _]].
  assert (Hu : forall c, In c (gnodes ex_g) -> column ans r_prob c = ex_P c).
  { intros c Hc. apply (unique_P ex_g ex_nesting (node_mu ex_m ex_par) _ _ _ _ _ _ N (ex_nested [2; 1; 3]%Z)); [|exact Hc].
    intros x _. rewrite !ex_util. auto. }
  rewrite H by auto. change (s_graph ex_m) with ex_g. destruct ex_g_value as [En [_ ->]]. cbn [Rsum fold_right].
  rewrite !Hu by (rewrite En; simpl; auto 10).
  change (prepared_alts ex_g (ex_d [2; 1; 3]%Z)) with [2; 1; 3]%Z. unfold chosen, carried. cbn [d_ch d_wt ex_d Z.eqb Pos.eqb].
  assert (Ht : 0 < exp (1 / 2 * ln 2)) by apply exp_pos.
  assert (Hs : exp (1 / 2 * ln 2) * exp (1 / 2 * ln 2) = 2).
  { rewrite <- exp_plus. replace (1 / 2 * ln 2 + 1 / 2 * ln 2) with (ln 2) by field. apply exp_ln. lra. }
  change (ex_P 1) with (exp (1 / 2 * ln 2) / (1 + exp (1 / 2 * ln 2)) * (1 / 2)).
  change (ex_P 2) with (1 / (1 + exp (1 / 2 * ln 2))).
  set (r := exp (1 / 2 * ln 2)) in *. intros HH. injection HH as HH.
  assert (Hln : ln (r / (1 + r) * (1 / 2)) = ln (1 / (1 + r))) by lra.
  assert (Hd : 0 < / (1 + r)) by (apply Rinv_0_lt_compat; lra).
  apply ln_inv in Hln.
  - assert (E : r * (1 / 2) = 1).
    { apply (Rmult_eq_reg_r (/ (1 + r))); [|lra]. unfold Rdiv in Hln. lra. }
    nra.
  - unfold Rdiv. apply Rmult_lt_0_compat; [apply Rmult_lt_0_compat; lra|lra].
  - unfold Rdiv. lra.
Qed.

(** Labels: two alternatives in the order 2, 1 and no graph given.  Alternative 2 has probability
    3/4; the column labelled 2 holds 1/4. *)
Theorem C68_labels_refuted : exists m d par ans,
  s_graph m = initialize_graph 0 [2; 1]%Z /\ d_alts d = Some [2; 1]%Z /\
  (forall c, ext_utility m d par c = Some (if (c =? 2)%Z then ln 3 else 0)) /\
  evaluate m d par (fun _ => false) (fun _ => None) (fun _ => 0) = Some ans /\
  column ans r_prob 2 = 1 / 4 /\ column ans r_prob 1 = 3 / 4.
Proof.
  set (m := mkSet (initialize_graph 0 [2; 1]%Z) (fun _ => None) [] None [] [(2%Z, [(1, 0%nat, None)])]).
  set (d := mkCase (Some [2; 1]%Z) (fun _ _ => 0) (fun _ => 0) (ChCode 2) AvAll 1).
  set (par := fun _ : nat => ln 3).
  assert (HD : NoDup [2; 1]%Z) by (repeat constructor; simpl; intuition; discriminate).
  assert (Hr : ~ In 0%Z [2; 1]%Z) by (simpl; intuition; discriminate).
  assert (HM : positive_mu m par) by (intros c _ _; unfold node_mu; simpl; lra).
  assert (Hu : forall c, ext_utility m d par c = Some (if (c =? 2)%Z then ln 3 else 0)).
  { intros c. unfold ext_utility, utility_of, idco_utility, log_size, linear_ca, available.
    cbn [m d s_q s_qs s_ca s_co d_av Rsum fold_right fst snd]. f_equal. rewrite (Z.eqb_sym c 2).
    destruct (2 =? c)%Z; unfold par; ring. }
  destruct (C68_default_graph m d par (fun _ => false) (fun _ => None) (fun _ => 0) 0 [2; 1]%Z) as [ans [HE [HL HP]]]; auto.
  - discriminate.
  - intros H. exfalso. apply H. reflexivity.
  - split; simpl; auto. intros f [ <-|[]]; simpl; auto.
  - exists m, d, par, ans. split; auto. split; auto. split; auto. split; auto.
    assert (Hlab : a_labels ans = [1; 2; 0]%Z).
    { unfold evaluate in HE. destruct (standard_sort (s_graph m)) as [std|] eqn:Es; [|discriminate].
      vm_compute in Es. injection Es as <-.
      destruct (co_slots _ _); [|discriminate]. destruct (choice_array _ _); [|discriminate].
      destruct (_ =? _)%nat; [|discriminate]. injection HE as <-. reflexivity. }
    unfold column. rewrite Hlab. change (slot [1; 2; 0]%Z 2) with 1%nat. change (slot [1; 2; 0]%Z 1) with 0%nat.
    rewrite (HP 1%nat 1%Z eq_refl), (HP 0%nat 2%Z eq_refl). cbn [Rsum fold_right].
    rewrite !Hu. change (node_mu m par 0) with 1.
    replace (oexp 1 (Some (if (2 =? 2)%Z then ln 3 else 0))) with 3 by (simpl; unfold Rdiv; rewrite Rinv_1, Rmult_1_r, exp_ln; lra).
    change (if (1 =? 2)%Z then ln 3 else 0) with 0. rewrite oexp_0. lra.
Qed.

(** Data for other alternatives than the graph's, equal in number, is taken without complaint. *)
Theorem C68_other_alternatives_refuted : exists m d par ans,
  let g := s_graph m in
  nesting g /\ is_leaf g 2 /\ ~ In 2%Z (prepared_alts g d) /\ In 4%Z (prepared_alts g d) /\ ~ In 4%Z (gnodes g) /\
  evaluate m d par (fun _ => false) (fun _ => None) (fun _ => 0) = Some ans /\
  column ans r_utility 2 = ext_utility m d par 4.
Proof.
  destruct (C68_evaluates ex_m (ex_d [1; 4; 3]%Z) ex_par (fun _ => false) (fun _ => None) (fun _ => 0) ex_nesting (ex_keys _)) as [ans HE].
  { change (s_graph ex_m) with ex_g. destruct ex_g_value as [_ [_ ->]]. reflexivity. }
  assert (HD : NoDup [1; 4; 3]%Z) by (repeat constructor; simpl; intuition; discriminate).
  exists ex_m, (ex_d [1; 4; 3]%Z), ex_par, ans.
  destruct (C68_answers ex_m (ex_d [1; 4; 3]%Z) ex_par _ _ _ ans ex_nesting ex_mu HD (ex_sizes _) HE) as [N _].
  assert (Hl : is_leaf ex_g 2).
  { apply in_leaves. change (leaves ex_g) with [1; 2; 3]%Z. simpl. auto. }
  split; [apply ex_nesting|]. split; [exact Hl|]. split; [simpl; intuition; discriminate|]. split; [simpl; auto|].
  split; [destruct ex_g_value as [E _]; change (s_graph ex_m) with ex_g; rewrite E; simpl; intuition; discriminate|].
  split; [exact HE|]. rewrite (nd_leaf _ _ _ _ _ N 2%Z Hl). change (s_graph ex_m) with ex_g.
  destruct ex_g_value as [_ [_ ->]]. reflexivity.
Qed.

(** The hypotheses of the remaining theorems are met. *)
Example C68_suggested_example :
  elementals (suggest_elemental_order [2; 1; 3]%Z ex_g) = [2; 1; 3]%Z /\
  prepared_alts (suggest_elemental_order [2; 1; 3]%Z ex_g) (ex_d [2; 1; 3]%Z) = [2; 1; 3]%Z.
Proof. vm_compute. auto. Qed.
Example C68_sorted_example : prepared_alts ex_g (ex_d [1; 2; 3]%Z) = elementals ex_g.
Proof. vm_compute. auto. Qed.
Example C68_stops_example :
  evaluate ex_m (ex_d [1; 2]%Z) ex_par (fun _ => false) (fun _ => None) (fun _ => 0) = None /\
  evaluate (mkSet ex_g (fun _ => None) [] None [] [(7%Z, [])]) (ex_d [1; 2; 3]%Z) ex_par (fun _ => false) (fun _ => None) (fun _ => 0) = None /\
  evaluate (mkSet (initialize_graph 0 [0; 1; 2]%Z) (fun _ => None) [] None [] []) (ex_d [0; 1; 2]%Z) ex_par (fun _ => false) (fun _ => None) (fun _ => 0) = None.
Proof.
  split; [|split].
  - apply C68_stops. left. change (s_graph ex_m) with ex_g. destruct ex_g_value as [_ [_ ->]]. simpl. lia.
  - apply C68_stops. right. left. exists (7%Z, []). simpl. split; auto. intuition; discriminate.
  - apply (C68_root_code_clash _ _ _ _ _ _ 0 [0; 1; 2]%Z); simpl; auto; try lia.
    repeat constructor; simpl; intuition; discriminate.
Qed.
Example C68_unknown_choice_example : exists ans,
  evaluate ex_m (mkCase (Some [1; 2; 3]%Z) (fun _ _ => 0) (fun _ => 0) (ChCode 9) AvAll 1) ex_par
    (fun _ => false) (fun _ => None) (fun _ => 0) = Some ans /\ r_loglike (a_result ans) = Some 0.
Proof.
  set (d := mkCase (Some [1; 2; 3]%Z) (fun _ _ => 0) (fun _ => 0) (ChCode 9) AvAll 1).
  assert (HK : keys_ok ex_m d [1; 2; 3]%Z) by (split; simpl; auto; intros f []).
  destruct (C68_evaluates ex_m d ex_par (fun _ => false) (fun _ => None) (fun _ => 0) ex_nesting HK) as [ans HE].
  { change (s_graph ex_m) with ex_g. destruct ex_g_value as [_ [_ ->]]. reflexivity. }
  exists ans. split; [exact HE|].
  eapply (C68_unknown_choice_refuted ex_m d ex_par _ _ _ ans 9 ex_nesting ex_mu); [| |reflexivity| |exact HE].
  - repeat constructor; simpl; intuition; discriminate.
  - intros H. exfalso. apply H. reflexivity.
  - simpl. intuition; discriminate.
Qed.
