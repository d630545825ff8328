From Coq Require Import FinFun Relations Permutation.
From Verif Require Export TreeProofs.

Lemma Some_inj {A} (x y : A) : Some x = Some y -> x = y.
Proof. congruence. Qed.
Lemma is_edge_spec u v e : is_edge u v e = true <-> eu e = u /\ ev e = v.
Proof. unfold is_edge. rewrite andb_true_iff, !Z.eqb_eq. tauto. Qed.
Lemma has_edge_spec g u v : has_edge g u v = true <-> link g u v.
Proof.
  unfold has_edge, link. rewrite existsb_exists. split; intros [e [H1 H2]]; exists e.
  - rewrite is_edge_spec in H2. tauto.
  - split; auto. apply is_edge_spec; auto.
Qed.

(** nodes after adding *)
Lemma nx_add_node_nodes c g x : In x (gnodes (nx_add_node c g)) <-> In x (gnodes g) \/ x = c.
Proof.
  unfold nx_add_node. destruct (zmem c (gnodes g)) eqn:E; simpl.
  - apply zmem_In in E. split; [auto|]. intros [H| ->]; auto.
  - rewrite in_app_iff. simpl. intuition congruence.
Qed.
Lemma nx_add_node_edges c g : gedges (nx_add_node c g) = gedges g.
Proof. unfold nx_add_node. destruct (zmem c (gnodes g)); auto. Qed.
Lemma nx_add_node_root c g : groot (nx_add_node c g) = groot g.
Proof. unfold nx_add_node. destruct (zmem c (gnodes g)); auto. Qed.
Lemma NoDup_snoc {A} (l : list A) x : NoDup l -> ~ In x l -> NoDup (l ++ [x]).
Proof.
  intros H1 H2. apply NoDup_app_intro; auto.
  - constructor; auto. constructor.
  - intros y Hy [ ->|[]]. auto.
Qed.
Lemma nx_add_node_wf c g : gwf g -> gwf (nx_add_node c g).
Proof.
  intros [H1 [H2 H3]]. split; [|split].
  - unfold nx_add_node. destruct (zmem c (gnodes g)) eqn:E; simpl; auto.
    apply NoDup_snoc; auto. apply zmem_nIn; auto.
  - intros e. rewrite nx_add_node_edges, !nx_add_node_nodes. intros He. apply H2 in He. tauto.
  - rewrite nx_add_node_edges. auto.
Qed.

Definition nx2 u v g := nx_add_node v (nx_add_node u g).
Lemma nx2_edges u v g : gedges (nx2 u v g) = gedges g.
Proof. unfold nx2. rewrite !nx_add_node_edges. auto. Qed.
Lemma nx_add_edge_nodes u v imp g x :
  In x (gnodes (nx_add_edge u v imp g)) <-> In x (gnodes g) \/ x = u \/ x = v.
Proof.
  unfold nx_add_edge. fold (nx2 u v g).
  destruct (has_edge (nx2 u v g) u v); simpl; unfold nx2; rewrite !nx_add_node_nodes; tauto.
Qed.
Lemma nx_add_edge_root u v imp g : groot (nx_add_edge u v imp g) = groot g.
Proof.
  unfold nx_add_edge. fold (nx2 u v g).
  destruct (has_edge (nx2 u v g) u v); simpl; unfold nx2; rewrite !nx_add_node_root; auto.
Qed.
Lemma nx_add_edge_in u v imp g e :
  In e (gedges (nx_add_edge u v imp g)) <->
  (e = mkEdge u v imp) \/ (In e (gedges g) /\ ~ (eu e = u /\ ev e = v)).
Proof.
  unfold nx_add_edge. fold (nx2 u v g).
  destruct (has_edge (nx2 u v g) u v) eqn:E; simpl; rewrite nx2_edges.
  - rewrite in_map_iff. split.
    + intros [x [Hx Hin]]. destruct (is_edge u v x) eqn:Ei; [auto|]. right. subst.
      split; auto. rewrite <- is_edge_spec. congruence.
    + intros [ ->|[H1 H2]].
      * apply has_edge_spec in E. destruct E as [x [Hx He]]. rewrite nx2_edges in Hx.
        exists x. split; auto. apply is_edge_spec in He. rewrite He. auto.
      * exists e. split; auto. rewrite <- is_edge_spec in H2.
        destruct (is_edge u v e); auto. congruence.
  - rewrite in_app_iff. simpl. split.
    + intros [H|[H|[]]]; auto. right. split; auto. intros He.
      rewrite <- not_true_iff_false, has_edge_spec in E. apply E.
      exists e. rewrite nx2_edges. auto.
    + intros [H|[H1 _]]; auto.
Qed.
Lemma nx_add_edge_link u v imp g a b :
  link (nx_add_edge u v imp g) a b <-> link g a b \/ (a = u /\ b = v).
Proof.
  unfold link. split.
  - intros [e [He [Ha Hb]]]. apply nx_add_edge_in in He. destruct He as [ ->|[H1 H2]]; simpl in *; eauto.
  - intros [[e [He [Ha Hb]]]|[ -> ->]].
    + destruct (Z.eq_dec a u) as [Eu|Eu]; [destruct (Z.eq_dec b v) as [Ev|Ev]|].
      * exists (mkEdge u v imp). rewrite nx_add_edge_in. simpl. auto.
      * exists e. rewrite nx_add_edge_in. split; auto. right. split; auto. intros [? ?]; congruence.
      * exists e. rewrite nx_add_edge_in. split; auto. right. split; auto. intros [? ?]; congruence.
    + exists (mkEdge u v imp). rewrite nx_add_edge_in. simpl. auto.
Qed.
Lemma nx_add_edge_wf u v imp g : gwf g -> gwf (nx_add_edge u v imp g).
Proof.
  intros Hg. assert (H2 : gwf (nx2 u v g)) by (apply nx_add_node_wf, nx_add_node_wf; auto).
  split; [|split].
  - unfold nx_add_edge. fold (nx2 u v g).
    destruct (has_edge (nx2 u v g) u v); simpl; apply H2.
  - intros e He. rewrite !nx_add_edge_nodes. apply nx_add_edge_in in He.
    destruct He as [ ->|[H1 _]]; simpl; [tauto|]. apply Hg in H1. tauto.
  - unfold nx_add_edge. fold (nx2 u v g).
    destruct (has_edge (nx2 u v g) u v) eqn:E; simpl.
    + rewrite map_map. erewrite map_ext; [apply H2|]. intros e. simpl.
      destruct (is_edge u v e) eqn:Ei; auto. apply is_edge_spec in Ei. simpl. destruct Ei; subst; auto.
    + rewrite map_app. simpl. apply NoDup_snoc; [apply H2|].
      rewrite in_map_iff. intros [e [He Hin]]. injection He as Ha Hb.
      rewrite <- not_true_iff_false, has_edge_spec in E. apply E. exists e; auto.
Qed.

Lemma filter_edges_wf f g : gwf g -> gwf (mkG (gnodes g) (filter f (gedges g)) (groot g) (gsugg g)).
Proof.
  intros [H1 [H2 H3]]. split; [|split]; simpl; auto.
  - intros e He. apply filter_In in He. apply H2. tauto.
  - apply NoDup_map_filter; auto.
Qed.
Lemma drop_implied_wf v g : gwf g -> gwf (drop_implied_into v g).
Proof. apply filter_edges_wf. Qed.
Lemma add_edge_wf u v imp g : gwf g -> gwf (add_edge u v imp g).
Proof. intros H. unfold add_edge. apply nx_add_edge_wf. destruct imp; auto using drop_implied_wf. Qed.
Lemma add_edge_nodes u v imp g x :
  In x (gnodes (add_edge u v imp g)) <-> In x (gnodes g) \/ x = u \/ x = v.
Proof. unfold add_edge. rewrite nx_add_edge_nodes. destruct imp; simpl; tauto. Qed.
Lemma add_edge_root u v imp g : groot (add_edge u v imp g) = groot g.
Proof. unfold add_edge. rewrite nx_add_edge_root. destruct imp; auto. Qed.
Lemma add_edge_in u v imp g e :
  In e (gedges (add_edge u v imp g)) <->
  e = mkEdge u v imp \/
  (In e (gedges g) /\ ~ (eu e = u /\ ev e = v) /\ (imp = false -> ~ (ev e = v /\ eimp e = true))).
Proof.
  unfold add_edge. rewrite nx_add_edge_in. destruct imp; simpl.
  - split; intros [H|H]; auto; right; intuition congruence.
  - rewrite filter_In, negb_true_iff, andb_false_iff, Z.eqb_neq.
    split; (intros [H|H]; [auto|right]).
    + destruct H as [[H1 H2] H3]. split; [auto|]. split; auto. intros _ [H4 H5]. destruct H2; congruence.
    + destruct H as [H1 [H2 H3]]. split; auto. split; auto.
      destruct (Z.eq_dec (ev e) v); auto. right. destruct (eimp e); auto. exfalso. apply H3; auto.
Qed.
Lemma remove_edge_wf u v g g' : gwf g -> remove_edge u v g = Some g' -> gwf g'.
Proof.
  intros H. unfold remove_edge, nx_remove_edge. destruct (has_edge g u v); [|discriminate].
  assert (H1 : gwf (nx_del_edge u v g)) by (apply filter_edges_wf; auto).
  destruct (_ && _); intros E; injection E as <-; auto. apply add_edge_wf; auto.
Qed.
Lemma fold_wf {A} (f : graph -> A -> graph) l g :
  (forall h x, gwf h -> gwf (f h x)) -> gwf g -> gwf (fold_left f l g).
Proof. revert g. induction l as [|a l IH]; simpl; intros g Hf Hg; auto. Qed.
Lemma add_node_wf c ch pa g : gwf g -> gwf (add_node c ch pa g).
Proof.
  intros H. unfold add_node.
  assert (H2 : gwf (fold_left (fun h x => add_edge c x false h) ch (nx_add_node c g))).
  { apply fold_wf; [intros; apply add_edge_wf; auto|apply nx_add_node_wf; auto]. }
  destruct pa.
  - destruct (_ && _); auto using add_edge_wf.
  - auto using add_edge_wf.
  - apply fold_wf; auto. intros; apply add_edge_wf; auto.
Qed.
Lemma nx_del_node_wf n g : gwf g -> gwf (nx_del_node n g).
Proof.
  intros [H1 [H2 H3]]. split; [|split]; simpl.
  - apply NoDup_filter; auto.
  - intros e He. apply filter_In in He. destruct He as [He Hn].
    apply andb_prop in Hn. destruct Hn as [Ha Hb]. destruct (H2 e He).
    split; apply filter_In; auto.
  - apply NoDup_map_filter; auto.
Qed.
Lemma remove_node_wf n g g' : gwf g -> remove_node n g = Some g' -> gwf g'.
Proof.
  intros H. unfold remove_node, nx_remove_node. destruct (zmem n (gnodes g)); [|discriminate].
  intros E. injection E as <-. apply fold_wf; [|apply nx_del_node_wf; auto].
  intros h e Hh. apply fold_wf; auto. intros; apply nx_add_edge_wf; auto.
Qed.
Lemma set_root_wf x g g' : gwf g -> set_root_id x g = Some g' -> gwf g'.
Proof.
  intros H. unfold set_root_id.
  destruct (remove_node (groot g) g) as [g1|] eqn:E; [|discriminate].
  assert (H1 : gwf g1) by (eapply remove_node_wf; eauto).
  intros E2. apply Some_inj in E2. rewrite <- E2. apply fold_wf; [intros; apply add_edge_wf; auto|].
  assert (gwf (mkG (gnodes g1) (gedges g1) x (gsugg g1))) by exact H1.
  destruct (zmem x _); auto. apply add_node_wf; auto.
Qed.
Lemma new_node_wf c ch pa g c' g' : gwf g -> new_node c ch pa g = NewNode c' g' -> gwf g'.
Proof.
  intros H. unfold new_node. destruct c as [c|].
  - destruct (zmem c (gnodes g)); [discriminate|]. intros E; injection E as <- <-. apply add_node_wf; auto.
  - destruct (free_code _ _ _); [|discriminate]. intros E; injection E as <- <-. apply add_node_wf; auto.
Qed.
Lemma cg_upd t og : cg (upd t og) = match og with Some g => g | None => cg t end.
Proof. destruct og; auto. Qed.
Lemma cg_read_elem t : cg (snd (read_elem t)) = cg t.
Proof. unfold read_elem. destruct (celem t); auto. Qed.
Lemma cg_read_std t : cg (snd (read_std t)) = cg t.
Proof.
  unfold read_std. destruct (cstd t); auto. assert (H := cg_read_elem t).
  destruct (read_elem t) as [[e|] t1]; simpl in *; auto. destruct (nests_sorted (cg t)); auto.
Qed.

Lemma cstep_wf t o : gwf (cg t) -> gwf (cg (cstep t o)).
Proof.
  intros H. destruct o as [u v imp|u v|c ch pa|c ch pa|n|x| | |o|es]; cbn [cstep];
    rewrite ?cg_upd, ?cg_read_std, ?cg_read_elem; auto.
  - apply add_edge_wf; auto.
  - destruct (remove_edge u v (cg t)) eqn:E; auto. eapply remove_edge_wf; eauto.
  - apply add_node_wf; auto.
  - destruct (new_node c ch pa (cg t)) eqn:E; auto. rewrite cg_upd. eapply new_node_wf; eauto.
  - destruct (remove_node n (cg t)) eqn:E; auto. eapply remove_node_wf; eauto.
  - destruct (set_root_id x (cg t)) eqn:E; auto. eapply set_root_wf; eauto.
  - simpl. apply fold_wf; auto. intros; apply nx_add_edge_wf; auto.
Qed.
Lemma empty_wf r : gwf (empty_tree r).
Proof.
  unfold empty_tree. apply add_node_wf. split; [constructor|split; simpl; [tauto|constructor]].
Qed.
Lemma hist_wf t ops : gwf (cg t) -> gwf (cg (fold_left cstep ops t)).
Proof. revert t. induction ops; simpl; auto using cstep_wf. Qed.

(** ---------- parents ---------- *)
Record TInv (g : graph) : Prop := {
  tv_wf : gwf g;
  tv_root : In (groot g) (gnodes g);
  tv_orph : no_orphans g;
  tv_imp : implied_alone g;
  tv_impr : forall e, In e (gedges g) -> eimp e = true -> eu e = groot g
}.

(** weaker invariant used while a node [c] (not yet given a parent) is being added *)
Definition orphans_but (c : Z) (g : graph) : Prop :=
  forall v, In v (gnodes g) -> v <> groot g -> v <> c -> exists u, link g u v.

Lemma add_edge_link_other u v g a b : a <> u \/ b <> v -> b <> v ->
  link (add_edge u v false g) a b <-> link g a b.
Proof.
  intros _ Hb. unfold link. split; intros [e [He [Ha Hbb]]]; exists e; (split; [|auto]).
  - apply add_edge_in in He. destruct He as [ ->|[H1 _]]; simpl in *; auto. congruence.
  - apply add_edge_in. right. split; auto. split; [|intros _]; intros [? ?]; congruence.
Qed.
Lemma add_edge_link_new u v imp g : link (add_edge u v imp g) u v.
Proof. exists (mkEdge u v imp). rewrite add_edge_in. simpl. auto. Qed.

Record TInvB (c : Z) (g : graph) : Prop := {
  tb_wf : gwf g;
  tb_root : In (groot g) (gnodes g);
  tb_orph : orphans_but c g;
  tb_imp : implied_alone g;
  tb_impr : forall e, In e (gedges g) -> eimp e = true -> eu e = groot g
}.
Lemma TInv_B c g : TInv g -> TInvB c g.
Proof. intros []. constructor; auto. intros v Hv Hr _. auto. Qed.

Lemma add_edge_B c u v g : TInvB c g -> (In u (gnodes g) \/ u = c) -> TInvB c (add_edge u v false g).
Proof.
  intros [W R O I J] Hu. constructor.
  - apply add_edge_wf; auto.
  - rewrite add_edge_root, add_edge_nodes. auto.
  - intros x Hx Hr Hc. rewrite add_edge_root in Hr. rewrite add_edge_nodes in Hx.
    destruct (Z.eq_dec x v) as [ ->|Hne]; [exists u; apply add_edge_link_new|].
    assert (Hin : In x (gnodes g)).
    { destruct Hx as [H|[H|H]]; auto; subst; [|congruence]. destruct Hu; auto. congruence. }
    destruct (O x Hin Hr Hc) as [w Hw]. exists w. apply add_edge_link_other; auto.
  - intros e e' He He' Hv Himp. apply add_edge_in in He. apply add_edge_in in He'.
    destruct He as [ ->|[H1 [H2 H3]]]; [discriminate|].
    destruct He' as [ ->|[H1' [H2' H3']]].
    + simpl in *. exfalso. apply H3; auto.
    + eapply I; eauto.
  - intros e He Himp. rewrite add_edge_root. apply add_edge_in in He.
    destruct He as [ ->|[H1 _]]; [discriminate|auto].
Qed.
Lemma add_edges_from_B c l g : TInvB c g -> In c (gnodes g) ->
  TInvB c (fold_left (fun h x => add_edge c x false h) l g).
Proof.
  revert g. induction l as [|x l IH]; simpl; intros g H Hc; auto.
  apply IH; [apply add_edge_B; auto|]. rewrite add_edge_nodes; auto.
Qed.
Lemma nx_add_node_B c g : TInv g -> TInvB c (nx_add_node c g).
Proof.
  intros [W R O I J]. constructor.
  - apply nx_add_node_wf; auto.
  - rewrite nx_add_node_root, nx_add_node_nodes; auto.
  - intros x Hx Hr Hc. rewrite nx_add_node_root in Hr. rewrite nx_add_node_nodes in Hx.
    destruct Hx as [Hx|Hx]; [|congruence]. destruct (O x Hx Hr) as [u [e He]].
    exists u, e. rewrite nx_add_node_edges. auto.
  - unfold implied_alone. rewrite nx_add_node_edges. auto.
  - rewrite nx_add_node_edges, nx_add_node_root. auto.
Qed.
Lemma B_TInv c g : TInvB c g -> (exists u, link g u c) \/ c = groot g -> TInv g.
Proof.
  intros [W R O I J] H. constructor; auto. intros v Hv Hr.
  destruct (Z.eq_dec v c) as [ ->|Hne]; auto. destruct H; [auto|congruence].
Qed.
Lemma add_implied_inv c g : TInvB c g -> In c (gnodes g) -> (forall u, ~ link g u c) ->
  c <> groot g -> TInv (add_edge (groot g) c true g).
Proof.
  intros [W R O I J] Hc Hn Hr. constructor.
  - apply add_edge_wf; auto.
  - rewrite add_edge_root, add_edge_nodes; auto.
  - intros x Hx Hrx. rewrite add_edge_root in Hrx. rewrite add_edge_nodes in Hx.
    destruct (Z.eq_dec x c) as [ ->|Hne]; [exists (groot g); apply add_edge_link_new|].
    assert (Hin : In x (gnodes g)) by (destruct Hx as [?|[?|?]]; subst; auto).
    destruct (O x Hin Hrx Hne) as [w [e [He Hw]]]. exists w, e. split; auto.
    apply add_edge_in. right. split; auto. split; [|discriminate]. intros [? ?].
    destruct Hw; congruence.
  - intros e e' He He' Hv Himp. apply add_edge_in in He. apply add_edge_in in He'.
    destruct He as [ ->|[H1 [H2 _]]], He' as [ ->|[H1' [H2' _]]]; simpl in *; auto.
    + exfalso. apply (Hn (eu e')). exists e'. auto.
    + exfalso. apply (Hn (eu e)). exists e. auto.
  - intros e He Himp. rewrite add_edge_root. apply add_edge_in in He.
    destruct He as [ ->|[H1 _]]; auto.
Qed.

Lemma add_node_inv c ch pa g : TInv g ->
  match pa with PNone => True | POne p => In p (gnodes g)
              | PMany ps => ps <> [] /\ forall p, In p ps -> In p (gnodes g) end ->
  TInv (add_node c ch pa g).
Proof.
  intros H Hpa. unfold add_node.
  assert (H1 := nx_add_node_B c g H).
  assert (Hc1 : In c (gnodes (nx_add_node c g))) by (apply nx_add_node_nodes; auto).
  assert (H2 := add_edges_from_B c ch _ H1 Hc1).
  set (g2 := fold_left (fun h x => add_edge c x false h) ch (nx_add_node c g)) in *.
  assert (Hsub : forall x, In x (gnodes (nx_add_node c g)) -> In x (gnodes g2)).
  { unfold g2. generalize (nx_add_node c g). clear. induction ch as [|y ch IH]; simpl; intros g x Hx; auto.
    apply IH. rewrite add_edge_nodes. auto. }
  assert (Hr2 : groot g2 = groot g).
  { unfold g2. rewrite <- (nx_add_node_root c g). generalize (nx_add_node c g). clear.
    induction ch as [|y ch IH]; simpl; intros g; auto. rewrite IH. apply add_edge_root. }
  destruct pa as [|p|ps].
  - destruct (indeg g2 c =? 0)%nat eqn:E1; simpl.
    + rewrite indeg_zero in E1. destruct (Z.eqb_spec c (groot g2)) as [E2|E2]; simpl.
      * apply (B_TInv c); auto.
      * apply add_implied_inv; auto.
    + apply (B_TInv c); auto. left. unfold indeg in E1. apply Nat.eqb_neq in E1.
      destruct (preds g2 c) as [|u l] eqn:Ep; [simpl in E1; congruence|].
      exists u. apply in_preds. rewrite Ep. left; auto.
  - apply (B_TInv c).
    + apply add_edge_B; auto. left. apply Hsub. apply nx_add_node_nodes; auto.
    + left. exists p. apply add_edge_link_new.
  - destruct Hpa as [Hne Hps].
    assert (Hall : forall p, In p ps -> In p (gnodes g2)).
    { intros p Hp. apply Hsub. apply nx_add_node_nodes; auto. }
    clearbody g2. clear -H2 Hne Hall.
    assert (Hgen : forall ps h, TInvB c h -> (forall p, In p ps -> In p (gnodes h)) ->
              (exists u, link h u c) -> TInv (fold_left (fun h p => add_edge p c false h) ps h)).
    { clear. induction ps as [|p ps IH]; simpl; intros h Hh Hp Hl.
      - apply (B_TInv c); auto.
      - apply IH; [apply add_edge_B; auto| |exists p; apply add_edge_link_new].
        intros q Hq. rewrite add_edge_nodes. auto. }
    destruct ps as [|p ps]; [congruence|]. simpl. apply Hgen.
    + apply add_edge_B; auto. left. apply Hall. left; auto.
    + intros q Hq. rewrite add_edge_nodes. left. apply Hall. right; auto.
    + exists p. apply add_edge_link_new.
Qed.

Lemma del_edge_B u v g : TInv g -> TInvB v (nx_del_edge u v g).
Proof.
  intros [W R O I J]. constructor; simpl; auto.
  - apply filter_edges_wf; auto.
  - intros x Hx Hr Hc. destruct (O x Hx Hr) as [w [e [He [H1 H2]]]]. exists w, e. split; auto.
    simpl. apply filter_In. split; auto. destruct (is_edge u v e) eqn:E; auto.
    apply is_edge_spec in E. destruct E; congruence.
  - intros e e' He He'. simpl in *. apply filter_In in He. apply filter_In in He'. apply I; tauto.
  - intros e He. apply filter_In in He. apply J; tauto.
Qed.
Lemma remove_edge_inv u v g g' : TInv g -> remove_edge u v g = Some g' -> TInv g'.
Proof.
  intros H. unfold remove_edge, nx_remove_edge. destruct (has_edge g u v) eqn:Eh; [|discriminate].
  assert (HB := del_edge_B u v g H). intros E.
  apply has_edge_spec in Eh. destruct (link_nodes g u v (tv_wf _ H) Eh) as [_ Hv].
  destruct (indeg (nx_del_edge u v g) v =? 0)%nat eqn:E1; simpl in E.
  - destruct (Z.eqb_spec v (groot g)) as [E2|E2]; simpl in E; injection E as <-.
    + apply (B_TInv v); auto.
    + apply (add_implied_inv v (nx_del_edge u v g)); auto. apply indeg_zero; auto.
  - injection E as <-. apply (B_TInv v); auto. left. unfold indeg in E1. apply Nat.eqb_neq in E1.
      destruct (preds (nx_del_edge u v g) v) as [|w l] eqn:Ep; [simpl in E1; congruence|].
      exists w. apply in_preds. rewrite Ep. left; auto.
Qed.

(** remove_node: the double loop adds h -> c for every head h and child edge *)
Lemma relink_inner hs c imp h0 :
  let h := fold_left (fun h' hd => nx_add_edge hd c imp h') hs h0 in
  groot h = groot h0 /\
  (forall x, In x (gnodes h) <-> In x (gnodes h0) \/ (In x hs) \/ (hs <> [] /\ x = c)) /\
  (forall a b, link h a b <-> link h0 a b \/ (In a hs /\ b = c)) /\
  (forall e, In e (gedges h) -> In e (gedges h0) \/ (In (eu e) hs /\ ev e = c /\ eimp e = imp)).
Proof.
  revert h0. induction hs as [|hd hs IH]; intros h0; cbn [fold_left].
  - simpl. repeat split; intros; try tauto.
  - specialize (IH (nx_add_edge hd c imp h0)). cbv zeta in *.
    destruct IH as [I1 [I2 [I3 I4]]]. split; [rewrite I1; apply nx_add_edge_root|].
    split; [|split].
    + intros x. rewrite I2, nx_add_edge_nodes. simpl. split; [|].
      * intros [[H|[H|H]]|[H|[H1 H2]]]; subst; auto; right; right; split; [discriminate|auto|discriminate|auto].
      * intros [H|[[H|H]|[H1 H2]]]; subst; auto.
    + intros a b. rewrite I3, nx_add_edge_link. simpl. intuition congruence.
    + intros e He. apply I4 in He. destruct He as [He|He]; [|simpl; tauto].
      apply nx_add_edge_in in He. destruct He as [ ->|[He _]]; simpl; auto.
Qed.
Lemma relink_outer hs es : forall h0,
  let h := fold_left (fun h e => fold_left (fun h' hd => nx_add_edge hd (ev e) (eimp e) h') hs h) es h0 in
  groot h = groot h0 /\
  (forall x, In x (gnodes h) -> In x (gnodes h0) \/ (In x hs /\ es <> []) \/ (exists e, In e es /\ ev e = x /\ hs <> [])) /\
  (forall x, In x (gnodes h0) -> In x (gnodes h)) /\
  (forall a b, link h a b <-> link h0 a b \/ (In a hs /\ exists e, In e es /\ ev e = b)) /\
  (forall e, In e (gedges h) -> In e (gedges h0) \/
       (In (eu e) hs /\ exists e0, In e0 es /\ ev e0 = ev e /\ eimp e0 = eimp e)).
Proof.
  induction es as [|e0 es IH]; intros h0; cbn [fold_left].
  - cbv zeta. split; [auto|]. split; [auto|]. split; [auto|]. split.
    + intros a b; split; auto. intros [H|[_ [e [[] _]]]]; auto.
    + auto.
  - cbv zeta in *. destruct (relink_inner hs (ev e0) (eimp e0) h0) as [J1 [J2 [J3 J4]]].
    destruct (IH (fold_left (fun h' hd => nx_add_edge hd (ev e0) (eimp e0) h') hs h0)) as [I1 [I2 [I3 [I4 I5]]]].
    split; [rewrite I1; auto|]. split; [|split; [|split]].
    + intros x Hx. apply I2 in Hx. rewrite J2 in Hx. destruct Hx as [[H|[H|[H1 H2]]]|[[H _]|[e [H1 [H2 H3]]]]].
      * auto.
      * right; left; split; [auto|discriminate].
      * right; right. exists e0. simpl; auto.
      * right; left; split; [auto|discriminate].
      * right; right. exists e. simpl; auto.
    + intros x Hx. apply I3. apply J2. auto.
    + intros a b. rewrite I4, J3. simpl. split.
      * intros [[H|[H1 H2]]|[H1 [e [H2 H3]]]]; auto; right; split; auto; [exists e0|exists e]; auto.
      * intros [H|[H1 [e [[ ->|H2] H3]]]]; auto. right. split; eauto.
    + intros e He. apply I5 in He. destruct He as [He|[He [e1 H1]]].
      * apply J4 in He. destruct He as [He|[H1 [H2 H3]]]; auto. right. split; auto. exists e0. simpl; auto.
      * right. split; auto. exists e1. simpl; tauto.
Qed.

Lemma remove_node_inv n g g' : TInv g -> n <> groot g -> remove_node n g = Some g' -> TInv g'.
Proof.
  intros H Hnr Hrem. assert (Hwf' := remove_node_wf n g g' (tv_wf _ H) Hrem).
  unfold remove_node, nx_remove_node in Hrem.
  destruct (zmem n (gnodes g)) eqn:En; [|discriminate]. apply zmem_In in En.
  injection Hrem as Hg'.
  set (es := filter (fun e => eu e =? n) (gedges g)) in *.
  set (hs := preds g n) in *.
  destruct (relink_outer hs es (nx_del_node n g)) as [R1 [R2 [R3 [R4 R5]]]]. 
  cbv zeta in *. rewrite Hg' in *. simpl in R1.
  destruct H as [W R O I J].
  assert (Hes : forall e, In e es <-> In e (gedges g) /\ eu e = n).
  { intros e. unfold es. rewrite filter_In, Z.eqb_eq. tauto. }
  assert (Hhs : hs <> []).
  { destruct (O n En Hnr) as [u Hu]. apply in_preds in Hu. intros E. fold hs in Hu. rewrite E in Hu. auto. }
  assert (Hlink0 : forall a b, link (nx_del_node n g) a b <-> link g a b /\ a <> n /\ b <> n).
  { intros a b. unfold link. simpl. split.
    - intros [e [He [H1 H2]]]. apply filter_In in He. destruct He as [He Hb].
      apply andb_prop in Hb. rewrite !negb_true_iff, !Z.eqb_neq in Hb. subst. split; [|tauto]. exists e; auto.
    - intros [[e [He [H1 H2]]] [H3 H4]]. exists e. split; auto. apply filter_In. split; auto.
      subst. apply Z.eqb_neq in H3. apply Z.eqb_neq in H4. rewrite H3, H4. auto. }
  constructor; auto.
  - rewrite R1. apply R3. simpl. apply filter_In. split; auto.
    apply negb_true_iff. apply Z.eqb_neq. auto.
  - intros v Hv Hr. rewrite R1 in Hr.
    destruct hs as [|h0 hs'] eqn:Ehs; [congruence|].
    destruct (Z.eq_dec v n) as [ ->|Hvn].
    + apply R2 in Hv. destruct Hv as [Hv|[[Hv _]|[e [He [Hv _]]]]].
      * simpl in Hv. apply filter_In in Hv. rewrite Z.eqb_refl in Hv. destruct Hv; discriminate.
      * rewrite <- Ehs in Hv. apply in_preds in Hv. destruct Hv as [e [He [H1 H2]]].
        exists h0. apply R4. right. split; [left; auto|]. exists e. split; auto. apply Hes. auto.
      * exists h0. apply R4. right. split; [left; auto|]. exists e. auto.
    + assert (Hvg : In v (gnodes g)).
      { apply R2 in Hv. destruct Hv as [Hv|[[Hv _]|[e [He [Hv _]]]]].
        - simpl in Hv. apply filter_In in Hv. tauto.
        - rewrite <- Ehs in Hv. apply in_preds in Hv. apply (link_nodes g _ _ W Hv).
        - apply Hes in He. subst v. apply W. tauto. }
      destruct (O v Hvg Hr) as [u Hu]. destruct (Z.eq_dec u n) as [ ->|Hun].
      * exists h0. apply R4. right. split; [left; auto|]. destruct Hu as [e [He [H1 H2]]].
        exists e. split; auto. apply Hes. auto.
      * exists u. apply R4. left. apply Hlink0. auto.
  - (* implied edges remain alone *)
    assert (Hnoimp : forall e, In e es -> eimp e = false).
    { intros e He. destruct (eimp e) eqn:Ei; auto. apply Hes in He. destruct He as [He1 He2].
      exfalso. apply Hnr. rewrite <- He2. apply J; auto. }
    intros e e' He He' Hv Himp.
    apply R5 in He. apply R5 in He'.
    destruct He as [He|[_ [e0 [H1 [_ H2]]]]].
    2:{ rewrite (Hnoimp e0 H1) in H2. congruence. }
    simpl in He. apply filter_In in He. destruct He as [He Hb].
    destruct He' as [He'|[H1 [e0 [H2 [H3 H4]]]]].
    + simpl in He'. apply filter_In in He'. destruct He' as [He' _]. eapply I; eauto.
    + apply Hes in H2. destruct H2 as [H2 H5].
      assert (E : eu e0 = eu e) by (apply (I e e0); auto; congruence).
      rewrite H5 in E. apply andb_prop in Hb. destruct Hb as [Hb _].
      rewrite <- E, Z.eqb_refl in Hb. discriminate.
  - intros e He Himp. rewrite R1. apply R5 in He. destruct He as [He|[_ [e0 [H1 [_ H2]]]]].
    + simpl in He. apply filter_In in He. apply J; tauto.
    + apply Hes in H1. destruct H1 as [H1 H3]. exfalso. apply Hnr. rewrite <- H3.
      apply J; auto. congruence.
Qed.

Lemma suggest_inv o g : TInv g -> TInv (suggest_elemental_order o g).
Proof. intros []. constructor; auto. Qed.
Lemma cstep_inv t o : TInv (cg t) -> good_op (cg t) o -> TInv (cg (cstep t o)).
Proof.
  intros H. destruct o as [u v imp|u v|c ch pa|c ch pa|n|x| | |o|es]; cbn [cstep good_op];
    rewrite ?cg_upd, ?cg_read_std, ?cg_read_elem; intros Ho; auto; try tauto.
  - destruct Ho as [Hu ->]. apply (B_TInv v).
    + apply add_edge_B; auto. apply TInv_B; auto.
    + left. exists u. apply add_edge_link_new.
  - destruct (remove_edge u v (cg t)) eqn:E; auto. eapply remove_edge_inv; eauto.
  - apply add_node_inv; auto.
  - destruct (new_node c ch pa (cg t)) as [c' g'| |] eqn:E; auto. rewrite cg_upd.
    unfold new_node in E. destruct c as [c|].
    + destruct (zmem c (gnodes (cg t))); [discriminate|]. injection E as <- <-. apply add_node_inv; auto.
    + destruct (free_code _ _ _); [|discriminate]. injection E as <- <-. apply add_node_inv; auto.
  - destruct (remove_node n (cg t)) eqn:E; auto. eapply remove_node_inv; eauto.
  - apply suggest_inv; auto.
Qed.
Lemma empty_inv r : TInv (empty_tree r).
Proof.
  unfold empty_tree, add_node. simpl. rewrite Z.eqb_refl. simpl.
  unfold nx_add_node. simpl. constructor; simpl; auto.
  - split; [repeat constructor; auto|split; simpl; [tauto|constructor]].
  - intros v Hv Hne. simpl in *. destruct Hv as [Hv|[]]. congruence.
  - intros e e' [].
  - intros e [].
Qed.
Lemma hist_inv t ops : TInv (cg t) -> good_history t ops -> TInv (cg (fold_left cstep ops t)).
Proof.
  revert t. induction ops as [|o ops IH]; simpl; intros t H Hg; auto.
  apply IH; [apply cstep_inv|]; tauto.
Qed.

(** ---------- new codes ---------- *)
Lemma free_code_spec fuel : forall c nodes,
  (forall r, free_code fuel c nodes = Some r -> ~ In r nodes /\ c <= r) /\
  (free_code fuel c nodes = None -> forall k, 0 <= k < Z.of_nat fuel -> In (c + k) nodes).
Proof.
  induction fuel as [|f IH]; intros c nodes; cbn [free_code].
  - split; [discriminate|]. intros _ k Hk. lia.
  - destruct (zmem c nodes) eqn:E.
    + destruct (IH (c + 1) nodes) as [H1 H2]. split.
      * intros r Hr. apply H1 in Hr. split; [tauto|lia].
      * intros Hn k Hk. destruct (Z.eq_dec k 0) as [ ->|Hk0].
        -- rewrite Z.add_0_r. apply zmem_In; auto.
        -- replace (c + k) with (c + 1 + (k - 1)) by lia. apply H2; auto. lia.
    + apply zmem_nIn in E. split; [|discriminate]. intros r Hr. injection Hr as <-. split; [auto|lia].
Qed.
Lemma free_code_total c nodes : exists r, free_code (S (length nodes)) c nodes = Some r.
Proof.
  destruct (free_code (S (length nodes)) c nodes) as [r|] eqn:E; [eauto|]. exfalso.
  destruct (free_code_spec (S (length nodes)) c nodes) as [_ H]. specialize (H E).
  assert (Hl : (length (map (fun k => (c + Z.of_nat k)%Z) (seq 0 (S (length nodes)))) <= length nodes)%nat).
  { apply NoDup_incl_length.
    - apply Injective_map_NoDup; [intros i j; lia|apply seq_NoDup].
    - intros x Hx. apply in_map_iff in Hx. destruct Hx as [k [<- Hk]]. apply in_seq in Hk.
      apply H. lia. }
  rewrite map_length, seq_length in Hl. lia.
Qed.
Lemma add_node_in c ch pa g : In c (gnodes (add_node c ch pa g)).
Proof.
  unfold add_node.
  assert (H2 : forall l h, In c (gnodes h) -> In c (gnodes (fold_left (fun h x => add_edge c x false h) l h))).
  { induction l; simpl; auto. intros h Hh. apply IHl. rewrite add_edge_nodes; auto. }
  assert (H3 : forall l h, In c (gnodes h) -> In c (gnodes (fold_left (fun h p => add_edge p c false h) l h))).
  { induction l; simpl; auto. intros h Hh. apply IHl. rewrite add_edge_nodes; auto. }
  assert (H1 : In c (gnodes (nx_add_node c g))) by (apply nx_add_node_nodes; auto).
  destruct pa; simpl.
  - destruct (_ && _); auto. rewrite add_edge_nodes; auto.
  - rewrite add_edge_nodes; auto.
  - auto.
Qed.
Lemma new_node_fresh ch pa g : exists c g', new_node None ch pa g = NewNode c g' /\
  ~ In c (gnodes g) /\ In c (gnodes g').
Proof.
  unfold new_node. destruct (free_code_total (Z.of_nat (length (gnodes g))) (gnodes g)) as [r Hr].
  rewrite Hr. exists r, (add_node r ch pa g). split; auto. split; [|apply add_node_in].
  apply (free_code_spec _ _ _) in Hr. tauto.
Qed.
Lemma new_node_explicit c ch pa g :
  (In c (gnodes g) -> new_node (Some c) ch pa g = CodeExists) /\
  (~ In c (gnodes g) -> exists g', new_node (Some c) ch pa g = NewNode c g' /\ In c (gnodes g')).
Proof.
  unfold new_node. split; intros H.
  - apply zmem_In in H. rewrite H. auto.
  - apply zmem_nIn in H. rewrite H. eexists; split; eauto. apply add_node_in.
Qed.

(** ---------- caches ---------- *)
Definition coherent (t : ctree) : Prop :=
  (forall v, cstd t = Some v -> standard_sort (cg t) = Some v) /\
  (forall e, celem t = Some e -> elementals_read (cg t) = Some e).
Lemma read_elem_coh t : coherent t ->
  fst (read_elem t) = elementals_read (cg t) /\ coherent (snd (read_elem t)).
Proof.
  intros [H1 H2]. unfold read_elem. destruct (celem t) as [v|] eqn:E; simpl.
  - split; [symmetry; auto|]. split; auto. rewrite E; auto.
  - split; auto. split; simpl; auto.
Qed.
Lemma read_std_coh t : coherent t ->
  fst (read_std t) = standard_sort (cg t) /\ coherent (snd (read_std t)).
Proof.
  intros H. assert (HH := H). destruct HH as [H1 H2].
  unfold read_std. destruct (cstd t) as [v|] eqn:E.
  - simpl. split; [symmetry|]; auto.
  - destruct (read_elem_coh t H) as [Ha Hb]. assert (Hc := cg_read_elem t).
    destruct (read_elem t) as [el t1]. simpl in Ha, Hb, Hc.
    unfold standard_sort. rewrite <- Ha.
    destruct el as [e|]; [|auto]. destruct (nests_sorted (cg t)) as [l|] eqn:En; [|auto].
    simpl. split; auto. destruct Hb as [Hb1 Hb2]. split; simpl; auto.
    intros v Hv. injection Hv as <-. rewrite Hc. unfold standard_sort. rewrite <- Ha, En. auto.
Qed.
Lemma upd_coh t og : coherent t -> coherent (upd t og).
Proof. intros H. destruct og; auto. split; simpl; discriminate. Qed.
Lemma cstep_coh t o : coherent t -> tree_op o -> coherent (cstep t o).
Proof.
  intros H Ho. destruct o; cbn [cstep]; simpl in Ho; try tauto; try (apply upd_coh; auto).
  - destruct (new_node _ _ _ _); auto using upd_coh.
  - apply read_std_coh; auto.
  - apply read_elem_coh; auto.
Qed.
Lemma hist_coh t ops : coherent t -> Forall tree_op ops -> coherent (fold_left cstep ops t).
Proof.
  revert t. induction ops as [|o ops IH]; simpl; intros t H Hf; auto.
  inversion Hf; subst. apply IH; auto. apply cstep_coh; auto.
Qed.
