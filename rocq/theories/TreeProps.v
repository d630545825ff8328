(** THEOREMS about nesting trees (properties C18-C23). Vocabulary: TreeSpec. *)
From Coq Require Import Relations Permutation Sorted.
From Verif Require Import TreeModel TreeSpec TreeProofs TreeOpsProofs.

(** ---------------------------------------------------------------- C18 *)
(** Every acyclic nesting structure, of any size: the standard order lists the elemental
    alternatives first, then the nests; each node exactly once; each child before each of
    its parents; and the root last if everything hangs from it. *)
Theorem C18_standard_order : forall g,
  gwf g -> acyclic g -> NoDup (gsugg g) -> incl (gsugg g) (gnodes g) ->
  exists els nests,
    standard_sort g = Some (els ++ nests) /\
    (forall v, In v els <-> is_leaf g v) /\
    Permutation (els ++ nests) (gnodes g) /\
    (forall parent child, link g parent child -> before (els ++ nests) child parent) /\
    (rooted g -> exists l, els ++ nests = l ++ [groot g]).
Proof.
  intros g W A S I. destruct (standard_sort_ok g W A S I) as [nests [H1 [H2 [H3 H4]]]].
  exists (elementals g), nests. split; auto. split.
  { intros v. rewrite <- in_leaves. split; apply Permutation_in; auto. symmetry; auto. }
  split; auto. split; auto. intros R. apply (root_last g); auto.
Qed.

(** Suggested elementals come first, in the suggested order; the rest are increasing. *)
Theorem C18_elemental_order : forall g, incl (gsugg g) (gnodes g) ->
  exists first rest, elementals_read g = Some (first ++ rest) /\
    (forall v, In v first <-> In v (gsugg g) /\ is_leaf g v) /\
    (forall v, In v rest <-> is_leaf g v /\ ~ In v (gsugg g)) /\
    (exists keep, first = filter keep (gsugg g)) /\
    StronglySorted Z.le rest.
Proof.
  intros g I. rewrite (elementals_read_ok g I). unfold elementals.
  set (first := filter (fun e => zmem e (gnodes g) && (outdeg g e =? 0)%nat) (gsugg g)).
  exists first, (filter (fun e => negb (zmem e first)) (zsort (leaves g))).
  assert (Hf : forall v, In v first <-> In v (gsugg g) /\ is_leaf g v).
  { intros v. unfold first. rewrite filter_In, andb_true_iff, zmem_In, leaf_outdeg.
    unfold is_leaf. tauto. }
  split; auto. split; auto. split; [|split; [eexists; reflexivity|]].
  - intros v. rewrite filter_In, negb_true_iff, zmem_nIn, Hf.
    assert (Hp : In v (zsort (leaves g)) <-> In v (leaves g)).
    { split; apply Permutation_in; [|symmetry]; apply zsort_perm. }
    rewrite Hp, in_leaves. tauto.
  - assert (H := zsort_sorted (leaves g)). revert H. generalize (zsort (leaves g)). intros l H.
    induction H as [|x l Hl IH Hx]; simpl; [constructor|].
    destruct (negb (zmem x first)); auto. constructor; auto.
    rewrite Forall_forall in *. intros y Hy. apply filter_In in Hy. apply Hx. tauto.
Qed.

Definition ex_tree : graph :=
  mkG [0; 1; 2; 3; 11; 10] [mkEdge 0 11 false; mkEdge 10 1 false; mkEdge 10 2 false;
       mkEdge 11 10 false; mkEdge 11 3 false] 0 [3].
Example ex_tree_sort : standard_sort ex_tree = Some [3; 1; 2; 10; 11; 0].
Proof. reflexivity. Qed.

Lemma rank_acyclic g (r : Z -> Z) : (forall u v, link g u v -> r v < r u) -> acyclic g.
Proof.
  intros H x Hx.
  assert (Hb : forall a b, below g a b -> r b < r a).
  { intros a b Hab. induction Hab; auto. lia. }
  specialize (Hb x x Hx). lia.
Qed.
Example ex_tree_hyps : gwf ex_tree /\ acyclic ex_tree /\ NoDup (gsugg ex_tree)
  /\ incl (gsugg ex_tree) (gnodes ex_tree) /\ rooted ex_tree.
Proof.
  split; [|split; [|split; [|split]]].
  - split; [|split].
    + simpl. repeat constructor; simpl; intuition discriminate.
    + simpl. intros e [<-|[<-|[<-|[<-|[<-|[]]]]]]; simpl; auto 10.
    + simpl. repeat constructor; simpl; intuition discriminate.
  - apply (rank_acyclic _ (fun x => if x =? 0 then 3 else if x =? 11 then 2 else if x =? 10 then 1 else 0)).
    intros u v [e [He [<- <-]]]. simpl in He.
    destruct He as [<-|[<-|[<-|[<-|[<-|[]]]]]]; simpl; lia.
  - repeat constructor; auto.
  - intros x [<-|[]]. simpl; auto.
  - split; [simpl; auto|].
    assert (H11 : below ex_tree 0 11).
    { apply t_step. exists (mkEdge 0 11 false). simpl; auto. }
    assert (H10 : below ex_tree 0 10).
    { eapply t_trans; [apply H11|]. apply t_step. exists (mkEdge 11 10 false). simpl; auto 10. }
    intros v Hv Hne. simpl in Hv, Hne.
    destruct Hv as [<-|[<-|[<-|[<-|[<-|[<-|[]]]]]]]; try congruence; auto.
    + eapply t_trans; [apply H10|]. apply t_step. exists (mkEdge 10 1 false). simpl; auto.
    + eapply t_trans; [apply H10|]. apply t_step. exists (mkEdge 10 2 false). simpl; auto.
    + eapply t_trans; [apply H11|]. apply t_step. exists (mkEdge 11 3 false). simpl; auto 10.
Qed.

(** ---------------------------------------------------------------- C19 (refuted) *)
(** The code never reports a cycle: for EVERY graph, the order is returned without error,
    and every node on a cycle, and every node above one, is silently missing from it. *)
Theorem C19_cycle_reported_refuted : forall g x,
  gwf g -> incl (gsugg g) (gnodes g) -> below g x x ->
  exists l, standard_sort g = Some l /\ ~ In x l /\ (forall y, below g y x -> ~ In y l).
Proof.
  intros g x W I Hc. destruct (topo_spec g W) as [l [H1 [H2 [H3 [H4 H5]]]]].
  unfold standard_sort, nests_sorted. rewrite (elementals_read_ok g I), H1.
  assert (Hxl : ~ In x l).
  { intros Hx. destruct (topo_cycle_missing g x W Hc) as [l' [H1' H2']]. congruence. }
  assert (Hel : forall y z, link g y z -> ~ In y (elementals g)).
  { intros y z Hl Hy. destruct (C18_elemental_order g I) as [f [r [Hr [Hf [Hrest _]]]]].
    rewrite (elementals_read_ok g I) in Hr. injection Hr as Hr. rewrite Hr in Hy.
    apply in_app_iff in Hy. rewrite Hf, Hrest in Hy.
    destruct Hy as [[_ [_ Hn]]|[[_ Hn] _]]; apply (Hn z); auto. }
  assert (Hfirst : forall a b, below g a b -> exists z, link g a z).
  { intros a b Hab. induction Hab; eauto. }
  assert (Hup : forall a b, below g a b -> ~ In b l -> ~ In a l).
  { intros a b Hab. induction Hab as [a b Hab|a b c _ IH1 _ IH2]; auto.
    intros Hb Ha. apply in_split in Ha. destruct Ha as [l1 [l2 E]].
    apply Hb. rewrite E. apply in_app_iff. left. eapply H4; eauto. }
  eexists. split; [reflexivity|]. split.
  - destruct (Hfirst _ _ Hc) as [z Hz]. rewrite in_app_iff, filter_In. intros [H|[H _]]; auto.
    eapply Hel; eauto.
  - intros y Hy. destruct (Hfirst _ _ Hy) as [z Hz]. rewrite in_app_iff, filter_In.
    intros [H|[H _]]; [eapply Hel; eauto|]. eapply Hup; eauto.
Qed.

(** What does hold: on every acyclic graph no error is raised and nothing is missing. *)
Theorem C19_acyclic_no_error_partial : forall g,
  gwf g -> acyclic g -> incl (gsugg g) (gnodes g) ->
  exists l, standard_sort g = Some l /\ forall v, In v (gnodes g) -> In v l.
Proof.
  intros g W A I. unfold standard_sort, nests_sorted.
  destruct (topo_acyclic g W A) as [l [H1 [H2 _]]]. rewrite (elementals_read_ok g I), H1.
  eexists. split; [reflexivity|]. intros v Hv. rewrite in_app_iff, filter_In.
  destruct (zmem v (leaves g)) eqn:E.
  - left. apply zmem_In, in_leaves in E.
    destruct (C18_elemental_order g I) as [f [r [Hr [Hf [Hrest _]]]]].
    rewrite (elementals_read_ok g I) in Hr. injection Hr as Hr. rewrite Hr, in_app_iff, Hf, Hrest.
    destruct (zmem_dec v (gsugg g)); tauto.
  - right. split; auto. eapply Permutation_in; [symmetry; eauto|auto].
Qed.

Definition ex_cyclic : graph :=
  mkG [0; 1; 5; 6] [mkEdge 0 5 false; mkEdge 5 6 false; mkEdge 6 5 false; mkEdge 6 1 false] 0 [].
Example ex_cyclic_sort : standard_sort ex_cyclic = Some [1].
Proof. reflexivity. Qed.
(** The public interface builds such a graph without complaint. *)
Example ex_cyclic_reachable :
  gedges (cg (fold_left cstep [TAddEdge 0 5 false; TAddEdge 5 6 false; TAddEdge 6 5 false;
             TAddEdge 6 1 false] (new_tree 0))) = gedges ex_cyclic.
Proof. reflexivity. Qed.
Example ex_cyclic_is_cyclic : below ex_cyclic 5 5.
Proof.
  eapply t_trans; apply t_step; [exists (mkEdge 5 6 false)|exists (mkEdge 6 5 false)]; simpl; auto 10.
Qed.

(** ---------------------------------------------------------------- C20 *)
Theorem C20_slot_arrays : forall g std,
  gwf g -> acyclic g -> NoDup (gsugg g) -> incl (gsugg g) (gnodes g) ->
  standard_sort g = Some std ->
  let edges := edge_slot_arrays g std in
  let '(_, start, num) := node_slot_arrays g std in
  (* each link once, named by the positions of its ends in the standard order *)
  Permutation (map (fun p => (nth (fst p) std 0, nth (snd p) std 0)) edges)
              (map (fun e => (eu e, ev e)) (gedges g)) /\
  (* every position is valid and children precede parents *)
  (forall up dn, In (up, dn) edges -> (dn < up < length std)%nat) /\
  (* parents in increasing position *)
  StronglySorted (fun p q => (fst p <= fst q)%nat) edges /\
  (* start/num delimit exactly the edges of each node *)
  (forall k, (k < length std)%nat ->
     (num k = length (filter (fun p => (fst p =? k)%nat) edges)) /\
     (num k <> 0%nat -> exists s, start k = Some s /\
        firstn (num k) (skipn s edges) = filter (fun p => (fst p =? k)%nat) edges)).
Proof.
  intros g std W A S I Hs edges.
  destruct (standard_sort_ok g W A S I) as [nests [H1 [H2 [H3 H4]]]].
  rewrite Hs in H1. injection H1 as Hstd. rewrite <- Hstd in *.
  assert (Hnd : NoDup std). { eapply Permutation_NoDup; [symmetry; eauto|apply W]. }
  assert (HP : Permutation edges (map (fun e => (slot std (eu e), slot std (ev e))) (gedges g))).
  { unfold edges. rewrite (edge_slot_arrays_flat g std W H3), <- (edge_fill_flat g std).
    apply edge_fill_perm; auto. }
  assert (HK := edge_arrays_kids g std W H3). fold edges in HK.
  assert (HF : forall k, (k < length std)%nat ->
     filter (fun p => (fst p =? k)%nat) edges = map (pair k) (kids g std k)).
  { intros k Hk. rewrite HK. clear -Hk.
    assert (Hgen : forall n base, (base <= k < base + n)%nat ->
      filter (fun p => (fst p =? k)%nat) (flat_map (fun k => map (pair k) (kids g std k)) (seq base n))
      = map (pair k) (kids g std k)).
    { assert (Hone : forall j (l : list nat), filter (fun p => (fst p =? k)%nat) (map (pair j) l) =
         if (j =? k)%nat then map (pair j) l else []).
      { intros j l. induction l as [|x l IH]; simpl; [destruct (j =? k)%nat; auto|].
        rewrite IH. destruct (j =? k)%nat; auto. }
      assert (Hnone : forall n base, (k < base)%nat ->
        filter (fun p => (fst p =? k)%nat) (flat_map (fun k => map (pair k) (kids g std k)) (seq base n)) = []).
      { induction n as [|n IH]; intros base Hb; simpl; auto.
        rewrite filter_app, Hone, IH by lia. destruct (Nat.eqb_spec base k); auto. lia. }
      induction n as [|n IH]; intros base Hb; [lia|]. simpl. rewrite filter_app, Hone.
      destruct (Nat.eqb_spec base k) as [ ->|Hne].
      - rewrite Hnone by lia. apply app_nil_r.
      - apply IH. lia. }
    apply Hgen. lia. }
  assert (HB := node_arrays_block g std W H3).
  destruct (node_slot_arrays g std) as [[n0 start] num].
  assert (Hslot : forall x, In x (gnodes g) -> nth (slot std x) std 0 = x).
  { intros x Hx. apply nth_error_nth. apply nth_slot; auto.
    eapply Permutation_in; [symmetry; eauto|auto]. }
  split; [|split; [|split]].
  - rewrite HP, map_map. simpl. apply eq_perm. apply map_ext_in. intros e He.
    destruct W as [_ [W2 _]]. destruct (W2 e He) as [Ha Hb].
    rewrite !Hslot; auto.
  - intros up dn Hin. eapply Permutation_in in Hin; [|exact HP].
    apply in_map_iff in Hin. destruct Hin as [e [He Hin]]. injection He as <- <-.
    destruct W as [_ [W2 _]]. destruct (W2 e Hin) as [Ha Hb].
    split.
    + apply slot_before; auto. apply H4. exists e; auto.
    + apply slot_lt; auto. eapply Permutation_in; [symmetry; eauto|auto].
  - rewrite HK. clear. generalize (length std) as n. intros n.
    assert (Hgen : forall n base,
      StronglySorted (fun p q : nat * nat => (fst p <= fst q)%nat)
        (flat_map (fun k => map (pair k) (kids g std k)) (seq base n)) /\
      Forall (fun p => (base <= fst p)%nat) (flat_map (fun k => map (pair k) (kids g std k)) (seq base n))).
    { clear n. induction n as [|n IH]; intros base; simpl; [split; constructor|].
      destruct (IH (S base)) as [I1 I2].
      assert (Hall : Forall (fun p => (base <= fst p)%nat)
         (flat_map (fun k => map (pair k) (kids g std k)) (seq (S base) n))).
      { eapply Forall_impl; [|apply I2]. simpl. intros; lia. }
      induction (kids g std base) as [|x l IHl]; simpl; [auto|].
      destruct IHl as [J1 J2]. split; constructor; auto. }
    apply Hgen.
  - intros k Hk. rewrite (HF k Hk). destruct (HB k Hk) as [B1 [B2 B3]].
    rewrite map_length. split; auto.
Qed.
Example ex_slot_arrays :
  edge_slot_arrays ex_tree [3; 1; 2; 10; 11; 0] = [(3,1); (3,2); (4,3); (4,0); (5,4)]%nat.
Proof. reflexivity. Qed.

(** ---------------------------------------------------------------- C21 *)
(** Any history of edits that name existing parents (from a new tree of any root code):
    everything but the root has a parent; a node holding an implied link to the root has no
    other parent; all links have both ends in the tree; the root is still a node. *)
Theorem C21_no_orphans : forall root ops,
  good_history (new_tree root) ops ->
  let g := cg (fold_left cstep ops (new_tree root)) in
  no_orphans g /\ implied_alone g /\ gwf g /\ In (groot g) (gnodes g).
Proof.
  intros root ops H g. destruct (hist_inv (new_tree root) ops (empty_inv root) H). auto.
Qed.
(** ... and, if the result has no cycle, every node hangs from the root. *)
Theorem C21_all_under_root : forall root ops,
  good_history (new_tree root) ops ->
  let g := cg (fold_left cstep ops (new_tree root)) in
  acyclic g -> rooted g.
Proof.
  intros root ops H g A. destruct (hist_inv (new_tree root) ops (empty_inv root) H) as [W R O _ _].
  fold g in W, R, O. split; auto.
  destruct (topo_acyclic g W A) as [l [_ [H2 H3]]].
  assert (Hgen : forall n a v c, l = a ++ v :: c -> (length c <= n)%nat -> v <> groot g ->
            below g (groot g) v).
  { induction n as [|n IH]; intros a v c E Hn Hr.
    - destruct c; simpl in Hn; [|lia].
      assert (Hv : In v (gnodes g)).
      { eapply Permutation_in; [exact H2|]. rewrite E. apply in_app_iff. simpl; auto. }
      destruct (O v Hv Hr) as [u Hu].
      assert (Hu' : In u l).
      { eapply Permutation_in; [symmetry; exact H2|]. apply (link_nodes g u v W Hu). }
      assert (Hnd : NoDup l) by (eapply Permutation_NoDup; [symmetry; eauto|apply W]).
      rewrite E in Hu'. apply in_app_iff in Hu'. destruct Hu' as [Hu'|[Hu'|[]]].
      + apply in_split in Hu'. destruct Hu' as [a1 [a2 Ea]]. rewrite Ea in E.
        assert (Hva : In v a1). { apply (H3 a1 u (a2 ++ [v])); auto. rewrite E, <- app_assoc. auto. }
        rewrite E in Hnd. exfalso. apply NoDup_remove_2 in Hnd. apply Hnd.
        rewrite app_nil_r. apply in_app_iff; auto.
      + subst u. exfalso. apply (A v). apply t_step; auto.
    - assert (Hv : In v (gnodes g)).
      { eapply Permutation_in; [exact H2|]. rewrite E. apply in_app_iff. simpl; auto. }
      destruct (O v Hv Hr) as [u Hu].
      assert (Hu' : In u l).
      { eapply Permutation_in; [symmetry; exact H2|]. apply (link_nodes g u v W Hu). }
      assert (Hnd : NoDup l) by (eapply Permutation_NoDup; [symmetry; eauto|apply W]).
      destruct (Z.eq_dec u (groot g)) as [ ->|Hur]; [apply t_step; auto|].
      eapply t_trans; [|apply t_step; exact Hu].
      rewrite E in Hu'. apply in_app_iff in Hu'. destruct Hu' as [Hu'|[Hu'|Hu']].
      + apply in_split in Hu'. destruct Hu' as [a1 [a2 Ea]]. rewrite Ea in E.
        assert (Hva : In v a1). { apply (H3 a1 u (a2 ++ v :: c)); auto. rewrite E, <- app_assoc. auto. }
        rewrite E in Hnd. exfalso. apply NoDup_remove_2 in Hnd. apply Hnd.
        rewrite !in_app_iff; auto.
      + subst u. exfalso. apply (A v). apply t_step; auto.
      + apply in_split in Hu'. destruct Hu' as [c1 [c2 Ec]].
        apply (IH (a ++ v :: c1) u c2); auto.
        * rewrite E, Ec, <- app_assoc. auto.
        * rewrite Ec, app_length in Hn. simpl in Hn. lia. }
  intros v Hv Hr.
  assert (Hin : In v l) by (eapply Permutation_in; [symmetry; exact H2|auto]).
  apply in_split in Hin. destruct Hin as [a [c E]]. eapply Hgen; eauto.
Qed.
(** An explicit link removes the implied one, whatever the tree. *)
Theorem C21_explicit_link_drops_implied : forall g u v,
  let g' := add_edge u v false g in
  link g' u v /\ forall e, In e (gedges g') -> ev e = v -> eimp e = false.
Proof.
  intros g u v g'. split; [apply add_edge_link_new|].
  intros e He Hv. apply add_edge_in in He. destruct He as [ ->|[H1 [H2 H3]]]; auto.
  destruct (eimp e) eqn:E; auto. exfalso. apply H3; auto.
Qed.
Definition ex_history : list top :=
  [TNewNode (Some 1) [] PNone; TNewNode (Some 2) [] PNone; TNewNode None [1; 2] PNone;
   TNewNode (Some 7) [] PNone; TAddEdge 7 3 false; TRemoveEdge 7 3; TSuggest [2]; TReadStd;
   TNewNode (Some 8) [7] (PMany [3]); TRemoveNode 3].
Example ex_history_good : good_history (new_tree 0) ex_history.
Proof. vm_compute. intuition (congruence || auto). Qed.
Example ex_history_edges :
  map (fun e => (eu e, ev e, eimp e)) (gedges (cg (fold_left cstep ex_history (new_tree 0))))
  = [(8, 7, false); (0, 1, false); (0, 2, false); (0, 8, false)].
Proof. vm_compute. reflexivity. Qed.

(** The restriction to existing parents is needed: naming a parent that is not in the tree
    leaves that parent unattached. *)
Theorem C21_unknown_parent_refuted : exists ops,
  let g := cg (fold_left cstep ops (new_tree 0)) in ~ no_orphans g.
Proof.
  exists [TAddEdge 5 1 false]. simpl. intros H.
  destruct (H 5) as [u [e [He Huv]]]; [vm_compute; auto|vm_compute; discriminate|].
  vm_compute in He. destruct He as [He|[]]. subst e. simpl in Huv. destruct Huv; discriminate.
Qed.
(** Re-rooting on a code that is already a child of the root makes that node its own
    parent, so that it disappears from the standard order. *)
Theorem C21_reroot_refuted : exists ops g,
  g = cg (fold_left cstep ops (new_tree 0)) /\ link g 5 5 /\ groot g = 5 /\
  standard_sort g = Some [1; 2].
Proof.
  exists [TNewNode (Some 1) [] PNone; TNewNode (Some 2) [] PNone; TNewNode (Some 5) [1] PNone; TSetRoot 5].
  eexists. split; [reflexivity|]. split; [|split; vm_compute; reflexivity].
  eexists (mkEdge 5 5 true). vm_compute. auto 10.
Qed.

(** ---------------------------------------------------------------- C22 *)
Theorem C22_fresh_code : forall children parent g,
  exists c g', new_node None children parent g = NewNode c g' /\
    ~ In c (gnodes g) /\ In c (gnodes g').
Proof. apply new_node_fresh. Qed.
Theorem C22_explicit_code : forall c children parent g,
  (In c (gnodes g) -> new_node (Some c) children parent g = CodeExists) /\
  (~ In c (gnodes g) -> exists g', new_node (Some c) children parent g = NewNode c g' /\ In c (gnodes g')).
Proof. apply new_node_explicit. Qed.
(** A rejected request changes nothing, including the caches. *)
Theorem C22_rejected_unchanged : forall t c children parent,
  In c (gnodes (cg t)) -> cstep t (TNewNode (Some c) children parent) = t.
Proof.
  intros t c ch pa H. cbn [cstep]. destruct (new_node_explicit c ch pa (cg t)) as [H1 _].
  rewrite (H1 H). auto.
Qed.
Example ex_new_node : exists g', new_node None [1] PNone ex_tree = NewNode 6 g'.
Proof. eexists. vm_compute. reflexivity. Qed.

(** ---------------------------------------------------------------- C23 *)
(** After any sequence of documented edits and reads, the value read (or the failure) is
    what a fresh computation on the current tree gives. *)
Theorem C23_caches_fresh_partial : forall root ops,
  Forall tree_op ops ->
  let t := fold_left cstep ops (new_tree root) in
  fst (read_std t) = standard_sort (cg t) /\ fst (read_elem t) = elementals_read (cg t).
Proof.
  intros root ops H t.
  assert (Hc : coherent t). { apply hist_coh; auto. split; simpl; discriminate. }
  split; [apply read_std_coh|apply read_elem_coh]; auto.
Qed.
(** Missing: suggest_elemental_order and the inherited networkx bulk methods, for which
    the claim is false. *)
Theorem C23_suggest_refuted : exists ops o,
  Forall tree_op ops /\
  let t := fold_left cstep (ops ++ [TReadStd; TSuggest o]) (new_tree 0) in
  fst (read_std t) <> standard_sort (cg t).
Proof.
  exists [TNewNode (Some 1) [] PNone; TNewNode (Some 2) [] PNone], [2; 1].
  split; [repeat constructor|]. vm_compute. discriminate.
Qed.
Theorem C23_bulk_add_refuted : exists ops es,
  Forall tree_op ops /\
  let t := fold_left cstep (ops ++ [TReadStd; TNxAddEdgesFrom es]) (new_tree 0) in
  fst (read_std t) <> standard_sort (cg t).
Proof.
  exists [TNewNode (Some 1) [] PNone; TNewNode (Some 2) [] PNone], [(0, 3)].
  split; [repeat constructor|]. vm_compute. discriminate.
Qed.
(** A suggested order survives the removal of a suggested node and then makes every
    reading of the order fail. *)
Theorem C23_stale_suggestion_refuted : exists ops,
  let t := fold_left cstep ops (new_tree 0) in
  acyclic (cg t) /\ fst (read_std t) = None.
Proof.
  exists [TNewNode (Some 1) [] PNone; TNewNode (Some 2) [] PNone; TSuggest [2; 1]; TRemoveNode 2].
  split; [|vm_compute; reflexivity].
  apply (rank_acyclic _ (fun x => if x =? 0 then 1 else 0)). intros u v [e [He [<- <-]]].
  vm_compute in He. destruct He as [<-|[]]. simpl; lia.
Qed.
Example C23_nontrivial : Forall tree_op [TNewNode (Some 1) [] PNone; TReadStd; TNewNode None [1] PNone; TReadElem]
  /\ fst (read_std (fold_left cstep [TNewNode (Some 1) [] PNone; TReadStd; TNewNode None [1] PNone; TReadElem] (new_tree 0)))
     = Some [1; 2; 0].
Proof. split; [repeat constructor|vm_compute; reflexivity]. Qed.
