(** THEOREMS linking the nesting graph to the likelihood kernel: the integer arrays the
    model object derives from its graph meet the kernel's requirements. *)
From Coq Require Import Relations Permutation ZArith.
From Verif Require Import TreeModel TreeSpec TreeProofs.
From Verif Require Import LogitModel LogitSpec.
Open Scope nat_scope.

(** larch/numba/model.py 1124-1144 [_rebuild_fixed_arrays]: the arrays handed to the kernel.
    [mus k] is the parameter slot of node [k] (tree.py 880-885). *)
Definition model_slots (g : graph) (std : list Z) (mus : nat -> option nat) : slots :=
  let '(_, start, num) := node_slot_arrays g std in
  let na := length (elementals g) in
  mkSlots na (length std) (edge_slot_arrays g std)
    (fun i => match start (na + i) with Some s => s | None => 0 end)
    (fun i => num (na + i)) (fun i => mus (na + i)).

(** SPEC: no node has two parents. *)
Definition single_parent (g : graph) : Prop :=
  forall u u' v, link g u v -> link g u' v -> u = u'.

Lemma children_block (L : list (nat * nat)) s m : s + m <= length L ->
  map (fun i => snd (nth (s + i) L (0, 0))) (seq 0 m) = map snd (firstn m (skipn s L)).
Proof.
  revert L m. induction s as [|s IH]; intros L m H; simpl.
  - revert L H. induction m as [|m IHm]; intros L H; simpl; auto.
    destruct L as [|x L]; simpl in *; [lia|]. f_equal. rewrite <- seq_shift, map_map. apply IHm. lia.
  - destruct L as [|x L]; simpl in *; [assert (m = 0) by lia; subst; auto|].
    apply IH. lia.
Qed.

Lemma kids_in g std k j : In j (kids g std k) <->
  exists c d, nth_error std k = Some c /\ In d (succs g c) /\ j = slot std d.
Proof.
  unfold kids. destruct (nth_error std k) as [c|].
  - rewrite in_map_iff. split.
    + intros [d [E H]]. exists c, d. auto.
    + intros [c' [d [E [H1 H2]]]]. injection E as <-. exists d. auto.
  - simpl. split; [tauto|]. intros [c [d [E _]]]. discriminate.
Qed.
Lemma succs_link g c d : In d (succs g c) <-> link g c d.
Proof.
  unfold succs, link. rewrite in_map_iff. split.
  - intros [e [E H]]. apply filter_In in H. destruct H as [H1 H2]. apply Z.eqb_eq in H2. exists e; auto.
  - intros [e [H1 [H2 H3]]]. exists e. split; auto. apply filter_In. split; auto. apply Z.eqb_eq. auto.
Qed.

Section Bridge.
Variable g : graph.
Variable std : list Z.
Variable mus : nat -> option nat.
Hypothesis W : gwf g.
Hypothesis A : acyclic g.
Hypothesis S1 : NoDup (gsugg g).
Hypothesis S2 : incl (gsugg g) (gnodes g).
Hypothesis Hstd : standard_sort g = Some std.
Hypothesis R : rooted g.
Hypothesis Hchild : exists v, link g (groot g) v.

Lemma std_facts : exists nests, std = elementals g ++ nests /\
  Permutation (elementals g) (leaves g) /\ Permutation std (gnodes g) /\ NoDup std /\
  (forall u v, link g u v -> before std v u) /\ (exists l, std = l ++ [groot g]).
Proof.
  destruct (standard_sort_ok g W A S1 S2) as [nests [H1 [H2 [H3 H4]]]].
  rewrite Hstd in H1. injection H1 as E. exists nests. rewrite <- E in *.
  split; auto. split; auto. split; auto. split.
  - eapply Permutation_NoDup; [symmetry; eauto|apply W].
  - split; auto. apply (root_last g); auto.
Qed.

Lemma bridge_dag : dag_slots (model_slots g std mus) (kids g std).
Proof.
  destruct std_facts as [nests [E [HL [HP [HN [HB [l HR]]]]]]].
  assert (HK := edge_arrays_kids g std W HP).
  assert (HA := node_arrays_block g std W HP).
  unfold model_slots. destruct (node_slot_arrays g std) as [[n0 start] num].
  assert (Hless : forall k j, In j (kids g std k) -> j < k).
  { intros k j Hj. apply kids_in in Hj. destruct Hj as [c [d [E1 [H1 ->]]]].
    apply succs_link in H1. assert (Hs := slot_before std d c HN (HB c d H1)).
    rewrite (slot_nth std c k) in Hs; auto. }
  assert (Hin : forall c k, nth_error std k = Some c -> k < length (elementals g) <-> is_leaf g c).
  { intros c k Hk. rewrite E in Hk. split.
    - intros Hlt. rewrite nth_error_app1 in Hk by auto. apply nth_error_In in Hk.
      apply in_leaves. eapply Permutation_in; eauto.
    - intros Hl. apply in_leaves in Hl. apply (Permutation_in _ (Permutation_sym HL)) in Hl.
      apply In_nth_error in Hl. destruct Hl as [i Hi].
      assert (Hi2 : i < length (elementals g)) by (apply nth_error_Some; congruence).
      assert (Hi' : nth_error std i = Some c) by (rewrite E, nth_error_app1; auto).
      assert (Hk' : nth_error std k = Some c) by (rewrite E; auto).
      assert (i = k); [|lia]. eapply (proj1 (NoDup_nth_error std) HN); [rewrite E, app_length; lia|congruence]. }
  assert (Hchn : forall k, length (elementals g) <= k < length std -> kids g std k <> []).
  { intros k Hk Hnil. destruct (nth_error std k) as [c|] eqn:Ek; [|apply nth_error_None in Ek; lia].
    assert (Hl : is_leaf g c).
    { split; [eapply Permutation_in; [exact HP|eapply nth_error_In; eauto]|].
      intros w Hw. assert (Hj : In (slot std w) (kids g std k)).
      { apply kids_in. exists c, w. split; auto. split; auto. apply succs_link; auto. }
      rewrite Hnil in Hj. destruct Hj. }
    apply (Hin c k Ek) in Hl. lia. }
  constructor; simpl.
  - rewrite E, app_length. destruct nests as [|x nests]; simpl; [|lia]. exfalso.
    destruct Hchild as [v Hv]. rewrite app_nil_r in E.
    assert (Hr : is_leaf g (groot g)).
    { apply in_leaves. eapply Permutation_in; [exact HL|]. rewrite <- E, HR. apply in_app_iff. simpl; auto. }
    destruct Hr as [_ Hr]. apply (Hr v); auto.
  - intros k Hk. destruct (nth_error std k) as [c|] eqn:Ek; [|unfold kids; rewrite Ek; auto].
    apply (Hin c k Ek) in Hk. destruct Hk as [_ Hk].
    destruct (kids g std k) as [|j r] eqn:Ej; auto. exfalso.
    assert (Hj : In j (kids g std k)) by (rewrite Ej; simpl; auto).
    apply kids_in in Hj. destruct Hj as [c' [d [E1 [H1 _]]]]. rewrite Ek in E1. injection E1 as <-.
    apply (Hk d). apply succs_link; auto.
  - exact Hless.
  - exact HK.
  - intros k Hk. unfold children. simpl.
    replace (length (elementals g) + (k - length (elementals g))) with k by lia.
    destruct (HA k) as [H1 [H2 _]]; [lia|]. destruct (H2 (Hchn k Hk)) as [s [Es Eb]]. rewrite Es.
    assert (Hlen : length (firstn (num k) (skipn s (edge_slot_arrays g std))) = num k).
    { rewrite Eb, map_length. auto. }
    rewrite firstn_length, skipn_length in Hlen.
    rewrite children_block.
    + rewrite Eb, map_map. simpl. apply map_id.
    + assert (num k <> 0).
      { rewrite H1. intros Hz. apply length_zero_iff_nil in Hz. apply (Hchn k Hk Hz). }
      lia.
Qed.

Lemma bridge_tree : single_parent g -> tree_slots (model_slots g std mus) (kids g std).
Proof.
  intros Hsp. split; [apply bridge_dag|].
  destruct std_facts as [nests [E [HL [HP [HN [HB [l HR]]]]]]].
  assert (En : n_nodes (model_slots g std mus) = length std).
  { unfold model_slots. destruct (node_slot_arrays g std) as [[n0 start] num]. auto. }
  rewrite En.
  assert (Hpairs : Permutation (flat_map (kids g std) (seq 0 (length std))) (map (fun e => slot std (ev e)) (gedges g))).
  { assert (HK := edge_arrays_kids g std W HP).
    assert (HE : Permutation (edge_slot_arrays g std) (map (fun e => (slot std (eu e), slot std (ev e))) (gedges g))).
    { rewrite (edge_slot_arrays_flat g std W HP), <- (edge_fill_flat g std). apply edge_fill_perm; auto. }
    rewrite HK in HE. apply (Permutation_map snd) in HE. rewrite map_map in HE. simpl in HE.
    rewrite <- HE. rewrite !flat_map_concat_map, concat_map, map_map.
    apply Permutation_refl'. f_equal. apply map_ext. intros k. rewrite map_map. simpl. symmetry. apply map_id. }
  assert (Hslot_in : forall x, In x (gnodes g) -> nth_error std (slot std x) = Some x).
  { intros x Hx. apply nth_slot; auto. eapply Permutation_in; [symmetry; exact HP|auto]. }
  rewrite Hpairs.
  destruct W as [W1 [W2 W3]].
  assert (Hnoroot : forall u, ~ link g u (groot g)).
  { intros u Hu. assert (Hu2 : In u (gnodes g)) by (destruct Hu as [e [He [<- _]]]; apply W2; auto).
    destruct R as [_ R2]. destruct (Z.eq_dec u (groot g)) as [ ->|Hne].
    - apply (A (groot g)). apply t_step. auto.
    - apply (A (groot g)). eapply t_trans; [apply R2; eauto|]. apply t_step; auto. }
  assert (Hrs : slot std (groot g) = length std - 1).
  { apply slot_nth; auto. rewrite HR, app_length. simpl.
    replace (length l + 1 - 1) with (length l) by lia. rewrite nth_error_app2, Nat.sub_diag by lia. auto. }
  apply NoDup_Permutation.
  - assert (Hinj : forall e e', In e (gedges g) -> In e' (gedges g) -> slot std (ev e) = slot std (ev e') -> (eu e, ev e) = (eu e', ev e')).
    { intros e e' He He' Hs. assert (Hv : ev e = ev e').
      { assert (H1 := Hslot_in (ev e) (proj2 (W2 e He))). assert (H2 := Hslot_in (ev e') (proj2 (W2 e' He'))). congruence. }
      f_equal; auto. apply (Hsp (eu e) (eu e') (ev e)); [exists e; auto|exists e'; auto]. }
    clear Hpairs. revert W3 Hinj. generalize (gedges g). intros L. induction L as [|e L IH]; simpl; intros H3 H4; constructor.
    + intros Hin. apply in_map_iff in Hin. destruct Hin as [e' [Hs Hin]]. inversion H3; subst.
      apply H1. rewrite <- (H4 e' e); auto. apply in_map_iff. exists e'. auto.
    + inversion H3; subst. apply IH; auto.
  - apply seq_NoDup.
  - intros x. rewrite in_map_iff, in_seq. split.
    + intros [e [<- He]]. destruct (W2 e He) as [Hu Hv].
      assert (Hlt : slot std (ev e) < length std) by (apply nth_error_Some; rewrite Hslot_in by auto; discriminate).
      assert (slot std (ev e) <> length std - 1); [|lia].
      intros Heq. rewrite <- Hrs in Heq.
      assert (ev e = groot g).
      { assert (H1 := Hslot_in (ev e) Hv). destruct R as [R1 _]. assert (H2 := Hslot_in (groot g) R1). congruence. }
      apply (Hnoroot (eu e)). exists e. auto.
    + intros Hx. destruct (nth_error std x) as [c|] eqn:Ex; [|apply nth_error_None in Ex; lia].
      assert (Hc : In c (gnodes g)) by (eapply Permutation_in; [exact HP|eapply nth_error_In; eauto]).
      assert (Hsx : slot std c = x) by (apply slot_nth; auto).
      assert (Hne : c <> groot g) by (intros ->; lia).
      destruct R as [_ R2]. assert (Hb := R2 c Hc Hne).
      assert (Hp : exists u, link g u c) by (clear -Hb; induction Hb; eauto).
      destruct Hp as [u [e [He [_ Hv]]]]. exists e. split; auto. rewrite Hv. auto.
Qed.
End Bridge.

(** ---------------------------------------------------------------- C20 *)
(** Every rooted acyclic nesting graph gives arrays the kernel can use ([dag_slots]), with
    children given by the graph's links; and tree arrays if no node has two parents.  So the
    theorems C01-C10 apply to every such graph. *)
Theorem C20_kernel_arrays_from_graph : forall g std mus,
  gwf g -> acyclic g -> NoDup (gsugg g) -> incl (gsugg g) (gnodes g) ->
  standard_sort g = Some std -> rooted g -> (exists v, link g (groot g) v) ->
  exists kids, dag_slots (model_slots g std mus) kids /\
    (single_parent g -> tree_slots (model_slots g std mus) kids) /\
    n_nodes (model_slots g std mus) = length (gnodes g) /\
    (forall k c, nth_error std k = Some c ->
       (forall j, In j (kids k) <-> exists d, link g c d /\ nth_error std j = Some d) /\
       (k < n_alts (model_slots g std mus) <-> is_leaf g c)).
Proof.
  intros g std mus W A S1 S2 Hs R Hc. exists (kids g std).
  assert (HD := bridge_dag g std mus W A S1 S2 Hs R Hc).
  split; auto. split; [intros; apply bridge_tree; auto|].
  destruct (std_facts g std W A S1 S2 Hs R) as [nests [E [HL [HP [HN [HB [l HR]]]]]]].
  assert (En : n_nodes (model_slots g std mus) = length std /\ n_alts (model_slots g std mus) = length (elementals g)).
  { unfold model_slots. destruct (node_slot_arrays g std) as [[n0 start] num]. auto. }
  destruct En as [En1 En2]. split; [rewrite En1; apply Permutation_length; auto|].
  intros k c Hk. split.
  - intros j. rewrite kids_in. split.
    + intros [c' [d [E1 [H1 ->]]]]. rewrite Hk in E1. injection E1 as <-.
      exists d. apply succs_link in H1. split; auto. apply nth_slot; auto.
      eapply Permutation_in; [symmetry; exact HP|]. destruct H1 as [e [He [_ <-]]].
      destruct W as [_ [W2 _]]. apply W2; auto.
    + intros [d [H1 H2]]. exists c, d. split; auto. split; [apply succs_link; auto|].
      symmetry. apply slot_nth; auto.
  - split.
    + intros Hlt. split; [eapply Permutation_in; [exact HP|eapply nth_error_In; eauto]|].
      intros w Hw. assert (Hlf := ts_leaf _ _ HD k Hlt).
      assert (Hj : In (slot std w) (kids g std k)).
      { apply kids_in. exists c, w. split; auto. split; auto. apply succs_link; auto. }
      rewrite Hlf in Hj. destruct Hj.
    + intros Hl. apply in_leaves in Hl. apply (Permutation_in _ (Permutation_sym HL)) in Hl.
      apply In_nth_error in Hl. destruct Hl as [i Hi].
      assert (Hi2 : i < length (elementals g)) by (apply nth_error_Some; congruence).
      assert (Hi' : nth_error std i = Some c) by (rewrite E, nth_error_app1; auto).
      assert (i = k); [|lia]. eapply (proj1 (NoDup_nth_error std) HN); [rewrite E, app_length; lia|congruence].
Qed.
