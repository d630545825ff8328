(** Proofs about the constraint list. *)
From Verif Require Import ParamModel ConsModel ConsSpec ConsProofs.
Open Scope R_scope.

Lemma Reqb_iff a b : Reqb a b = true <-> a = b.
Proof. unfold Reqb; destruct (Req_EM_T a b); split; auto; discriminate. Qed.
Lemma neqb_iff a b : neqb a b = true <-> a = b /\ a <> NaN.
Proof.
  unfold neqb; destruct a as [| |x|], b as [| |y|]; simpl; split; intros H; auto; try discriminate; try (destruct H; congruence);
    try (split; congruence).
  - destruct (Rle_dec x y), (Rle_dec y x); try discriminate. split; [f_equal; lra|discriminate].
  - destruct H as [[= ->] _]. destruct (Rle_dec y y); auto; lra.
Qed.
Lemma oeqb_iff {A} (eqb : A -> A -> bool) (P : A -> Prop) a b :
  (forall x y, eqb x y = true <-> x = y /\ P x) ->
  (oeqb eqb a b = true <-> a = b /\ match a with Some x => P x | None => True end).
Proof.
  intros H. destruct a as [a|], b as [b|]; simpl; try (split; [discriminate|]; intros [? _]; discriminate).
  - rewrite H. split; intros [? ?]; subst; auto. split; congruence.
  - tauto.
Qed.
Lemma spec_eqb_iff a b : spec_eqb a b = true <-> a = b /\ numeric a.
Proof.
  assert (HR : forall x y, Reqb x y = true <-> x = y /\ True) by (intros; rewrite Reqb_iff; tauto).
  destruct a as [n d l h|l m|p l h], b as [n' d' l' h'|l' m'|p' l' h']; simpl;
    try (split; [discriminate|]; intros [? _]; discriminate).
  - rewrite !andb_true_iff, !String.eqb_eq, !(oeqb_iff _ _ _ _ HR). split.
    + intros (((-> & ->) & -> & _) & -> & _); auto.
    + intros [[= -> -> -> ->] _]. repeat split; auto; [destruct l'|destruct h']; auto.
  - rewrite !andb_true_iff, !String.eqb_eq. split; [intros [-> ->]; auto|intros [[= -> ->] _]; auto].
  - rewrite !andb_true_iff, !String.eqb_eq, !(oeqb_iff _ _ _ _ neqb_iff). split.
    + intros ((-> & -> & H1) & -> & H2). split; auto. destruct l', h'; split; congruence.
    + intros [[= -> -> ->] [H1 H2]]. repeat split; auto; [destruct l'|destruct h']; auto; congruence.
Qed.
Lemma is_duplicate_iff v l : is_duplicate v l = true <-> In (c_spec v) (map c_spec l) /\ numeric (c_spec v).
Proof.
  unfold is_duplicate. rewrite existsb_exists. unfold cons_eqb. split.
  - intros (x & Hx & E). apply spec_eqb_iff in E. destruct E as [E N]. rewrite <- E in *. split; auto. apply in_map; auto.
  - intros [H N]. apply in_map_iff in H. destruct H as (x & E & Hx). exists x; split; auto. apply spec_eqb_iff. rewrite E; auto.
Qed.

Lemma map_insert_at {A B} (g : A -> B) k v l : map g (insert_at k v l) = insert_at k (g v) (map g l).
Proof. unfold insert_at. rewrite map_app, firstn_map. simpl. rewrite skipn_map. auto. Qed.
Lemma map_replace_at {A B} (g : A -> B) k v l : map g (replace_at k v l) = replace_at k (g v) (map g l).
Proof. revert k; induction l; destruct k; simpl; auto; f_equal; auto. Qed.
Lemma map_delete_at {A B} (g : A -> B) k l : map g (delete_at k l) = delete_at k (map g l).
Proof. revert k; induction l; destruct k; simpl; auto; f_equal; auto. Qed.
Lemma insert_at_perm {A} k (v : A) l : Permutation (insert_at k v l) (v :: l).
Proof.
  unfold insert_at. rewrite <- (firstn_skipn k l) at 3. symmetry. apply Permutation_middle.
Qed.
Lemma replace_at_same {A} k (v : A) l : nth_error l k = Some v -> replace_at k v l = l.
Proof. revert k; induction l; destruct k; simpl; intros; try discriminate; f_equal; auto; congruence. Qed.
Lemma delete_at_perm {A} k (v : A) l : nth_error l k = Some v -> Permutation (v :: delete_at k l) l.
Proof.
  revert k; induction l as [|a l IH]; destruct k; simpl; intros H; try discriminate.
  - injection H as ->; auto.
  - rewrite perm_swap. constructor; auto.
Qed.
Lemma replace_at_perm {A} k (v : A) l : (k < length l)%nat -> Permutation (replace_at k v l) (v :: delete_at k l).
Proof.
  revert k; induction l as [|a l IH]; destruct k; simpl; intros H; try lia; auto.
  rewrite IH by lia. apply perm_swap.
Qed.
Lemma pyidx_lt i n k : pyidx i n = Some k -> (k < n)%nat.
Proof.
  unfold pyidx. set (j := if (i <? 0)%Z then (i + Z.of_nat n)%Z else i). clearbody j.
  destruct ((0 <=? j) && (j <? Z.of_nat n))%Z eqn:E; [|discriminate].
  apply andb_true_iff in E. destruct E as [E1 E2]. apply Z.leb_le in E1. apply Z.ltb_lt in E2.
  intros [= <-]. lia.
Qed.
Lemma pyidx_nat k n : (k < n)%nat -> pyidx (Z.of_nat k) n = Some k.
Proof.
  intros H. unfold pyidx. destruct (Z.ltb_spec (Z.of_nat k) 0); [lia|].
  destruct (Z.leb_spec 0 (Z.of_nat k)); [|lia]. destruct (Z.ltb_spec (Z.of_nat k) (Z.of_nat n)); [|lia].
  simpl. f_equal. lia.
Qed.

Lemma pyinsert_nonneg i n : (0 <= i)%Z -> pyinsert_pos i n = Nat.min (Z.to_nat i) n.
Proof.
  intros H. unfold pyinsert_pos. cbv zeta. replace (i <? 0)%Z with false by (symmetry; apply Z.ltb_ge; auto).
  replace (i <? 0)%Z with false by (symmetry; apply Z.ltb_ge; auto). auto.
Qed.

(** Linking changes nothing that the list says. *)
Lemma link_at_says f i l : says (cl_of (link_at f i l)) = says l /\ dupes (cl_of (link_at f i l)) = dupes l.
Proof.
  unfold link_at. destruct (pyidx _ _) as [k|]; auto. destruct (nth_error _ _) as [c|] eqn:E; auto.
  destruct (link_model _ _ _) as [c'|] eqn:El; auto. split; auto. unfold says; simpl.
  apply link_spec in El. rewrite map_replace_at. rewrite (proj1 El). apply replace_at_same.
  rewrite nth_error_map, E. auto.
Qed.
Lemma insert_says f i v l : says (cl_of (cl_insert f i v l)) =
  if dupes l || negb (is_duplicate v (cx l)) then insert_at (pyinsert_pos i (length (cx l))) (c_spec v) (says l) else says l.
Proof.
  unfold cl_insert. destruct (dupes l || _); auto. rewrite (proj1 (link_at_says _ _ _)).
  unfold says; simpl. apply map_insert_at.
Qed.
Lemma set_says f i v l : says (cl_of (cl_set f i v l)) =
  if dupes l || negb (is_duplicate v (cx l)) then
    match pyidx i (length (cx l)) with Some k => replace_at k (c_spec v) (says l) | None => says l end
  else says l.
Proof.
  unfold cl_set. destruct (dupes l || _); auto. destruct (pyidx _ _); auto. rewrite (proj1 (link_at_says _ _ _)).
  unfold says; simpl. apply map_replace_at.
Qed.
(** reverse() swaps through [__setitem__], which ignores what is already there. *)
Lemma swap_noop f i j l : dupes l = false -> Forall numeric (says l) -> (i < length (cx l))%nat -> (j < length (cx l))%nat ->
  cl_swap f i j l = COk l.
Proof.
  intros Hd Hn Hi Hj. unfold cl_swap.
  destruct (nth_error (cx l) i) as [a|] eqn:Ea; [|apply nth_error_None in Ea; lia].
  destruct (nth_error (cx l) j) as [b|] eqn:Eb; [|apply nth_error_None in Eb; lia].
  assert (D : forall c, In c (cx l) -> is_duplicate c (cx l) = true).
  { intros c Hc. apply is_duplicate_iff. pose proof (in_map c_spec _ _ Hc) as Hm. split; auto.
    rewrite Forall_forall in Hn. apply Hn; auto. }
  apply nth_error_In in Ea, Eb. unfold cl_set at 1. rewrite Hd, (D b Eb). simpl.
  unfold cl_set. rewrite Hd, (D a Ea). auto.
Qed.
Lemma reverse_from_noop f k i l : dupes l = false -> Forall numeric (says l) ->
  (2 * (i + k) <= length (cx l))%nat -> cl_reverse_from f k i (length (cx l)) l = COk l.
Proof.
  revert i; induction k as [|k IH]; simpl; intros i Hd Hn Hk; auto.
  rewrite swap_noop by (auto; lia). apply IH; auto. lia.
Qed.
Lemma reverse_noop f l : dupes l = false -> Forall numeric (says l) -> cl_reverse f l = COk l.
Proof.
  intros Hd Hn. apply reverse_from_noop; auto.
  pose proof (Nat.div_mod (length (cx l)) 2). pose proof (Nat.mod_upper_bound (length (cx l)) 2). lia.
Qed.

Definition good (l : clist) : Prop := NoDup (says l) /\ Forall numeric (says l) /\ dupes l = false.
Lemma step_good f o l : op_numeric o -> good l -> good (cl_of (cl_step f o l)).
Proof.
  intros Ho (Hnd & Hn & Hd).
  assert (HI : forall i v, numeric (c_spec v) -> good (cl_of (cl_insert f i v l))).
  { intros i v Hv.
    assert (E := insert_says f i v l). rewrite Hd in E. simpl in E.
    assert (D : dupes (cl_of (cl_insert f i v l)) = false).
    { unfold cl_insert. destruct (dupes l || _); auto. rewrite (proj2 (link_at_says _ _ _)). auto. }
    destruct (is_duplicate v (cx l)) eqn:Ed; simpl in E.
    - unfold good. rewrite E. auto.
    - assert (~ In (c_spec v) (says l)).
      { intros Hin. apply not_true_iff_false in Ed. apply Ed. apply is_duplicate_iff. auto. }
      unfold good. rewrite E. repeat split; auto.
      + eapply Permutation_NoDup; [symmetry; apply insert_at_perm|]. constructor; auto.
      + eapply Permutation_Forall; [symmetry; apply insert_at_perm|]. constructor; auto. }
  destruct o as [i v|v|i v|i|]; simpl in *; auto.
  - apply HI; auto.
  - assert (E := set_says f i v l). rewrite Hd in E. simpl in E.
    assert (D : dupes (cl_of (cl_set f i v l)) = false).
    { unfold cl_set. destruct (dupes l || _); auto. destruct (pyidx _ _); auto. rewrite (proj2 (link_at_says _ _ _)). auto. }
    destruct (is_duplicate v (cx l)) eqn:Ed; simpl in E; [unfold good; rewrite E; auto|].
    destruct (pyidx i (length (cx l))) as [k|] eqn:Ek; [|unfold good; rewrite E; auto].
    apply pyidx_lt in Ek. assert (~ In (c_spec v) (says l)).
    { intros Hin. apply not_true_iff_false in Ed. apply Ed. apply is_duplicate_iff. auto. }
    assert (Hk : (k < length (says l))%nat) by (unfold says; rewrite map_length; auto).
    destruct (nth_error (says l) k) as [s|] eqn:Es; [|apply nth_error_None in Es; lia].
    pose proof (delete_at_perm _ _ _ Es) as P.
    unfold good. rewrite E. repeat split; auto.
    + eapply Permutation_NoDup; [symmetry; apply replace_at_perm; auto|].
      apply (Permutation_NoDup (Permutation_sym P)) in Hnd. inversion Hnd; subst. constructor; auto.
      intros Hin. apply H. eapply Permutation_in; [apply P|]. right; auto.
    + eapply Permutation_Forall; [symmetry; apply replace_at_perm; auto|].
      apply (Permutation_Forall (Permutation_sym P)) in Hn. inversion Hn; subst. constructor; auto.
  - unfold cl_del. destruct (pyidx i (length (cx l))) as [k|] eqn:Ek; simpl; [|unfold good; auto].
    apply pyidx_lt in Ek.
    assert (Hk : (k < length (says l))%nat) by (unfold says; rewrite map_length; auto).
    destruct (nth_error (says l) k) as [s|] eqn:Es; [|apply nth_error_None in Es; lia].
    pose proof (delete_at_perm _ _ _ Es) as P. unfold good, says; simpl. rewrite map_delete_at. fold (says l).
    apply (Permutation_NoDup (Permutation_sym P)) in Hnd. apply (Permutation_Forall (Permutation_sym P)) in Hn.
    inversion Hnd; inversion Hn; subst. auto.
  - rewrite reverse_noop by auto. unfold good; auto.
Qed.
Lemma run_good os l : Forall (fun p => op_numeric (snd p)) os -> good l -> good (cl_run os l).
Proof.
  revert l; induction os as [|[f o] os IH]; simpl; intros l Ho Hl; auto.
  inversion Ho; subst. apply IH; auto. apply step_good; auto.
Qed.
