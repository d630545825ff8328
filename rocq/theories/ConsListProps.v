(** C38: the list of constraints. *)
From Verif Require Import ParamModel ConsModel ConsSpec ConsProofs ConsListProofs ConsProps.
Local Open Scope R_scope.
Local Open Scope string_scope.

(** *** No two equal constraints, whatever the sequence of append, insert, item assignment,
    deletion and reverse calls, and however the frame changes in between (extend, += and
    constraint strings go through append and insert). *)
Theorem C38_never_two_equal_partial : forall history l,
  Forall (fun fo => op_numeric (snd fo)) history ->
  NoDup (says l) -> Forall numeric (says l) -> dupes l = false ->
  NoDup (says (cl_run history l)) /\ dupes (cl_run history l) = false.
Proof.
  intros h l Hh H1 H2 H3. destruct (run_good h l Hh) as (A & _ & B); [split; auto|]. auto.
Qed.
Definition az : cons := new_cons (1/10000) (Order "cost" "z").
Definition ft : cons := new_cons (1/10000) (Fixed "time" (Some (Fin 0)) None).
Example C38_example :
  let h := [(fr, OAppend az); (fr, OInsert 0 ft); (fr, OAppend az); (fr, OReverse); (fr, OSet 0 az)] in
  Forall (fun fo => op_numeric (snd fo)) h /\
  says (cl_run h (mkCL [] false)) = [c_spec ft; c_spec az].
Proof.
  intros h. split; [repeat constructor; cbn; congruence|]. unfold h. cbn [cl_run cl_step].
  assert (Da : is_duplicate az [] = false) by reflexivity.
  assert (H1 : exists z, cl_append fr az (mkCL [] false) = COk (mkCL [z] false) /\ c_spec z = c_spec az).
  { eexists. split; reflexivity. }
  destruct H1 as (z & E1 & Z). rewrite E1. cbn [cl_of].
  assert (H2 : exists t, cl_insert fr 0 ft (mkCL [z] false) = COk (mkCL [t; z] false) /\ c_spec t = c_spec ft).
  { unfold cl_insert. cbn [dupes cx orb]. replace (is_duplicate ft [z]) with false.
    - eexists. split; reflexivity.
    - symmetry. apply not_true_iff_false. rewrite is_duplicate_iff. simpl. rewrite Z. intros [[H|[]] _]; discriminate. }
  destruct H2 as (t & E2 & T). rewrite E2. cbn [cl_of].
  assert (D : is_duplicate az [t; z] = true).
  { apply is_duplicate_iff. simpl. auto. }
  unfold cl_append, cl_insert at 1. cbn [dupes cx orb]. rewrite D. cbn [negb cl_of].
  rewrite reverse_noop; auto.
  - cbn [cl_of]. unfold cl_set. cbn [dupes cx orb]. rewrite D. cbn [negb cl_of]. unfold says; cbn [cx map]. congruence.
  - unfold says; simpl. rewrite Z, T. repeat constructor; cbn; congruence.
Qed.

(** *** Every accepted constraint is there, and the others stay. *)
Theorem C38_inserted_is_present : forall f i v l, dupes l = false ->
  let r := cl_insert f i v l in
  In (c_spec v) (says (cl_of r)) /\ incl (says l) (says (cl_of r)) /\
  incl (says (cl_of r)) (c_spec v :: says l).
Proof.
  intros f i v l Hd r. unfold r. rewrite insert_says, Hd. simpl.
  destruct (is_duplicate v (cx l)) eqn:E; simpl.
  - apply is_duplicate_iff in E. split; [apply E|]. split; [apply incl_refl|apply incl_tl, incl_refl].
  - pose proof (insert_at_perm (pyinsert_pos i (length (cx l))) (c_spec v) (says l)) as P.
    split; [eapply Permutation_in; [symmetry; apply P|]; left; auto|]. split.
    + intros s Hs. eapply Permutation_in; [symmetry; apply P|]. right; auto.
    + intros s Hs. eapply Permutation_in; [apply P|]. auto.
Qed.
(** A new constraint goes where [list.insert] would put it and nothing else moves relative to it. *)
Theorem C38_insert_position : forall f i v l, dupes l = false -> ~ In (c_spec v) (says l) ->
  (i <= length (cx l))%nat ->
  says (cl_of (cl_insert f (Z.of_nat i) v l)) = (firstn i (says l) ++ c_spec v :: skipn i (says l))%list.
Proof.
  intros f i v l Hd Hn Hi. rewrite insert_says, Hd. simpl.
  destruct (is_duplicate v (cx l)) eqn:E; [apply is_duplicate_iff in E; tauto|]. simpl. unfold insert_at.
  rewrite pyinsert_nonneg, Nat2Z.id, Nat.min_l by lia. auto.
Qed.
(** ... and it is linked to the model, if its parameters are in the frame. *)
Theorem C38_appended_is_linked : forall f v v' l, dupes l = false -> ~ In (c_spec v) (says l) ->
  link_model f None v = Some v' ->
  cl_append f v l = COk (mkCL (cx l ++ [v'])%list false).
Proof.
  intros f v v' l Hd Hn Hl. unfold cl_append, cl_insert. rewrite Hd. simpl.
  destruct (is_duplicate v (cx l)) eqn:E; [apply is_duplicate_iff in E; tauto|]. simpl.
  replace (pyinsert_pos (Z.of_nat (length (cx l))) (length (cx l))) with (length (cx l)).
  2:{ rewrite pyinsert_nonneg; lia. }
  unfold insert_at. rewrite firstn_all, skipn_all. unfold link_at; simpl.
  rewrite pyidx_nat by (rewrite app_length; simpl; lia).
  rewrite nth_error_app2, Nat.sub_diag by lia. simpl. rewrite Hl.
  replace (replace_at (length (cx l)) v' (cx l ++ [v])%list) with (cx l ++ [v'])%list; auto.
  clear; induction (cx l); simpl; auto. f_equal. auto.
Qed.
(** Deleting removes that one; replacing removes that one and puts the new one in its place. *)
Theorem C38_delete_only_that : forall i l, (i < length (cx l))%nat ->
  exists l', cl_del (Z.of_nat i) l = COk l' /\ says l' = (firstn i (says l) ++ skipn (S i) (says l))%list.
Proof.
  intros i l Hi. unfold cl_del. rewrite pyidx_nat by auto. eexists. split; [reflexivity|].
  unfold says; simpl. rewrite map_delete_at. generalize (map c_spec (cx l)). clear. intros l.
  revert i; induction l; destruct i; simpl; auto. f_equal. auto.
Qed.
Theorem C38_replace_only_that : forall f i v l, dupes l = false -> ~ In (c_spec v) (says l) ->
  (i < length (cx l))%nat ->
  says (cl_of (cl_set f (Z.of_nat i) v l)) = (firstn i (says l) ++ c_spec v :: skipn (S i) (says l))%list.
Proof.
  intros f i v l Hd Hn Hi. rewrite set_says, Hd. simpl.
  destruct (is_duplicate v (cx l)) eqn:E; [apply is_duplicate_iff in E; tauto|]. simpl.
  rewrite pyidx_nat by auto. assert (H : (i < length (says l))%nat) by (unfold says; rewrite map_length; auto).
  revert H. clear. generalize (says l) as s. intros s. revert i. induction s; destruct i; simpl; intros; auto; try lia.
  f_equal. apply IHs. lia.
Qed.

(** *** What fails *)
(** Assigning a whole list ([model.constraints = [c, c]], or the constructor argument) keeps
    duplicates although they are disallowed. *)
Theorem C38_assignment_keeps_duplicates_refuted : forall f c c' l, link_model f None c = Some c' ->
  cl_assign f [c; c] l = COk (mkCL [c'; c'] false) /\ ~ NoDup (says (mkCL [c'; c'] false)).
Proof.
  intros f c c' l H. unfold cl_assign; simpl. rewrite H. split; auto.
  intros N. inversion N; subst. apply H2. left; auto.
Qed.
(** reverse() does nothing at all, for every list. *)
Theorem C38_reverse_does_nothing_refuted : forall f l, dupes l = false -> Forall numeric (says l) ->
  cl_reverse f l = COk l.
Proof. exact reverse_noop. Qed.
(** Replacing a constraint by one that is elsewhere in the list silently keeps the old one. *)
Theorem C38_replace_by_duplicate_ignored_refuted : forall f i v l, dupes l = false -> numeric (c_spec v) ->
  In (c_spec v) (says l) -> cl_set f i v l = COk l.
Proof.
  intros f i v l Hd Hv Hin. unfold cl_set. rewrite Hd. simpl.
  replace (is_duplicate v (cx l)) with true; auto. symmetry. apply is_duplicate_iff. auto.
Qed.
(** insert(-1, v) links the wrong element: v sits before the last one, unlinked. *)
Theorem C38_negative_insert_links_another_refuted : forall f v w w', c_spec v <> c_spec w ->
  link_model f None w = Some w' ->
  cl_insert f (-1) v (mkCL [w] false) = COk (mkCL [v; w'] false).
Proof.
  intros f v w w' Hd Hw. unfold cl_insert. cbn [dupes cx orb]. replace (is_duplicate v [w]) with false.
  - unfold link_at. simpl. rewrite Hw. auto.
  - symmetry. apply not_true_iff_false. rewrite is_duplicate_iff. simpl. intros [[H|[]] _]. congruence.
Qed.
(** insert past the end raises IndexError, with the constraint already in the list and unlinked. *)
Theorem C38_insert_past_end_raises_refuted : forall f v l i, dupes l = false ->
  ~ In (c_spec v) (says l) -> (Z.of_nat (length (cx l)) < i)%Z ->
  cl_insert f i v l = CExn (mkCL (cx l ++ [v])%list false).
Proof.
  intros f v l i Hd Hn Hi. unfold cl_insert. rewrite Hd. simpl.
  destruct (is_duplicate v (cx l)) eqn:E; [apply is_duplicate_iff in E; tauto|]. simpl.
  replace (pyinsert_pos i (length (cx l))) with (length (cx l)).
  2:{ rewrite pyinsert_nonneg; lia. }
  unfold insert_at. rewrite firstn_all, skipn_all. unfold link_at; simpl. rewrite app_length; simpl.
  unfold pyidx. destruct (Z.ltb_spec i 0); [lia|]. destruct (Z.leb_spec 0 i); [|lia].
  destruct (Z.ltb_spec i (Z.of_nat (length (cx l) + 1))); [lia|]. simpl. auto.
Qed.
