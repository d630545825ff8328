(** The order of the rows does not matter. *)
From Verif Require Export IdcaRead.
From Coq Require Import Permutation.
Open Scope nat_scope.

Lemma reordered_perm : forall f A (l l' : list A), (forall i j, f i = f j -> i = j) -> reordered f l l' -> Permutation l l'.
Proof. intros f A l l' I [L H]. apply Permutation_nth_error. split; auto. exists f. split; auto. Qed.
Lemma reordered_map : forall f A B (g : A -> B) l l', reordered f l l' -> reordered f (map g l) (map g l').
Proof. intros f A B g l l' [L H]. split; [now rewrite !map_length|]. intros i. rewrite !nth_error_map, H. reflexivity. Qed.
Lemma existsb_perm : forall A (p : A -> bool) l l', Permutation l l' -> existsb p l = existsb p l'.
Proof. intros A p l l' H. induction H; cbn; try congruence. now rewrite !orb_assoc, (orb_comm (p y)). Qed.
Lemma forallb_perm : forall A (p : A -> bool) l l', Permutation l l' -> forallb p l = forallb p l'.
Proof. intros A p l l' H. induction H; cbn; try congruence. now rewrite !andb_assoc, (andb_comm (p y)). Qed.
Lemma distinctb_perm : forall l l', Permutation l l' -> distinctb pair_eqb l = distinctb pair_eqb l'.
Proof.
  intros l l' H. destruct (distinctb pair_eqb l') eqn:E.
  - apply nodup_distinctb. apply distinctb_nodup in E. eapply Permutation_NoDup; [apply Permutation_sym|]; eauto.
  - destruct (distinctb pair_eqb l) eqn:E'; auto. rewrite <- E. symmetry. apply nodup_distinctb. apply distinctb_nodup in E'.
    eapply Permutation_NoDup; eauto.
Qed.
Lemma used_perm : forall A (l : list A) c c', Permutation c c' -> used_levels l c = used_levels l c'.
Proof.
  intros A l c c' H. unfold used_levels. f_equal. apply filter_ext. intros [x k]. now apply existsb_perm.
Qed.
Lemma new_code_perm : forall c c' k, Permutation c c' -> new_code c k = new_code c' k.
Proof. intros c c' k H. unfold new_code. f_equal. apply filter_ext. intros x. now apply existsb_perm. Qed.
Lemma some_codes_perm : forall c c', Permutation c c' -> Permutation (some_codes c) (some_codes c').
Proof. intros. unfold some_codes. now apply Permutation_flat_map. Qed.
Lemma last_written_reordered : forall f at_ at' vals vals' i j, (forall i j, f i = f j -> i = j) -> NoDup at_ ->
  reordered f at_ at' -> reordered f vals vals' -> length vals = length at_ ->
  last_written at' vals' i j = last_written at_ vals i j.
Proof.
  intros f at_ at' vals vals' i j INJ ND RA RV LV.
  destruct (last_written at' vals' i j) as [v|] eqn:E.
  - apply last_written_row in E as (r & A & B). symmetry. destruct RA as [_ RA], RV as [_ RV].
    eapply last_written_nodup; [auto|auto|rewrite <- RA; exact A|rewrite <- RV; exact B].
  - destruct (last_written at_ vals i j) as [v|] eqn:E'; auto. exfalso.
    apply last_written_row in E' as (r & A & _).
    assert (I : In (i, j) at') by (eapply Permutation_in; [eapply reordered_perm; eauto|]; eapply nth_error_In; eauto).
    apply In_nth_error in I as (r' & I). destruct RA as [LA _], RV as [LV' _].
    destruct (last_written_some at' vals' i j r') as (w & W); auto; congruence.
Qed.
Lemma repeat_reordered : forall f A (x : A) (l l' : list (nat * nat)), (forall i j, f i = f j -> i = j) -> reordered f l l' ->
  reordered f (repeat x (length l)) (repeat x (length l')).
Proof.
  intros f A x l l' I [L H]. split; [now rewrite !repeat_length|]. intros i.
  destruct (nth_error (repeat x (length l')) i) as [y|] eqn:E.
  - assert (i < length l') by (rewrite <- (repeat_length x (length l')); apply nth_error_Some; congruence).
    assert (f i < length l) by (apply nth_error_Some; rewrite <- H; now apply nth_error_Some).
    destruct (nth_error (repeat x (length l)) (f i)) as [z|] eqn:E2.
    + apply nth_error_In, repeat_spec in E, E2. congruence.
    + apply nth_error_None in E2. rewrite repeat_length in E2. lia.
  - apply nth_error_None in E. rewrite repeat_length in E. symmetry. apply nth_error_None. rewrite repeat_length.
    apply nth_error_None. rewrite <- H. now apply nth_error_None.
Qed.
Lemma look_dtype : forall k f cols cols',
  Forall2 (fun kc kc' => fst kc = fst kc' /\ fst (snd kc) = fst (snd kc') /\ reordered f (snd (snd kc)) (snd (snd kc'))) cols cols' ->
  option_map fst (look k cols) = option_map fst (look (A := dtype * list cell) k cols').
Proof.
  intros k f cols cols' H. unfold look. induction H as [|[k1 [d1 v1]] [k2 [d2 v2]] l l' (A & B & _) H IH]; auto.
  cbn in *. subst. destruct (String.eqb k k2); auto.
Qed.
Lemma relabel_shuffled : forall t t' names f, (forall i j, f i = f j -> i = j) -> t_alts t = t_alts t' ->
  reordered f (t_codes t) (t_codes t') ->
  match relabel t names with
  | Ok (alts, codes, nm) => exists codes', relabel t' names = Ok (alts, codes', nm) /\ reordered f codes codes'
  | ValueErr => relabel t' names = ValueErr
  | KeyErr => relabel t' names = KeyErr
  end.
Proof.
  intros t t' names f INJ EA RC. unfold relabel. rewrite <- EA. destruct (t_alts t) as [l|l].
  - exists (t_codes t'). auto.
  - destruct names as [given|].
    + destruct (negb _); auto. set (rc := fun c : nat * option nat => _).
      assert (RM : reordered f (map rc (t_codes t)) (map rc (t_codes t'))) by now apply reordered_map.
      assert (CF : codes_fit (length l) (map rc (t_codes t)) = codes_fit (length l) (map rc (t_codes t'))).
      { apply forallb_perm. eapply reordered_perm; eauto. }
      rewrite CF. destruct (negb _); auto. eexists. split; [reflexivity|]. exact RM.
    + exists (t_codes t'). auto.
Qed.
Lemma frame_shuffled : forall f cases alts codes codes' cols cols', (forall i j, f i = f j -> i = j) -> reordered f codes codes' ->
  Forall2 (fun kc kc' => fst kc = fst kc' /\ fst (snd kc) = fst (snd kc') /\ reordered f (snd (snd kc)) (snd (snd kc'))) cols cols' ->
  (forall k d vals, In (k, (d, vals)) cols -> length vals = length codes) -> (forall c, In c codes -> snd c <> None) ->
  (forall c, In c codes -> fst c < length cases) ->
  from_frame cases alts codes cols = from_frame cases alts codes' cols' /\
  (distinctb pair_eqb codes = true -> NoDup (placed alts codes) /\ reordered f (placed alts codes) (placed alts codes')).
Proof.
  intros f cases alts codes codes' cols cols' INJ RC RV LEN NN BND.
  assert (PC : Permutation codes codes') by (eapply reordered_perm; eauto).
  assert (P1 : Permutation (map fst codes) (map fst codes')) by now apply Permutation_map.
  assert (P2 : Permutation (some_codes codes) (some_codes codes')) by now apply some_codes_perm.
  assert (RP : reordered f (placed alts codes) (placed alts codes')).
  { unfold placed. rewrite <- (used_perm _ alts _ _ P2). apply reordered_map.
    replace (map _ codes') with (map (fun c => (new_code (map fst codes) (fst c), option_map (new_code (some_codes codes)) (snd c))) codes').
    - now apply reordered_map.
    - apply map_ext. intros [x [y|]]; cbn [fst snd option_map]; now rewrite ?(new_code_perm _ _ _ P1), ?(new_code_perm _ _ _ P2). }
  assert (ND : distinctb pair_eqb codes = true -> NoDup (placed alts codes)).
  { intros D. apply distinctb_nodup in D.
    assert (exists c0, codes = map full c0) as (c0 & E).
    { clear -NN. induction codes as [|[x [y|]] l IH]; [now exists []| |].
      - destruct IH as (c0 & E); [intros; apply NN; cbn; auto|]. exists ((x, y) :: c0). cbn. now rewrite E.
      - exfalso. apply (NN (x, None)); cbn; auto. }
    subst codes. rewrite placed_place. apply place_nodup. now apply NoDup_map_inv in D. }
  split; [|auto]. unfold from_frame. rewrite <- (distinctb_perm _ _ PC). destruct (distinctb pair_eqb codes) eqn:D; cbn [negb]; auto.
  specialize (ND eq_refl).
  fold (placed alts codes) (placed alts codes'). f_equal.
  rewrite <- (used_perm _ cases _ _ P1), <- (used_perm _ alts _ _ P2). f_equal.
  clear -RV LEN RP ND INJ. 
  assert (LP : length (placed alts codes) = length codes) by (unfold placed; now rewrite !map_length).
  induction RV as [|[k1 [d1 v1]] [k2 [d2 v2]] l l' (A & B & C) H IH]; auto.
  cbn [map fst snd] in *. subst. f_equal; [|apply IH; intros; eapply LEN; right; eauto].
  f_equal. unfold to_dense. destruct RP as [L1 L2]. rewrite <- L1.
  assert (LW : forall i j, last_written (placed alts codes') v2 i j = last_written (placed alts codes) v1 i j).
  { intros i j. eapply last_written_reordered; eauto; [split; auto|]. rewrite LP. eapply LEN. left. reflexivity. }
  destruct (_ <? _); f_equal; apply map_ext; intros i; apply map_ext; intros j; now rewrite LW.
Qed.
Lemma shuffle_same : forall junk o t t', proper t -> covered o t -> shuffled t t' -> from_idca junk o t = from_idca junk o t'.
Proof.
  intros junk o t t' P C (EC & EA & f & INJ & RC & RV).
  unfold from_idca. pose proof (relabel_shuffled t t' (listed (o_altnames o)) f INJ EA RC) as RL.
  destruct (relabel t (listed (o_altnames o))) as [[[alts codes] nm]| |] eqn:RE; [|now rewrite RL|now rewrite RL].
  destruct RL as (codes' & -> & RC'). cbn [bind].
  destruct (relabel_rows t o alts codes nm P C RE) as (codes0 & E0 & LEN0 & _ & ROWS).
  assert (LC : length codes = length (t_codes t)) by (rewrite E0, map_length; auto).
  rewrite <- EC.
  destruct (frame_shuffled f (t_cases t) alts codes codes' (t_cols t) (t_cols t') INJ RC' RV) as [FE PL].
  { intros k d vals I. destruct (p_cols t P k d vals I) as [-> _]. auto. }
  { intros c I. rewrite E0 in I. apply in_map_iff in I as (c1 & <- & _). discriminate. }
  { intros c I. rewrite E0 in I. apply in_map_iff in I as (c1 & <- & I). apply In_nth_error in I as (r & I). cbn.
    assert (r < length (t_codes t)) by (rewrite <- LEN0; apply nth_error_Some; congruence).
    destruct (nth_error (t_codes t) r) as [[c oa]|] eqn:Er; [|apply nth_error_None in Er; lia].
    destruct (p_codes t P c oa (nth_error_In _ _ Er)) as (Lc & a & -> & _).
    destruct (ROWS r c a Er) as (b & B & _). rewrite I in B. injection B as ->. exact Lc. }
  rewrite <- FE. destruct (from_frame (t_cases t) alts codes (t_cols t)) as [ds| |] eqn:FR; auto. cbn [bind].
  assert (D : distinctb pair_eqb codes = true) by (unfold from_frame in FR; destruct (distinctb pair_eqb codes); auto; discriminate).
  destruct (PL D) as [ND RP].
  assert (SD : forall vs, set_dtypes junk (t_cols t') vs = set_dtypes junk (t_cols t) vs).
  { intros vs. unfold set_dtypes. apply map_ext. intros [k x]. cbn. pose proof (look_dtype k f _ _ RV) as L.
    destruct (look k (t_cols t)) as [[d v]|], (look k (t_cols t')) as [[d' v']|]; cbn in L; try discriminate; auto. cbn. congruence. }
  rewrite SD.
  match goal with |- bind ?m _ = bind _ _ => destruct m as [d3| |] end; auto. cbn [bind].
  replace (length codes') with (length codes) by (destruct RC'; auto).
  assert (CA : forall nc na, computed_avail nc na (placed alts codes') = computed_avail nc na (placed alts codes)).
  { intros nc na. unfold computed_avail. f_equal. apply map_ext. intros i. apply map_ext. intros j.
    rewrite (last_written_reordered f (placed alts codes) (placed alts codes') (repeat (CI 1) (length (placed alts codes))) _ i j); auto;
      [now apply repeat_reordered|apply repeat_length]. }
  now rewrite CA.
Qed.
