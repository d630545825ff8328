(** Groups of models add up (C44). *)
From Verif Require Export GroupProofs3.
From Coquelicot Require Import Coquelicot.
Open Scope list_scope.
Open Scope nat_scope.

(** * The parameters of a group *)

(** The parameters of a group are its own and those of its members.  Its own keep their values; the
    others have the value of the first member that knows them (if that member has a row for it). *)
Theorem C44_parameters d g : group_ok g -> length (g_members g) < d ->
  exists g', unmangle_group d g = Some g' /\
    NoDup (map r_name (rows (m_frame (g_model g')))) /\
    (forall n, In n (map r_name (rows (m_frame (g_model g')))) <-> group_knows g n) /\
    (forall n v, value_of (m_frame (g_model g)) n = Some v -> value_of (m_frame (g_model g')) n = Some v) /\
    (forall n i k v, ~ In n (map r_name (rows (m_frame (g_model g)))) ->
       nth_error (g_members g) i = Some k -> value_of (m_frame (k_model k)) n = Some v ->
       (forall j k', j < i -> nth_error (g_members g) j = Some k' -> ~ knows (k_model k') n) ->
       value_of (m_frame (g_model g')) n = Some v).
Proof.
  intros GO Hd. destruct (ready_start g GO) as (fs & R & Q).
  destruct (ready_unmangle (g_members g) g fs d R Hd) as (g1 & fs1 & E1 & R1 & I1 & C1).
  exists g1. split; auto. split; [apply I1|].
  assert (FS : forall i k, nth_error (g_members g) i = Some k -> exists f, nth_error fs i = Some f).
  { intros i k H. destruct (tracked_nth _ _ _ _ _ (r_tracked _ _ _ R) H) as (_ & f & _ & Hf & _). eauto. }
  assert (FM : forall i f, nth_error fs i = Some f -> exists k, nth_error (g_members g) i = Some k).
  { intros i f H. destruct (nth_error (g_members g) i) eqn:X; eauto. exfalso. apply nth_error_None in X.
    destruct (tracked_length _ _ _ (r_tracked _ _ _ R)). assert (i < length fs) by (apply nth_error_Some; congruence). lia. }
  assert (HN : forall n, In n (nm (m_frame (g_model g1))) <-> group_knows g n).
  { intros n. unfold group_knows. split.
    - intros H. destruct (i_first _ _ _ _ I1 n H) as [H'|(i & f0 & A & B & _)]; auto. right.
      destruct (FM i f0 A) as [k Hk]. exists k. split; [eapply nth_error_In; eauto|]. apply (Q i k f0); auto.
    - intros [H|(k & A & B)].
      + destruct (value_of_some _ _ H) as [v E]. apply (i_own _ _ _ _ I1) in E.
        destruct (in_dec string_dec n (nm (m_frame (g_model g1)))); auto. apply value_of_none in n0. congruence.
      + apply In_nth_error in A as [i A]. destruct (FS i k A) as [f Hf]. apply (C1 i f); auto; [apply nth_error_Some; congruence|].
        apply (Q i k f); auto. }
  split; auto. split; [apply (i_own _ _ _ _ I1)|].
  intros n i k v Ho Hk Hv Hj. destruct (FS i k Hk) as [f Hf]. destruct (Q i k f Hk Hf) as (Q1 & Q2 & _).
  assert (Hn : knows (k_model k) n).
  { left. change (In n (nm (m_frame (k_model k)))). destruct (in_dec string_dec n (nm (m_frame (k_model k)))); auto.
    apply value_of_none in n0. congruence. }
  assert (Hg : In n (nm (m_frame (g_model g1)))) by (apply HN; right; exists k; split; auto; eapply nth_error_In; eauto).
  destruct (i_first _ _ _ _ I1 n Hg) as [C|(i' & f0 & A & B & D & _ & F)]; [contradiction|].
  assert (i' = i) as ->.
  { destruct (Nat.lt_trichotomy i' i) as [X|[X|X]]; auto; exfalso.
    - destruct (FM i' f0 A) as [k' Hk']. apply (Hj i' k' X Hk'). apply (Q i' k' f0); auto.
    - apply (F i f X Hf). apply Q1. auto. }
  rewrite D. rewrite Hf in A. injection A as <-. apply Q2. auto.
Qed.

(** * The log likelihood *)

(** The log likelihood of a group is the sum of those of the members, each at its own values.  After
    it has been computed: the group has the values asked for, under the names of C44_parameters; in
    each member every parameter it does not hold fast has the value the group has, and those it
    holds fast keep the value they had. *)
Theorem C44_loglike d x g : group_ok g -> length (g_members g) < d -> settable d x g ->
  exists ll g', loglike_group d x g = Some (ll, g') /\
    ll = py_sum (map (fun k => k_ll k (values_of (m_frame (k_model k)))) (g_members g')) /\
    evaluation d x g g'.
Proof.
  intros GO Hd S. destruct (prep_evaluate d x g GO Hd S) as (g1 & ms' & E1 & E2 & EV).
  unfold loglike_group. rewrite E1. cbn [obind]. rewrite E2. cbn [obind fst snd].
  eexists. eexists. split; [reflexivity|]. split; [reflexivity|]. apply EV.
Qed.

(** n_cases and total_weight are sums over the members. *)
Theorem C44_totals g :
  n_cases g = fold_right Nat.add 0%nat (map k_cases (g_members g)) /\
  ((forall k, In k (g_members g) -> exists w, k_weight k = Fin w) ->
   total_weight g = Fin (total (fun k => match k_weight k with Fin w => w | _ => 0%R end) (g_members g))).
Proof.
  split.
  - unfold n_cases. apply fold_symmetric; intros; lia.
  - unfold total_weight, py_sum, total. intros H.
    assert (X : forall a, fold_left nadd (map k_weight (g_members g)) (Fin a) =
      Fin (a + fold_right Rplus 0%R (map (fun k => match k_weight k with Fin w => w | _ => 0%R end) (g_members g)))%R).
    { revert H. induction (g_members g) as [|k l IH]; intros H a; simpl; [f_equal; ring|].
      destruct (H k (or_introl eq_refl)) as [w Hw]. rewrite Hw. simpl. rewrite IH by (intros; apply H; right; auto). f_equal. ring. }
    rewrite X. f_equal. ring.
Qed.

(** * Changing the list of members *)
(** Deleting the i-th member removes that one and no other; inserting a model at i puts it there and
    moves the later ones up; the two undo each other, both keep the group well formed (so that
    every theorem here applies to it), and the number of cases changes by those of that member. *)
Theorem C44_delete_and_insert g i k : group_ok g ->
  (nth_error (g_members g) i = Some k ->
     (forall j, nth_error (g_members (delete_member i g)) j = nth_error (g_members g) (if j <? i then j else S j)) /\
     n_cases g = (n_cases (delete_member i g) + k_cases k)%nat /\
     g_members (insert_member i k (delete_member i g)) = g_members g /\ group_ok (delete_member i g)) /\
  (i <= length (g_members g) ->
     nth_error (g_members (insert_member i k g)) i = Some k /\
     (forall j, nth_error (g_members (insert_member i k g)) (if j <? i then j else S j) = nth_error (g_members g) j) /\
     n_cases (insert_member i k g) = (n_cases g + k_cases k)%nat /\
     g_members (delete_member i (insert_member i k g)) = g_members g /\
     (model_ok (k_model k) -> (forall n, knows (k_model k) n -> reserved n = false) -> group_ok (insert_member i k g))).
Proof.
  intros GO.
  assert (NC : forall h, n_cases h = fold_right Nat.add 0%nat (map k_cases (g_members h))) by (intros h; apply C44_totals).
  assert (FA : forall (f : member -> nat) l1 l2, fold_right Nat.add 0%nat (map f (l1 ++ l2)) = fold_right Nat.add 0%nat (map f l1) + fold_right Nat.add 0%nat (map f l2)).
  { intros f l1 l2. induction l1 as [|a l1 IH]; simpl; auto. rewrite IH. lia. }
  split.
  - intros E. apply nth_error_split in E. destruct E as (l1 & l2 & E & <-).
    assert (D : g_members (delete_member (length l1) g) = l1 ++ l2).
    { unfold delete_member. cbn [g_members]. rewrite E. rewrite firstn_app, Nat.sub_diag, firstn_all. cbn [firstn]. rewrite app_nil_r. f_equal.
      rewrite skipn_app. rewrite (skipn_all2 l1) by lia. replace (S (length l1) - length l1) with 1 by lia. reflexivity. }
    split; [|split; [|split]].
    + intros j. rewrite D, E. destruct (Nat.ltb_spec j (length l1)).
      * rewrite !nth_error_app1 by auto. auto.
      * rewrite !nth_error_app2 by lia. replace (S j - length l1) with (S (j - length l1)) by lia. reflexivity.
    + rewrite !NC, D, E, !FA. simpl. lia.
    + unfold insert_member. cbn [g_members]. rewrite D, E. rewrite firstn_app, Nat.sub_diag, firstn_all. cbn [firstn]. rewrite app_nil_r. f_equal. f_equal.
      rewrite skipn_app, Nat.sub_diag, skipn_all. reflexivity.
    + destruct GO as (G1 & G2 & G3 & G4 & G5). split; [auto|]. split; [auto|]. rewrite D. split; [|split; [auto|]].
      * intros k' Hk. apply G3. rewrite E. apply in_app_or in Hk. apply in_or_app. simpl. tauto.
      * intros k' n Hk. apply G5. rewrite E. apply in_app_or in Hk. apply in_or_app. simpl. tauto.
  - intros Hi. set (l1 := firstn i (g_members g)). set (l2 := skipn i (g_members g)).
    assert (L1 : length l1 = i) by (apply firstn_length_le; auto).
    assert (E : g_members g = l1 ++ l2) by (symmetry; apply firstn_skipn).
    assert (D : g_members (insert_member i k g) = l1 ++ k :: l2) by reflexivity.
    split; [|split; [|split; [|split]]].
    + rewrite D, nth_error_app2, L1, Nat.sub_diag by lia. reflexivity.
    + intros j. rewrite D, E. destruct (Nat.ltb_spec j i).
      * rewrite !nth_error_app1 by lia. auto.
      * rewrite !nth_error_app2 by lia. replace (S j - length l1) with (S (j - length l1)) by lia. reflexivity.
    + rewrite !NC, D, E, !FA. simpl. lia.
    + unfold delete_member. rewrite D, E. cbn [g_members]. rewrite <- L1. rewrite firstn_app, Nat.sub_diag, firstn_all. cbn [firstn]. rewrite app_nil_r. f_equal.
      rewrite skipn_app, (skipn_all2 l1) by lia. replace (S (length l1) - length l1) with 1 by lia. reflexivity.
    + intros Ok Rs. destruct GO as (G1 & G2 & G3 & G4 & G5). split; [auto|]. split; [auto|]. rewrite D. split; [|split; [auto|]].
      * intros k' Hk. apply in_app_or in Hk. destruct Hk as [Hk|[ <-|Hk]]; auto; apply G3; rewrite E; apply in_or_app; auto.
      * intros k' n Hk Hn. apply in_app_or in Hk. destruct Hk as [Hk|[ <-|Hk]]; auto; apply (G5 k'); auto; rewrite E; apply in_or_app; auto.
Qed.

(** * The gradient *)
(** Its contribution: nothing if there is no entry or the entry is NaN. *)
Definition part_of (s : list (string * num)) (n : string) : R :=
  match lookup n s with Some v => re v | None => 0%R end.

Lemma lookup_map_key (h : string -> num) l n : lookup n (map (fun m => (m, h m)) l) = if mem n l then Some (h n) else None.
Proof.
  unfold lookup. induction l as [|m l IH]; simpl; auto. rewrite (String.eqb_sym n m).
  destruct (String.eqb_spec m n) as [ ->|N]; simpl; auto.
Qed.
Lemma lookup_none n s : lookup n s = None <-> ~ In n (map fst s).
Proof.
  unfold lookup. induction s as [|[m v] s IH]; simpl; [tauto|]. destruct (String.eqb_spec m n) as [E|E]; simpl.
  - split; [discriminate|]. intros H. exfalso. auto.
  - rewrite IH. tauto.
Qed.
Lemma lookup_add a b n : lookup n (series_add a b) =
  match lookup n a, lookup n b with None, None => None | x, y => Some (fill_add x y) end.
Proof.
  unfold series_add. rewrite lookup_map_key. destruct (mem n _) eqn:M.
  - apply mem_In in M. apply in_app_iff in M as [M|M].
    + destruct (lookup n a) eqn:E; [destruct (lookup n b); auto|]. apply lookup_none in E. contradiction.
    + apply filter_In in M as [M _]. destruct (lookup n b) eqn:E; [destruct (lookup n a); auto|]. apply lookup_none in E. contradiction.
  - apply mem_false in M. rewrite in_app_iff, filter_In, negb_true_iff, mem_false in M.
    assert (Na : ~ In n (map fst a)) by tauto. assert (Nb : ~ In n (map fst b)) by tauto.
    apply lookup_none in Na. apply lookup_none in Nb. rewrite Na, Nb. auto.
Qed.
(** An entry that is a number. *)
Definition numeric (s : list (string * num)) (n : string) : Prop := exists x, lookup n s = Some (Fin x).
Definition tame (s : list (string * num)) (n : string) : Prop := forall v, lookup n s = Some v -> finite_or_nan v.

Lemma series_sum n ss s : tame s n -> (forall s', In s' ss -> tame s' n) ->
  let r := fold_left series_add ss s in
  ((numeric s n \/ exists s', In s' ss /\ numeric s' n) ->
    lookup n r = Some (Fin (part_of s n + total (fun s => part_of s n) ss)%R)) /\
  (lookup n r = None <-> lookup n s = None /\ forall s', In s' ss -> lookup n s' = None).
Proof.
  revert s. induction ss as [|t ss IH]; intros s Ts Tss; cbn [fold_left].
  - split.
    + intros [[x Hx]|(s' & [] & _)]. unfold part_of, total. rewrite Hx. simpl. f_equal. f_equal. ring.
    + split; [intros H; split; auto; intros s' []|tauto].
  - assert (Tt : tame t n) by (apply Tss; left; auto).
    assert (Ta : tame (series_add s t) n /\ part_of (series_add s t) n = (part_of s n + part_of t n)%R /\
       (numeric s n \/ numeric t n -> numeric (series_add s t) n) /\
       (lookup n (series_add s t) = None <-> lookup n s = None /\ lookup n t = None)).
    { unfold tame, part_of, numeric in *. rewrite lookup_add.
      destruct (lookup n s) as [a|]; [destruct (Ts a eq_refl) as [ ->|[xa ->]]|];
      (destruct (lookup n t) as [b|]; [destruct (Tt b eq_refl) as [ ->|[xb ->]]|]);
      unfold fill_add; simpl; (split; [intros v; try discriminate; intros [= <-]; unfold finite_or_nan; eauto|]);
      (split; [ring|]); (split; [|intuition congruence]); intros [[z Hz]|[z Hz]]; try discriminate; eauto. }
    destruct Ta as (Ta & Pa & Na & La).
    destruct (IH (series_add s t) Ta) as [A B]; [intros; apply Tss; right; auto|]. split.
    + intros H. rewrite A.
      * f_equal. f_equal. rewrite Pa. unfold total. simpl. ring.
      * destruct H as [H|(s' & [ <-|H] & H')]; [left; auto|left; auto|right; eauto].
    + rewrite B, La. split.
      * intros [[H1 H2] H3]. split; auto. intros s' [ <-|H]; auto.
      * intros [H1 H2]. split; [split; auto; apply H2; left; auto|]. intros s' H. apply H2. right. auto.
Qed.

Lemma select_ok ns s : (forall n, In n ns -> lookup n s <> None) -> exists r, select ns s = Some r /\ map fst r = ns /\
  forall n, In n ns -> lookup n r = lookup n s.
Proof.
  induction ns as [|n ns IH]; intros H; simpl; [exists []; repeat split; auto; intros n []|].
  destruct (lookup n s) as [v|] eqn:E; [|exfalso; apply (H n); [left|]; auto].
  destruct IH as (r & -> & F & L); [intros; apply H; right; auto|]. eexists. split; [reflexivity|]. split; [simpl; congruence|].
  intros m Hm. unfold lookup at 1. simpl. destruct (String.eqb_spec n m) as [ ->|N]; [simpl; auto|].
  destruct Hm as [Hm|Hm]; [contradiction|]. apply L. auto.
Qed.
Lemma select_bad ns s n : In n ns -> lookup n s = None -> select ns s = None.
Proof.
  induction ns as [|m ns IH]; intros H E; [destruct H|]. simpl. destruct H as [ ->|H]; [rewrite E; auto|].
  rewrite IH by auto. destruct (lookup m s); auto.
Qed.

Lemma member_dll_lookup k n : lookup n (member_dll k) =
  if mem n (nm (m_frame (k_model k))) then Some (k_dll k (values_of (m_frame (k_model k))) n) else None.
Proof.
  unfold member_dll. set (vs := values_of _). rewrite <- (values_fst (m_frame (k_model k))). fold vs. generalize (k_dll k vs). intros h.
  rewrite <- lookup_map_key, map_map. reflexivity.
Qed.

(** The gradient is by name: for each parameter of the group, the sum over the members that know it
    (entries that are not a number are left out, see below), provided at least one entry is a number
    and none is infinite. *)
Theorem C44_gradient d x g : group_ok g -> length (g_members g) < d -> settable d x g -> g_members g <> [] ->
  (forall n, In n (map r_name (rows (m_frame (g_model g)))) -> exists k, In k (g_members g) /\ knows (k_model k) n) ->
  exists ll dll g', loglike2_group d x g = Some (ll, dll, g') /\
    ll = py_sum (map (fun k => k_ll k (values_of (m_frame (k_model k)))) (g_members g')) /\
    evaluation d x g g' /\
    map fst dll = map r_name (rows (m_frame (g_model g'))) /\
    let entry n k := k_dll k (values_of (m_frame (k_model k))) n in
    let having n := filter (fun k => mem n (map r_name (rows (m_frame (k_model k))))) (g_members g') in
    forall n, In n (map r_name (rows (m_frame (g_model g')))) ->
      (forall k, In k (having n) -> finite_or_nan (entry n k)) ->
      (exists k y, In k (having n) /\ entry n k = Fin y) ->
      lookup n dll = Some (Fin (total (fun k => re (entry n k)) (having n))).
Proof.
  intros GO Hd S NE Own. destruct (prep_evaluate d x g GO Hd S) as (g1 & ms' & E1 & E2 & EV).
  unfold loglike2_group. rewrite E1. cbn [obind]. rewrite E2. cbn [obind fst snd].
  assert (V := EV (Fin 0)). assert (LL := e_length _ _ _ _ V). cbn [g_members] in LL.
  destruct (map member_dll ms') as [|s ss] eqn:Em.
  { exfalso. destruct ms'; [|discriminate]. destruct (g_members g); [congruence|discriminate]. }
  assert (NM : nm (m_frame (g_model g1)) = nm (m_frame (check_if_best (Fin 0) (g_model g1)))) by (symmetry; apply nm_best).
  assert (HK : forall n, In n (nm (m_frame (g_model g1))) -> lookup n (fold_left series_add ss s) <> None).
  { intros n Hn C. 
    assert (exists k, In k (g_members g) /\ knows (k_model k) n) as (k & Hk & Kn).
    { rewrite NM in Hn. apply (e_names _ _ _ _ V) in Hn. destruct Hn as [Hn|Hn]; auto. }
    apply In_nth_error in Hk as [i Hk].
    destruct (nth_error ms' i) as [k'|] eqn:Hk'.
    2:{ apply nth_error_None in Hk'. assert (i < length (g_members g)) by (apply nth_error_Some; congruence). lia. }
    destruct (e_members _ _ _ _ V i k k' Hk Hk') as (N & _).
    assert (X : forall ss s, lookup n (fold_left series_add ss s) = None -> forall t, t = s \/ In t ss -> lookup n t = None).
    { clear. induction ss as [|t ss IH]; intros s H u Hu; simpl in H.
      - destruct Hu as [ ->|[]]. auto.
      - assert (A := IH _ H (series_add s t) (or_introl eq_refl)). rewrite lookup_add in A.
        destruct Hu as [ ->|[ <-|Hu]].
        + destruct (lookup n s); [discriminate|auto].
        + destruct (lookup n s); [discriminate|]. destruct (lookup n t); [discriminate|auto].
        + eapply IH; eauto. }
    assert (Y : lookup n (member_dll k') = None).
    { apply (X ss s C). assert (Z : In (member_dll k') (s :: ss)) by (rewrite <- Em; apply in_map; eapply nth_error_In; eauto).
      destruct Z; auto. }
    rewrite member_dll_lookup in Y. destruct (mem n (nm (m_frame (k_model k')))) eqn:M; [discriminate|].
    apply mem_false in M. apply M. apply N. auto. }
  destruct (select_ok (names (rows (m_frame (g_model g1)))) (fold_left series_add ss s) HK) as (r & Er & Fr & Lr).
  rewrite Er. cbn [obind]. eexists. eexists. eexists. split; [reflexivity|]. split; [reflexivity|]. split; [apply EV|].
  cbn [g_members g_model]. split.
  { rewrite Fr. symmetry. apply nm_best. }
  set (entry := fun n k => k_dll k (values_of (m_frame (k_model k))) n).
  set (having := fun n => filter (fun k => mem n (map r_name (rows (m_frame (k_model k))))) ms').
  intros n Hn Hf Hx. fold (having n) in *. fold (nm (m_frame (check_if_best (py_sum (map (fun k => k_ll k (values_of (m_frame (k_model k)))) ms')) (g_model g1)))) in Hn.
  rewrite nm_best in Hn. rewrite Lr by auto.
  assert (TM : forall t, In t (s :: ss) -> tame t n).
  { intros t Ht v Hv. rewrite <- Em in Ht. apply in_map_iff in Ht as (k & <- & Hk). rewrite member_dll_lookup in Hv.
    destruct (mem n (nm (m_frame (k_model k)))) eqn:M; [|discriminate]. injection Hv as <-. apply Hf. apply filter_In. split; auto. }
  destruct (series_sum n ss s) as [A _]; [apply TM; left; auto|intros; apply TM; right; auto|].
  rewrite A.
  - f_equal. f_equal. change (part_of s n + total (fun s0 => part_of s0 n) ss)%R with (total (fun s0 => part_of s0 n) (s :: ss)).
    rewrite <- Em. unfold having. clear. unfold total. rewrite map_map. induction ms' as [|k l IH]; simpl; auto.
    rewrite IH. unfold part_of. rewrite member_dll_lookup. change (map r_name (rows (m_frame (k_model k)))) with (nm (m_frame (k_model k))).
    destruct (mem n (nm (m_frame (k_model k)))) eqn:M; simpl; [reflexivity|ring].
  - destruct Hx as (k & y & Hk & Hy). apply filter_In in Hk as [Hk M].
    assert (Z : In (member_dll k) (s :: ss)) by (rewrite <- Em; apply in_map; auto).
    assert (N : numeric (member_dll k) n).
    { exists y. rewrite member_dll_lookup. unfold nm. rewrite M. f_equal. exact Hy. }
    destruct Z as [Z|Z]; [left; rewrite Z; auto|right; eauto].
Qed.

(** * End to end: the gradient is the derivative of the sum *)

Lemma differentiate_nth ks ls i k : differentiate ks ls -> nth_error ks i = Some k -> exists l, nth_error ls i = Some l /\ differentiates k l.
Proof. intros D. revert i. induction D as [|a l ks ls A B IH]; intros [|i] Hi; try discriminate; simpl in *; [injection Hi as <-; eauto|eauto]. Qed.
Lemma py_sum_fin ks : forall a, (forall k, In k ks -> exists y, k = Fin y) -> fold_left nadd ks (Fin a) = Fin (a + total re ks)%R.
Proof.
  induction ks as [|k ks IH]; intros a H; unfold total; simpl; [f_equal; ring|].
  destruct (H k (or_introl eq_refl)) as [y ->]. simpl. rewrite IH by (intros; apply H; right; auto). unfold total. f_equal. simpl. ring.
Qed.
Lemma knows_dec g g' d x i k k' n : evaluation d x g g' -> nth_error (g_members g) i = Some k -> nth_error (g_members g') i = Some k' ->
  mem n (nm (m_frame (k_model k'))) = true <-> knows (k_model k) n.
Proof. intros EV A B. rewrite mem_In. apply (e_members _ _ _ _ EV i k k' A B). Qed.

Theorem C44_gradient_is_derivative d x g ls : group_ok g -> length (g_members g) < d -> settable d x g -> g_members g <> [] ->
  (forall n, In n (map r_name (rows (m_frame (g_model g)))) -> exists k, In k (g_members g) /\ knows (k_model k) n) ->
  (forall k n, In k (g_members g) -> ~ holds (k_model k) n) ->
  differentiate (g_members g) ls ->
  exists ll dll g', loglike2_group d x g = Some (ll, dll, g') /\ evaluation d x g g' /\
    forall th, (forall n, group_knows g n -> value_of (m_frame (g_model g')) n = Some (Fin (th n))) ->
      ll = Fin (total (fun l => l th) ls) /\
      forall n, group_knows g n -> exists y, lookup n dll = Some (Fin y) /\
        is_derive (fun t => total (fun l => l (fun m => if String.eqb m n then t else th m)) ls) (th n) y.
Proof.
  intros GO Hd S NE Own NH DF. destruct (C44_gradient d x g GO Hd S NE Own) as (ll & dll & g' & E & Ell & EV & _ & G).
  exists ll, dll, g'. split; auto. split; auto. intros th Hth.
  (* each member at the values th *)
  assert (MB : forall i k k', nth_error (g_members g) i = Some k -> nth_error (g_members g') i = Some k' -> exists l,
    nth_error ls i = Some l /\ differentiates k l /\
    k_ll k' (values_of (m_frame (k_model k'))) = Fin (l th) /\
    forall n, knows (k_model k) n -> exists y, k_dll k' (values_of (m_frame (k_model k'))) n = Fin y /\
      is_derive (fun t => l (fun m => if String.eqb m n then t else th m)) (th n) y).
  { intros i k k' Hk Hk'. destruct (differentiate_nth _ _ _ _ DF Hk) as (l & Hl & D). exists l. split; auto. split; auto.
    destruct (e_static _ _ _ _ EV i k k' Hk Hk') as (-> & -> & _).
    destruct (e_members _ _ _ _ EV i k k' Hk Hk') as (N & W & V & _).
    assert (Kk : In k (g_members g)) by (eapply nth_error_In; eauto).
    apply (proj2 D).
    - intros n Hn. apply value_of_in; auto. rewrite V by auto. apply Hth. right. eauto.
    - intros n Hn. rewrite values_fst in Hn. apply N. auto.
    - rewrite values_fst. exact W. }
  assert (LEN := e_length _ _ _ _ EV).
  assert (LEN2 : length ls = length (g_members g)) by (clear -DF; induction DF; simpl; auto).
  split.
  - rewrite Ell. unfold py_sum. rewrite py_sum_fin.
    + f_equal. rewrite Rplus_0_l. unfold total. f_equal. rewrite map_map.
      apply nth_ext with (d := 0%R) (d' := 0%R); [rewrite !map_length; congruence|].
      intros i Hi. rewrite map_length in Hi.
      destruct (nth_error (g_members g') i) as [k'|] eqn:Hk'; [|apply nth_error_None in Hk'; lia].
      destruct (nth_error (g_members g) i) as [k|] eqn:Hk; [|apply nth_error_None in Hk; lia].
      destruct (MB i k k' Hk Hk') as (l & Hl & _ & A & _).
      erewrite nth_error_nth by (rewrite nth_error_map, Hk'; reflexivity).
      erewrite nth_error_nth by (rewrite nth_error_map, Hl; reflexivity).
      rewrite A. reflexivity.
    + intros v Hv. apply in_map_iff in Hv as (k' & <- & Hk'). apply In_nth_error in Hk' as [i Hk'].
      destruct (nth_error (g_members g) i) as [k|] eqn:Hk.
      2:{ apply nth_error_None in Hk. assert (i < length (g_members g')) by (apply nth_error_Some; congruence). lia. }
      destruct (MB i k k' Hk Hk') as (l & _ & _ & A & _). eauto.
  - intros n Hn.
    set (entry := fun k => k_dll k (values_of (m_frame (k_model k))) n).
    assert (EN : forall i k k', nth_error (g_members g) i = Some k -> nth_error (g_members g') i = Some k' ->
       mem n (nm (m_frame (k_model k'))) = true -> exists y, entry k' = Fin y).
    { intros i k k' Hk Hk' M. destruct (MB i k k' Hk Hk') as (l & _ & _ & _ & A).
      destruct (A n) as (y & Hy & _); [eapply knows_dec; eauto|]. eauto. }
    eexists. split.
    + apply G; [apply (e_names _ _ _ _ EV); auto| |].
      * intros k' Hk'. apply filter_In in Hk' as [Hk' M]. apply In_nth_error in Hk' as [i Hk'].
        destruct (nth_error (g_members g) i) as [k|] eqn:Hk.
        2:{ apply nth_error_None in Hk. assert (i < length (g_members g')) by (apply nth_error_Some; congruence). lia. }
        right. eapply EN; eauto.
      * destruct Hn as [Hn|(k & Hk & Kn)]; [destruct (Own n Hn) as (k & Hk & Kn)|];
        (apply In_nth_error in Hk as [i Hk]; destruct (nth_error (g_members g') i) as [k'|] eqn:Hk';
          [|apply nth_error_None in Hk'; assert (i < length (g_members g)) by (apply nth_error_Some; congruence); lia];
         assert (M : mem n (nm (m_frame (k_model k'))) = true) by (eapply knows_dec; eauto);
         destruct (EN i k k' Hk Hk' M) as [y Hy]; exists k', y; split; auto; apply filter_In; split; [eapply nth_error_In; eauto|auto]).
    + (* the derivative of the sum *)
      clear G E Ell. revert MB EN LEN LEN2. clear -EV. 
      assert (KD : forall i k k', nth_error (g_members g) i = Some k -> nth_error (g_members g') i = Some k' ->
        mem n (nm (m_frame (k_model k'))) = true <-> knows (k_model k) n) by (intros; eapply knows_dec; eauto).
      clear EV. revert KD. generalize (g_members g) as ks. generalize (g_members g') as ks'. generalize ls.
      induction ls0 as [|l ls0 IH]; intros ks' ks KD MB EN LEN LEN2.
      * destruct ks'; [|simpl in *; lia]. unfold total. simpl. auto_derive; auto.
      * destruct ks as [|k ks]; [discriminate|]. destruct ks' as [|k' ks']; [discriminate|].
        assert (IH' := IH ks' ks (fun i => KD (Datatypes.S i)) (fun i => MB (Datatypes.S i)) (fun i => EN (Datatypes.S i))
          ltac:(simpl in *; lia) ltac:(simpl in *; lia)). clear IH.
        destruct (MB 0 k k' eq_refl eq_refl) as (l' & Hl & D & _ & A). simpl in Hl. injection Hl as <-.
        cbn [filter]. change (map r_name (rows (m_frame (k_model k')))) with (nm (m_frame (k_model k'))).
        unfold total in *. cbn [map fold_right].
        destruct (mem n (nm (m_frame (k_model k')))) eqn:M.
        -- destruct (A n) as (y & Hy & Dy); [apply (KD 0 k k' eq_refl eq_refl); auto|].
           cbn [map fold_right]. rewrite Hy.
           apply (is_derive_plus (V := R_NormedModule)); [exact Dy|exact IH'].
        -- assert (Z : is_derive (fun t => l (fun m => if String.eqb m n then t else th m)) (th n) 0%R).
           { apply (is_derive_ext (fun _ => l th)); [|auto_derive; auto].
             intros t. apply (proj1 D). intros m Hm. destruct (String.eqb_spec m n) as [ ->|]; auto.
             apply (KD 0 k k' eq_refl eq_refl) in Hm. congruence. }
           rewrite <- (Rplus_0_l (fold_right _ _ _)).
           apply (is_derive_plus (V := R_NormedModule)); [exact Z|exact IH'].
Qed.

(** * Where it fails *)

(** Whatever is set in the group, a parameter that a member holds fast keeps the member's own value. *)
Theorem C44_held_in_member_is_not_set_refuted d x g i k n v : group_ok g -> length (g_members g) < d -> settable d x g ->
  nth_error (g_members g) i = Some k -> holds (k_model k) n -> value_of (m_frame (k_model k)) n = Some v ->
  exists ll g' k', loglike_group d x g = Some (ll, g') /\ nth_error (g_members g') i = Some k' /\
    value_of (m_frame (k_model k')) n = Some v.
Proof.
  intros GO Hd S Hk Hh Hv. destruct (C44_loglike d x g GO Hd S) as (ll & g' & E & _ & EV).
  destruct (nth_error (g_members g') i) as [k'|] eqn:Hk'.
  2:{ apply nth_error_None in Hk'. assert (i < length (g_members g)) by (apply nth_error_Some; congruence).
      rewrite (e_length _ _ _ _ EV) in Hk'. lia. }
  exists ll, g', k'. split; auto. split; auto. destruct (e_members _ _ _ _ EV i k k' Hk Hk') as (_ & _ & _ & H). rewrite H; auto.
Qed.

(** A gradient that is not a number in one member does not show in the group's, if another member's is a number. *)
Theorem C44_nan_gradient_is_hidden_refuted d x g : group_ok g -> length (g_members g) < d -> settable d x g -> g_members g <> [] ->
  (forall n, In n (map r_name (rows (m_frame (g_model g)))) -> exists k, In k (g_members g) /\ knows (k_model k) n) ->
  exists ll dll g', loglike2_group d x g = Some (ll, dll, g') /\
    let entry n k := k_dll k (values_of (m_frame (k_model k))) n in
    let having n := filter (fun k => mem n (map r_name (rows (m_frame (k_model k))))) (g_members g') in
    forall n, In n (map r_name (rows (m_frame (g_model g')))) ->
      (forall k, In k (having n) -> finite_or_nan (entry n k)) ->
      (exists k, In k (having n) /\ entry n k = NaN) -> (exists k y, In k (having n) /\ entry n k = Fin y) ->
      exists z, lookup n dll = Some (Fin z).
Proof.
  intros GO Hd S NE Own. destruct (C44_gradient d x g GO Hd S NE Own) as (ll & dll & g' & E & _ & _ & _ & G).
  exists ll, dll, g'. split; auto. intros entry having n Hn Hf _ Hx. eexists. apply G; auto.
Qed.

(** A parameter in the group's frame that no member knows makes the gradient raise KeyError.  Such
    parameters are left behind when a member is deleted from the group. *)
Theorem C44_parameter_of_no_member_refuted d x g n : group_ok g -> length (g_members g) < d -> settable d x g ->
  In n (map r_name (rows (m_frame (g_model g)))) -> (forall k, In k (g_members g) -> ~ knows (k_model k) n) ->
  loglike2_group d x g = None.
Proof.
  intros GO Hd S Hn NK. destruct (prep_evaluate d x g GO Hd S) as (g1 & ms' & E1 & E2 & EV).
  unfold loglike2_group. rewrite E1. cbn [obind]. rewrite E2. cbn [obind fst snd].
  destruct (map member_dll ms') as [|s ss] eqn:Em; auto.
  rewrite (select_bad _ _ n); auto.
  - assert (V := EV (Fin 0)). change (In n (nm (m_frame (g_model g1)))). rewrite <- (nm_best (Fin 0)).
    apply (e_names _ _ _ _ V). left. auto.
  - assert (X : forall t, In t (s :: ss) -> lookup n t = None).
    { intros t Ht. rewrite <- Em in Ht. apply in_map_iff in Ht as (k' & <- & Hk'). rewrite member_dll_lookup.
      destruct (mem n (nm (m_frame (k_model k')))) eqn:M; auto. exfalso. apply mem_In in M.
      assert (V := EV (Fin 0)). apply In_nth_error in Hk' as [i Hk'].
      destruct (nth_error (g_members g) i) as [k|] eqn:Hk.
      - apply (NK k); [eapply nth_error_In; eauto|]. apply (e_members _ _ _ _ V i k k'); auto.
      - apply nth_error_None in Hk. assert (L := e_length _ _ _ _ V). cbn [g_members] in L.
        assert (i < length ms') by (apply nth_error_Some; congruence). lia. }
    destruct (series_sum n ss s) as [_ B].
    + intros v Hv. rewrite X in Hv by (left; auto). discriminate.
    + intros t Ht v Hv. rewrite X in Hv by (right; auto). discriminate.
    + apply B. split; [apply X; left; auto|]. intros t Ht. apply X. right. auto.
Qed.

Lemma set_kw_absent kw f : (forall n, In n (map fst kw) -> ~ In n (nm f)) -> fold_left set_kw kw f = f.
Proof.
  intros H. rewrite fold_set_kw. destruct f as [l b]. simpl in *. f_equal. unfold nm in H. simpl in H.
  rewrite <- (map_id l) at 2. apply map_ext_in. intros r Hr. apply kw_row_other. intros C. apply (H _ C). apply in_map. auto.
Qed.
(** Values set by name in a group that has not imported the parameters yet are ignored: the
    parameters get the values of the members. *)
Theorem C44_set_before_first_use_is_lost_refuted d kw g i k n v : group_ok g -> length (g_members g) < d ->
  (forall m, In m (map fst kw) -> ~ In m (map r_name (rows (m_frame (g_model g))))) ->
  In n (map fst kw) -> nth_error (g_members g) i = Some k -> value_of (m_frame (k_model k)) n = Some v ->
  (forall j k', j < i -> nth_error (g_members g) j = Some k' -> ~ knows (k_model k') n) ->
  exists g', set_values_group d VNone true kw g = Some g' /\ value_of (m_frame (g_model g')) n = Some v.
Proof.
  intros GO Hd Hkw Hn Hk Hv Hj.
  assert (SV : exists m, set_values VNone true kw (g_model g) = Ret tt m /\ Permutation (rows (m_frame (g_model g))) (rows (m_frame m)) /\
    m_names m = m_names (g_model g)).
  { destruct GO as (W & N & _). unfold set_values. cbn [resolve set_array].
    assert (WF : with_frame (m_frame (g_model g)) (g_model g) = g_model g) by (destruct (g_model g); reflexivity). rewrite WF.
    destruct kw as [|kv kw]; [exists (g_model g); auto|].
    destruct (m_mangled (g_model g)).
    - destruct (scan_all_eq (mkNames [] [] []) (m_frame (g_model g)) W) as [Q ND]; [repeat split; constructor|].
      rewrite N, Q. rewrite scanned_complete by (simpl; tauto). eexists. split; [reflexivity|]. cbn [with_frame m_frame m_names].
      change (fold_left set_kw kw (set_kw ?x kv)) with (fold_left set_kw (kv :: kw) x).
      rewrite (set_kw_absent (kv :: kw)).
      + split; [apply sort_perm|auto].
      + intros m Hm C. apply (Hkw m Hm). apply (perm_nm (m_frame (g_model g)) (mkFrame (sort_rows (rows (m_frame (g_model g)))) (has_best (m_frame (g_model g)))) m); auto.
        apply sort_perm.
    - eexists. split; [reflexivity|]. cbn [with_frame m_frame m_names]. rewrite (set_kw_absent (kv :: kw)); auto. }
  destruct SV as (m & Em & P & Nm). unfold set_values_group. rewrite Em. cbn [returned obind].
  set (g1 := mkGroup m (g_members g)).
  assert (GO1 : group_ok g1).
  { destruct GO as (W & N & A & B & C). split; [eapply perm_nodup_names; eauto|]. split; [simpl; congruence|]. split; auto. split; auto.
    intros n' Hn'. apply B. apply (perm_nm (m_frame (g_model g)) (m_frame m) n' P). auto. }
  destruct (C44_parameters d g1 GO1 Hd) as (g2 & E2 & _ & _ & _ & F).
  destruct (ready_start g1 GO1) as (fs & R & _).
  destruct (ready_changed (g_members g1) g1 fs d R Hd) as (g3 & fs3 & E3 & _).
  exists g3. split; auto. unfold values_have_changed in E3. rewrite E2 in E3. cbn [obind] in E3.
  destruct (push _ _); [|discriminate]. injection E3 as <-. cbn [g_model].
  apply (F n i k v); auto. intros C. apply (Hkw n Hn). apply (perm_nm (m_frame (g_model g)) (m_frame m) n P). auto.
Qed.

(** * Cases that meet the hypotheses *)
Definition ex_row (n : string) (v : num) (h : Z) : row := mkRow n v v v NInf PInf (Some h) NaN.
Definition ex_model (l : list row) (ns : list string) (mangled : bool) : model :=
  mkModel (mkFrame l false) (mkNames ns [] []) mangled (Fin 0) NInf [].
(** The sum of the values squared, and its gradient. *)
Definition ex_ll (vs : list (string * num)) : num := Fin (total (fun kv => re (snd kv) * re (snd kv))%R vs).
Definition ex_dll (vs : list (string * num)) (n : string) : num := Fin (2 * part_of vs n)%R.
Definition ex_member (l : list row) (ns : list string) (mangled : bool) : member :=
  mkMember (ex_model l ns mangled) ex_ll ex_dll 10 (Fin 1).
(** Two members: the first uses [a] and [b] but has not been scanned, the second has [b] and [c] and holds [c]. *)
Definition ex_group : group :=
  mkGroup (ex_model [] [] true)
    (ex_member (ex_row "a" (Fin 3) 0 :: nil) ("b" :: "a" :: nil) true ::
     ex_member (ex_row "b" (Fin 5) 0 :: ex_row "c" (Fin 7) 1 :: nil) ("b" :: "c" :: nil) false :: nil).
Example C44_example_ok : group_ok ex_group.
Proof.
  split; [constructor|]. split; [reflexivity|]. split; [|split].
  - assert (ND : forall a b : string, a <> b -> NoDup (a :: b :: nil)).
    { intros a b H. constructor; [intros [C|[]]; auto|]. constructor; [intros []|constructor]. }
    assert (ND1 : forall a : string, NoDup (a :: nil)) by (intros a; constructor; [intros []|constructor]).
    intros k [ <-|[ <-|[]]]; (split; [first [apply ND; discriminate|apply ND1]|]);
      (split; [apply ND; discriminate|]); (split; [constructor|]); (split; [constructor|]); split.
    + intros r [ <-|[]]. discriminate.
    + intros X. discriminate.
    + intros r [ <-|[ <-|[]]]; discriminate.
    + intros _ n [H|[[]|[]]]. exact H.
  - intros n [].
  - intros k n [ <-|[ <-|[]]] [H|[H|[[]|[]]]]; simpl in H; intuition (subst; reflexivity).
Qed.
(** Setting [b] sets it in both; the log likelihood and the gradient are the sums. *)
Example C44_example : settable 3 (Some (VNone, (("b", Fin 2) :: nil))) ex_group /\
  exists ll dll g', loglike2_group 3 (Some (VNone, (("b", Fin 2) :: nil))) ex_group = Some (ll, dll, g') /\
    ll = Fin (9 + 4 + 4 + 49)%R /\ lookup "b" dll = Some (Fin 8) /\ lookup "c" dll = Some (Fin 14) /\
    map (fun k => value_of (m_frame (k_model k)) "b") (g_members g') = Some (Fin 2) :: Some (Fin 2) :: nil.
Proof.
  split.
  { intros g1 E. vm_compute in E. injection E as <-. eexists. vm_compute. reflexivity. }
  remember (loglike2_group 3 (Some (VNone, ("b", Fin 2) :: nil)) ex_group) as u eqn:E.
  vm_compute in E. subst u.
  eexists. eexists. eexists. split; [reflexivity|]. split; [|split; [|split]].
  - change Rdefinitions.RbaseSymbolsImpl.R1 with 1%R. f_equal. ring.
  - unfold lookup; simpl. f_equal. f_equal. change Rdefinitions.RbaseSymbolsImpl.R1 with 1%R. ring.
  - unfold lookup; simpl. f_equal. f_equal. change Rdefinitions.RbaseSymbolsImpl.R1 with 1%R. ring.
  - reflexivity.
Qed.
(** Before the group has been used, the same request is lost. *)
Example C44_example_lost : exists g', set_values_group 3 VNone true (("b", Fin 2) :: nil) ex_group = Some g' /\
  value_of (m_frame (g_model g')) "b" = Some (Fin 0).
Proof. eexists. split; vm_compute; reflexivity. Qed.
(** Deleting the second member leaves [c] behind. *)
Example C44_example_deleted : exists g1, unmangle_group 3 ex_group = Some g1 /\
  In "c" (map r_name (rows (m_frame (g_model (delete_member 1 g1))))) /\
  forall k, In k (g_members (delete_member 1 g1)) -> ~ knows (k_model k) "c".
Proof.
  eexists. split; [vm_compute; reflexivity|]. split; [vm_compute; tauto|].
  intros k H. vm_compute in H. destruct H as [ <-|[]]. intros [H|[H|[[]|[]]]]; vm_compute in H; intuition discriminate.
Qed.
