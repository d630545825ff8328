From Coq Require Import FinFun Relations Permutation Sorting.Sorted.
From Verif Require Export TreeSpec.

Lemma zmem_In (x : Z) (l : list Z) : zmem x l = true <-> In x l.
Proof.
  unfold zmem. rewrite existsb_exists. split.
  - intros [y [Hy He]]. apply Z.eqb_eq in He. subst; auto.
  - intros H. exists x. split; auto. apply Z.eqb_refl.
Qed.
Lemma zmem_nIn (x : Z) (l : list Z) : zmem x l = false <-> ~ In x l.
Proof. rewrite <- zmem_In. destruct (zmem x l); split; congruence. Qed.
Lemma zmem_dec (x : Z) (l : list Z) : {In x l} + {~ In x l}.
Proof. apply in_dec. apply Z.eq_dec. Qed.

Lemma in_succs g u v : In v (succs g u) <-> link g u v.
Proof.
  unfold succs, link. rewrite in_map_iff. split.
  - intros [e [He Hf]]. apply filter_In in Hf. destruct Hf as [H1 H2].
    apply Z.eqb_eq in H2. exists e; auto.
  - intros [e [H1 [H2 H3]]]. exists e. split; auto. apply filter_In. split; auto.
    apply Z.eqb_eq; auto.
Qed.
Lemma in_preds g u v : In u (preds g v) <-> link g u v.
Proof.
  unfold preds, link. rewrite in_map_iff. split.
  - intros [e [He Hf]]. apply filter_In in Hf. destruct Hf as [H1 H2].
    apply Z.eqb_eq in H2. exists e; auto.
  - intros [e [H1 [H2 H3]]]. exists e. split; auto. apply filter_In. split; auto.
    apply Z.eqb_eq; auto.
Qed.

Lemma NoDup_map_filter {A B} (f : A -> B) p (l : list A) :
  NoDup (map f l) -> NoDup (map f (filter p l)).
Proof.
  induction l as [|a l IH]; simpl; intros H; auto.
  inversion H; subst. destruct (p a); simpl; auto.
  constructor; auto. intros Hin. apply H2. rewrite in_map_iff in *.
  destruct Hin as [y [E Hy]]. apply filter_In in Hy. exists y; tauto.
Qed.
Lemma NoDup_succs g u : gwf g -> NoDup (succs g u).
Proof.
  intros [_ [_ H]]. unfold succs.
  assert (H1 := NoDup_map_filter _ (fun e => eu e =? u) _ H).
  remember (filter (fun e => eu e =? u) (gedges g)) as l eqn:El.
  assert (Hl : forall e, In e l -> eu e = u).
  { intros e He. subst l. apply filter_In in He. destruct He as [_ He]. apply Z.eqb_eq; auto. }
  clear El H. induction l as [|a l IH]; simpl in *; [constructor|].
  inversion H1; subst. constructor.
  - intros Hin. apply H2. rewrite in_map_iff in *. destruct Hin as [y [E Hy]].
    exists y. split; auto. f_equal; auto. rewrite (Hl y), (Hl a); auto.
  - apply IH; auto.
Qed.
Lemma NoDup_preds g u : gwf g -> NoDup (preds g u).
Proof.
  intros [_ [_ H]]. unfold preds.
  assert (H1 := NoDup_map_filter _ (fun e => ev e =? u) _ H).
  remember (filter (fun e => ev e =? u) (gedges g)) as l eqn:El.
  assert (Hl : forall e, In e l -> ev e = u).
  { intros e He. subst l. apply filter_In in He. destruct He as [_ He]. apply Z.eqb_eq; auto. }
  clear El H. induction l as [|a l IH]; simpl in *; [constructor|].
  inversion H1; subst. constructor.
  - intros Hin. apply H2. rewrite in_map_iff in *. destruct Hin as [y [E Hy]].
    exists y. split; auto. f_equal; auto. rewrite (Hl y), (Hl a); auto.
  - apply IH; auto.
Qed.
Lemma link_nodes g u v : gwf g -> link g u v -> In u (gnodes g) /\ In v (gnodes g).
Proof. intros [_ [H _]] [e [He [Hu Hv]]]. subst. auto. Qed.
Lemma leaf_outdeg g v : (outdeg g v =? 0)%nat = true <-> forall w, ~ link g v w.
Proof.
  unfold outdeg. rewrite Nat.eqb_eq. split.
  - intros H w Hw. apply in_succs in Hw. destruct (succs g v); simpl in *; [tauto|lia].
  - intros H. destruct (succs g v) as [|w l] eqn:E; auto.
    exfalso. apply (H w). apply in_succs. rewrite E. left; auto.
Qed.
Lemma indeg_zero g v : (indeg g v =? 0)%nat = true <-> forall u, ~ link g u v.
Proof.
  unfold indeg. rewrite Nat.eqb_eq. split.
  - intros H w Hw. apply in_preds in Hw. destruct (preds g v); simpl in *; [tauto|lia].
  - intros H. destruct (preds g v) as [|w l] eqn:E; auto.
    exfalso. apply (H w). apply in_preds. rewrite E. left; auto.
Qed.
Lemma in_leaves g v : In v (leaves g) <-> is_leaf g v.
Proof. unfold leaves, is_leaf. rewrite filter_In, leaf_outdeg. tauto. Qed.

(** ---------- heap ---------- *)
Lemma zmin_le x l : (zmin x l <= x) /\ (forall y, In y l -> zmin x l <= y).
Proof.
  revert x. induction l as [|a l IH]; simpl; intros x; [split; [lia|tauto]|].
  destruct (IH (Z.min x a)) as [H1 H2]. split; [lia|].
  intros y [->|Hy]; [lia|auto].
Qed.
Lemma zmin_in x l : In (zmin x l) (x :: l).
Proof.
  revert x. induction l as [|a l IH]; simpl; intros x; [auto|].
  destruct (IH (Z.min x a)) as [H|H]; [|auto].
  rewrite <- H. destruct (Z.min_spec x a) as [[_ ->]|[_ ->]]; auto.
Qed.
Lemma remove_perm x l : NoDup l -> In x l -> Permutation l (x :: remove Z.eq_dec x l).
Proof.
  intros Hd Hi. apply NoDup_Permutation; auto.
  - constructor. apply remove_In. 
    clear Hi. induction l as [|a l IH]; simpl; [constructor|].
    inversion Hd; subst. destruct (Z.eq_dec x a); auto. constructor; auto.
    intros H. apply in_remove in H. tauto.
  - intros y. simpl. split.
    + intros H. destruct (Z.eq_dec x y); auto. right. apply in_in_remove; auto.
    + intros [->|H]; auto. apply in_remove in H. tauto.
Qed.
Lemma heappop_some l x l' : NoDup l -> heappop l = Some (x, l') ->
  Permutation l (x :: l') /\ (forall y, In y l -> x <= y).
Proof.
  intros Hd H. destruct l as [|a l]; [discriminate|]. cbn [heappop] in H.
  injection H as H1 H2. subst l'. rewrite H1.
  assert (Hin : In x (a :: l)) by (rewrite <- H1; apply zmin_in).
  split.
  - apply (remove_perm x (a :: l) Hd Hin).
  - destruct (zmin_le a l) as [Ha Hb]. rewrite H1 in Ha, Hb.
    intros y [Hy|Hy]; [rewrite <- Hy|]; auto.
Qed.
Lemma heappop_none l : heappop l = None -> l = [].
Proof. destruct l; simpl; [auto|discriminate]. Qed.

(** ---------- relax ---------- *)
Definition hits_zero (m : odmap) (p : Z) : bool :=
  match m p with Some d => (pred d =? 0)%nat | None => false end.
Lemma relax_spec ps : forall m heap, NoDup ps ->
  (forall p, In p ps -> exists d, m p = Some d) ->
  exists m' , relax ps m heap = Some (m', rev (filter (hits_zero m) ps) ++ heap) /\
   forall x, m' x = if zmem x ps then
                      match m x with Some d => if (pred d =? 0)%nat then None else Some (pred d)
                                   | None => None end
                    else m x.
Proof.
  induction ps as [|p ps IH]; intros m heap Hd Hs.
  - exists m. simpl. split; auto.
  - inversion Hd as [|? ? Hnp Hd']; subst. cbn [relax].
    destruct (Hs p (or_introl eq_refl)) as [d Hp]. rewrite Hp.
    assert (Hz : forall (v : option nat) x, In x ps -> od_set m p v x = m x).
    { intros v x Hx. unfold od_set. destruct (Z.eqb_spec x p); auto. subst; contradiction. }
    assert (Hf : forall v, filter (hits_zero (od_set m p v)) ps = filter (hits_zero m) ps).
    { intros v. apply filter_ext_in. intros x Hx. unfold hits_zero. rewrite Hz; auto. }
    destruct (Nat.eqb_spec (pred d) 0) as [E|E].
    + destruct (IH (od_set m p None) (p :: heap) Hd') as [m' [H1 H2]].
      { intros q Hq. rewrite Hz; auto. apply Hs; right; auto. }
      exists m'. split.
      * rewrite H1. rewrite Hf. simpl. unfold hits_zero at 2. rewrite Hp.
        rewrite E. simpl. rewrite <- app_assoc. reflexivity.
      * intros x. rewrite H2. simpl. destruct (Z.eqb_spec x p) as [->|Hne]; simpl.
        -- assert (zmem p ps = false) by (apply zmem_nIn; auto). rewrite H.
           unfold od_set. rewrite Z.eqb_refl, Hp, E. reflexivity.
        -- unfold zmem. unfold od_set. apply Z.eqb_neq in Hne. rewrite Hne. reflexivity.
    + destruct (IH (od_set m p (Some (pred d))) heap Hd') as [m' [H1 H2]].
      { intros q Hq. rewrite Hz; auto. apply Hs; right; auto. }
      exists m'. split.
      * rewrite H1. rewrite Hf. simpl. unfold hits_zero at 2. rewrite Hp.
        apply Nat.eqb_neq in E. rewrite E. reflexivity.
      * intros x. rewrite H2. simpl. destruct (Z.eqb_spec x p) as [->|Hne]; simpl.
        -- assert (zmem p ps = false) by (apply zmem_nIn; auto). rewrite H.
           unfold od_set. rewrite Z.eqb_refl, Hp. apply Nat.eqb_neq in E. rewrite E. reflexivity.
        -- unfold zmem. unfold od_set. apply Z.eqb_neq in Hne. rewrite Hne. reflexivity.
Qed.

(** ---------- counting children not yet emitted ---------- *)
Definition cnt (g : graph) (acc : list Z) (v : Z) : nat :=
  length (filter (fun s => negb (zmem s acc)) (succs g v)).

Lemma cnt_list (l : list Z) node acc : NoDup l -> ~ In node acc ->
  length (filter (fun s => negb (zmem s acc)) l) =
  ((if zmem node l then 1 else 0) + length (filter (fun s => negb (zmem s (node :: acc))) l))%nat.
Proof.
  induction l as [|a l IH]; intros Hd Hn; auto.
  inversion Hd; subst. specialize (IH H2 Hn). simpl in IH |- *.
  destruct (Z.eqb_spec node a) as [->|Hne].
  - assert (Ha : zmem a acc = false) by (apply zmem_nIn; auto).
    assert (Hl : zmem a l = false) by (apply zmem_nIn; auto).
    rewrite Hl in IH. rewrite Ha, Z.eqb_refl. simpl. f_equal. exact IH.
  - fold (zmem node l). replace (a =? node) with false by (symmetry; apply Z.eqb_neq; auto).
    simpl. fold (zmem a acc). destruct (zmem a acc); simpl; lia.
Qed.
Lemma cnt_cons g acc node v : gwf g -> ~ In node acc ->
  cnt g acc v = ((if zmem node (succs g v) then 1 else 0) + cnt g (node :: acc) v)%nat.
Proof. intros Hg Hn. unfold cnt. apply cnt_list; auto. apply NoDup_succs; auto. Qed.
Lemma cnt_zero g acc v : cnt g acc v = 0%nat <-> (forall s, In s (succs g v) -> In s acc).
Proof.
  unfold cnt. split.
  - intros H s Hs. destruct (zmem_dec s acc) as [|Hn]; auto. exfalso.
    assert (In s (filter (fun s => negb (zmem s acc)) (succs g v))).
    { apply filter_In. split; auto. apply zmem_nIn in Hn. rewrite Hn; auto. }
    destruct (filter _ _); simpl in *; [tauto|lia].
  - intros H. destruct (filter _ _) as [|s l] eqn:E; auto. exfalso.
    assert (In s (filter (fun s => negb (zmem s acc)) (succs g v))) by (rewrite E; left; auto).
    apply filter_In in H0. destruct H0 as [H1 H2]. apply H in H1. apply zmem_In in H1.
    rewrite H1 in H2; discriminate.
Qed.

(** ---------- loop invariant of the topological sort ---------- *)
Record TI (g : graph) (m : odmap) (heap acc : list Z) : Prop := {
  ti_nd : NoDup (acc ++ heap);
  ti_in : forall v, In v (acc ++ heap) -> In v (gnodes g);
  ti_out : forall v, In v (gnodes g) -> ~ In v (acc ++ heap) ->
           m v = Some (cnt g acc v) /\ (0 < cnt g acc v)%nat;
  ti_rdy : forall v, In v (acc ++ heap) -> cnt g acc v = 0%nat;
  ti_ord : forall a b c, acc = a ++ b :: c -> forall s, In s (succs g b) -> In s c
}.

Lemma TI_step g m heap acc node heap1 :
  gwf g -> TI g m heap acc -> heappop heap = Some (node, heap1) ->
  exists m2 heap2, relax (preds g node) m heap1 = Some (m2, heap2) /\
    TI g m2 heap2 (node :: acc).
Proof.
  intros Hg I Hp.
  assert (Hndh : NoDup heap).
  { assert (H := ti_nd _ _ _ _ I). clear -H. induction acc; simpl in *; auto. inversion H; auto. }
  destruct (heappop_some _ _ _ Hndh Hp) as [Hperm _].
  assert (Hperm2 : Permutation (acc ++ heap) ((node :: acc) ++ heap1)).
  { rewrite Hperm. simpl. symmetry. apply Permutation_middle. }
  assert (Hnin : ~ In node acc).
  { assert (H := ti_nd _ _ _ _ I). rewrite Hperm2 in H. simpl in H. inversion H; subst.
    rewrite in_app_iff in H2. tauto. }
  assert (Hpn : forall p, In p (preds g node) ->
            In p (gnodes g) /\ ~ In p (acc ++ heap)).
  { intros p Hpp. apply in_preds in Hpp. split; [apply (link_nodes g p node Hg Hpp)|].
    intros Hin. apply (ti_rdy _ _ _ _ I) in Hin. rewrite cnt_zero in Hin.
    apply Hnin. apply Hin. apply in_succs; auto. }
  destruct (relax_spec (preds g node) m heap1 (NoDup_preds g node Hg)) as [m2 [Hr Hm2]].
  { intros p Hpp. destruct (Hpn p Hpp) as [H1 H2]. destruct (ti_out _ _ _ _ I p H1 H2). eauto. }
  exists m2, (rev (filter (hits_zero m) (preds g node)) ++ heap1). split; auto.
  assert (Hhz : forall p, In p (rev (filter (hits_zero m) (preds g node))) <->
                  In p (preds g node) /\ cnt g (node :: acc) p = 0%nat).
  { intros p. rewrite <- in_rev, filter_In. split; intros [H1 H2]; split; auto.
    - destruct (Hpn p H1) as [H3 H4]. destruct (ti_out _ _ _ _ I p H3 H4) as [H5 H6].
      unfold hits_zero in H2. rewrite H5 in H2. apply Nat.eqb_eq in H2.
      rewrite (cnt_cons g acc node p Hg Hnin) in H2.
      assert (E : zmem node (succs g p) = true) by (apply zmem_In, in_succs, in_preds; auto).
      rewrite E in H2. simpl in H2. exact H2.
    - destruct (Hpn p H1) as [H3 H4]. destruct (ti_out _ _ _ _ I p H3 H4) as [H5 H6].
      unfold hits_zero. rewrite H5. apply Nat.eqb_eq.
      rewrite (cnt_cons g acc node p Hg Hnin).
      assert (E : zmem node (succs g p) = true) by (apply zmem_In, in_succs, in_preds; auto).
      rewrite E. simpl. exact H2. }
  set (news := rev (filter (hits_zero m) (preds g node))) in *.
  assert (Hnews : NoDup news).
  { unfold news. apply NoDup_rev. apply NoDup_filter. apply NoDup_preds; auto. }
  assert (Hsub : forall v, In v ((node :: acc) ++ heap1) <-> In v (acc ++ heap)).
  { intros v. split; apply Permutation_in; auto. symmetry; auto. }
  assert (Hiff : forall v, In v ((node :: acc) ++ news ++ heap1) <-> In v (acc ++ heap) \/ In v news).
  { intros v. rewrite <- Hsub. rewrite !in_app_iff. tauto. }
  constructor.
  - apply (Permutation_NoDup (l := news ++ ((node :: acc) ++ heap1))).
    { rewrite !app_assoc. apply Permutation_app_tail. apply Permutation_app_comm. }
    assert (H0 : NoDup ((node :: acc) ++ heap1)).
    { apply (Permutation_NoDup Hperm2). apply (ti_nd _ _ _ _ I). }
    assert (Hdis : forall x, In x news -> ~ In x ((node :: acc) ++ heap1)).
    { intros x Hx. rewrite Hsub. apply Hhz in Hx. destruct Hx as [Hx _]. apply Hpn; auto. }
    clear -H0 Hdis Hnews. induction news as [|x l IH]; auto. cbn [app].
    inversion Hnews; subst. constructor.
    + rewrite in_app_iff. intros [H|H]; [tauto|]. apply (Hdis x); auto. left; auto.
    + apply IH; auto. intros y Hy. apply Hdis. right; auto.
  - intros v Hv. apply Hiff in Hv. destruct Hv as [Hv|Hv].
    + apply (ti_in _ _ _ _ I); auto.
    + apply Hhz in Hv. apply Hpn. tauto.
  - intros v Hv Hnv. rewrite Hiff in Hnv.
    assert (Hv2 : ~ In v (acc ++ heap)) by tauto.
    destruct (ti_out _ _ _ _ I v Hv Hv2) as [H5 H6].
    rewrite Hm2, H5. rewrite (cnt_cons g acc node v Hg Hnin) in *.
    destruct (zmem v (preds g node)) eqn:E.
    + apply zmem_In in E. assert (E' : zmem node (succs g v) = true) by (apply zmem_In, in_succs, in_preds; auto).
      rewrite E' in *. simpl.
      assert (cnt g (node :: acc) v <> 0%nat).
      { intros Hc. apply Hnv. right. apply Hhz. auto. }
      destruct (Nat.eqb_spec (cnt g (node :: acc) v) 0); [contradiction|]. split; auto; lia.
    + assert (E' : zmem node (succs g v) = false).
      { apply zmem_nIn. intros H. apply zmem_nIn in E. apply E. apply in_preds, in_succs; auto. }
      rewrite E' in *. simpl in *. split; auto.
  - intros v Hv. apply Hiff in Hv. destruct Hv as [Hv|Hv].
    + assert (H := ti_rdy _ _ _ _ I v Hv). rewrite (cnt_cons g acc node v Hg Hnin) in H. lia.
    + apply Hhz in Hv. tauto.
  - intros a b c E s Hs. destruct a as [|x a]; simpl in E; injection E as E1 E2.
    + subst. assert (H : cnt g c b = 0%nat).
      { apply (ti_rdy _ _ _ _ I). rewrite <- Hsub. left; auto. }
      rewrite cnt_zero in H. auto.
    + apply (ti_ord _ _ _ _ I a b c E2); auto.
Qed.

Lemma topo_loop_ok g : gwf g -> forall fuel m heap acc,
  TI g m heap acc -> (length (gnodes g) <= fuel + length acc)%nat ->
  exists m' acc', topo_loop fuel g m heap acc = TopoOk (rev acc') /\ TI g m' [] acc'.
Proof.
  intros Hg. induction fuel as [|f IH]; intros m heap acc I Hf.
  - cbn [topo_loop]. destruct (heappop heap) as [[node heap1]|] eqn:E.
    + exfalso. assert (length (acc ++ heap) <= length (gnodes g))%nat.
      { apply NoDup_incl_length. apply (ti_nd _ _ _ _ I). intros v. apply (ti_in _ _ _ _ I). }
      rewrite app_length in H. destruct heap; [discriminate|]. simpl in *. lia.
    + apply heappop_none in E. subst. exists m, acc. simpl. auto.
  - cbn [topo_loop]. destruct (heappop heap) as [[node heap1]|] eqn:E.
    + destruct (TI_step g m heap acc node heap1 Hg I E) as [m2 [heap2 [Hr I2]]].
      rewrite Hr. apply IH; auto. simpl. lia.
    + apply heappop_none in E. subst. exists m, acc. simpl. auto.
Qed.

Lemma TI_init g : gwf g -> 
  TI g (fun v => if zmem v (gnodes g) && negb (outdeg g v =? 0)%nat
              then Some (outdeg g v) else None)
    (filter (fun v => (outdeg g v =? 0)%nat) (gnodes g)) [].
Proof.
  intros Hg. assert (Hc : forall v, cnt g [] v = outdeg g v).
  { intros v. unfold cnt, outdeg. f_equal. induction (succs g v); simpl; f_equal; auto. }
  constructor; simpl.
  - apply NoDup_filter. apply Hg.
  - intros v Hv. apply filter_In in Hv. tauto.
  - intros v Hv Hn. rewrite Hc. rewrite filter_In in Hn.
    assert (E : (outdeg g v =? 0)%nat = false).
    { destruct (outdeg g v =? 0)%nat; auto. exfalso; auto. }
    assert (E2 : zmem v (gnodes g) = true) by (apply zmem_In; auto).
    rewrite E, E2. simpl. split; auto. apply Nat.eqb_neq in E. lia.
  - intros v Hv. apply filter_In in Hv. rewrite Hc. apply Nat.eqb_eq. tauto.
  - intros a b c E. destruct a; discriminate.
Qed.

(** The sort always returns; its output is duplicate-free, lists children before
    parents, and any missing node has a missing child. *)
Lemma topo_spec g : gwf g -> exists l, topological_sorted g = TopoOk l /\
  NoDup l /\ incl l (gnodes g) /\
  (forall a b c, l = a ++ b :: c -> forall s, link g b s -> In s a) /\
  (forall v, In v (gnodes g) -> ~ In v l -> exists s, link g v s /\ ~ In s l).
Proof.
  intros Hg. destruct (topo_loop_ok g Hg (length (gnodes g)) _ _ _ (TI_init g Hg)) as [m' [acc [H I]]].
  { simpl; lia. }
  exists (rev acc). split; [exact H|].
  assert (Hn := ti_nd _ _ _ _ I). rewrite app_nil_r in Hn.
  split; [apply NoDup_rev; auto|]. split; [|split].
  - intros v Hv. apply in_rev in Hv. apply (ti_in _ _ _ _ I). rewrite app_nil_r; auto.
  - intros a b c E s Hs. apply in_rev. apply in_succs in Hs.
    apply (ti_ord _ _ _ _ I (rev c) b (rev a)); auto.
    rewrite <- (rev_involutive acc), E. rewrite rev_app_distr. simpl.
    rewrite <- app_assoc. reflexivity.
  - intros v Hv Hnv. destruct (ti_out _ _ _ _ I v Hv) as [_ Hc].
    { rewrite app_nil_r, in_rev. auto. }
    unfold cnt in Hc. destruct (filter _ (succs g v)) as [|s l] eqn:E; simpl in Hc; [lia|].
    assert (Hs : In s (filter (fun s => negb (zmem s acc)) (succs g v))) by (rewrite E; left; auto).
    apply filter_In in Hs. destruct Hs as [H1 H2]. exists s. split; [apply in_succs; auto|].
    rewrite <- in_rev. apply zmem_nIn. destruct (zmem s acc); auto; discriminate.
Qed.

(** ---------- acyclic: complete ; cyclic: nodes on a cycle are missing ---------- *)
Lemma walk_cycle g (l : list Z) v0 : gwf g ->
  (forall v, In v (gnodes g) -> ~ In v l -> exists s, link g v s /\ ~ In s l) ->
  In v0 (gnodes g) -> ~ In v0 l -> ~ acyclic g.
Proof.
  intros Hg Hstep Hv0 Hn0 Hac.
  set (next := fun v => match find (fun s => negb (zmem s l)) (succs g v) with Some s => s | None => v end).
  set (w := fun k => Nat.iter k next v0).
  assert (Hw : forall k, In (w k) (gnodes g) /\ ~ In (w k) l).
  { induction k as [|k [IH1 IH2]]; [auto|]. 
    change (w (S k)) with (next (w k)). unfold next.
    destruct (find _ (succs g (w k))) as [s|] eqn:E; auto.
    apply find_some in E. destruct E as [E1 E2]. split.
    - apply in_succs in E1. apply (link_nodes g _ _ Hg E1).
    - apply zmem_nIn. destruct (zmem s l); auto; discriminate. }
  assert (Hl : forall k, link g (w k) (w (S k))).
  { intros k. destruct (Hw k) as [H1 H2]. destruct (Hstep _ H1 H2) as [s [H3 H4]].
    change (w (S k)) with (next (w k)). unfold next.
    destruct (find _ (succs g (w k))) as [s'|] eqn:E.
    - apply find_some in E. destruct E as [E1 E2]. apply in_succs; auto.
    - exfalso. apply in_succs in H3. apply (find_none _ _ E) in H3.
      apply zmem_nIn in H4. rewrite H4 in H3. discriminate. }
  assert (Hb : forall d i, below g (w i) (w (i + S d)%nat)).
  { induction d as [|d IH]; intros i.
    - replace (i + 1)%nat with (S i) by lia. apply t_step, Hl.
    - eapply t_trans; [apply IH|]. replace (i + S (S d))%nat with (S (i + S d)) by lia.
      apply t_step, Hl. }
  assert (Hinj : NoDup (map w (seq 0 (S (length (gnodes g)))))).
  { apply FinFun.Injective_map_NoDup; [|apply seq_NoDup].
    intros i j E. destruct (lt_eq_lt_dec i j) as [[H|H]|H]; auto; exfalso.
    - apply (Hac (w i)). rewrite E at 2. replace j with (i + S (j - i - 1))%nat by lia. apply Hb.
    - apply (Hac (w j)). rewrite <- E at 2. replace i with (j + S (i - j - 1))%nat by lia. apply Hb. }
  assert (Hlen : (length (map w (seq 0 (S (length (gnodes g))))) <= length (gnodes g))%nat).
  { apply NoDup_incl_length; auto. intros x Hx. apply in_map_iff in Hx.
    destruct Hx as [k [<- _]]. apply Hw. }
  rewrite map_length, seq_length in Hlen. lia.
Qed.

Lemma topo_acyclic g : gwf g -> acyclic g ->
  exists l, topological_sorted g = TopoOk l /\ Permutation l (gnodes g) /\
  (forall a b c, l = a ++ b :: c -> forall s, link g b s -> In s a).
Proof.
  intros Hg Hac. destruct (topo_spec g Hg) as [l [H1 [H2 [H3 [H4 H5]]]]].
  exists l. split; auto. split; auto. apply NoDup_Permutation; auto. apply Hg.
  intros x. split; [apply H3|]. intros Hx. destruct (zmem_dec x l); auto.
  exfalso. apply (walk_cycle g l x Hg H5 Hx); auto.
Qed.

Lemma order_below g l : (forall a b c, l = a ++ b :: c -> forall s, link g b s -> In s a) ->
  forall x y, below g x y -> forall a c, l = a ++ x :: c -> In y a.
Proof.
  intros Ho x y Hb. induction Hb as [x y H|x y z H1 IH1 H2 IH2]; intros a c E.
  - eapply Ho; eauto.
  - specialize (IH1 a c E). apply in_split in IH1. destruct IH1 as [a1 [a2 Ea]]. subst a.
    rewrite <- app_assoc in E. simpl in E. rewrite in_app_iff. left. eapply IH2; eauto.
Qed.
Lemma topo_cycle_missing g x : gwf g -> below g x x ->
  exists l, topological_sorted g = TopoOk l /\ ~ In x l.
Proof.
  intros Hg Hx. destruct (topo_spec g Hg) as [l [H1 [H2 [H3 [H4 H5]]]]].
  exists l. split; auto. intros Hin. apply in_split in Hin. destruct Hin as [a [c E]].
  assert (Ha := order_below g l H4 x x Hx a c E). subst l.
  apply NoDup_remove_2 in H2. apply H2. rewrite in_app_iff. auto.
Qed.

(** ---------- sorting, elementals, standard sort ---------- *)
Lemma zinsert_perm x l : Permutation (zinsert x l) (x :: l).
Proof.
  induction l as [|y l IH]; simpl; auto. destruct (x <=? y); auto.
  rewrite IH. apply perm_swap.
Qed.
Lemma zsort_perm l : Permutation (zsort l) l.
Proof. induction l as [|x l IH]; simpl; auto. rewrite zinsert_perm. auto. Qed.
Lemma zinsert_sorted x l : StronglySorted Z.le l -> StronglySorted Z.le (zinsert x l).
Proof.
  induction l as [|y l IH]; simpl; intros H; [repeat constructor|].
  inversion H; subst. destruct (Z.leb_spec x y).
  - constructor; auto. constructor; auto. eapply Forall_impl; [|eauto]. intros; lia.
  - constructor; auto. eapply Permutation_Forall; [symmetry; apply zinsert_perm|].
    constructor; auto. lia.
Qed.
Lemma zsort_sorted l : StronglySorted Z.le (zsort l).
Proof. induction l; simpl; [constructor|apply zinsert_sorted; auto]. Qed.

Lemma NoDup_app_intro {A} (l1 l2 : list A) : NoDup l1 -> NoDup l2 ->
  (forall x, In x l1 -> ~ In x l2) -> NoDup (l1 ++ l2).
Proof.
  induction l1 as [|a l IH]; simpl; intros H1 H2 H; auto.
  inversion H1; subst. constructor.
  - rewrite in_app_iff. intros [?|?]; [tauto|]. apply (H a); auto.
  - apply IH; auto.
Qed.

Lemma NoDup_filter' (f : Z -> bool) l : NoDup l -> NoDup (filter f l).
Proof. apply NoDup_filter. Qed.

Lemma elementals_perm g : gwf g -> NoDup (gsugg g) -> Permutation (elementals g) (leaves g).
Proof.
  intros Hg Hs. unfold elementals.
  set (first := filter _ (gsugg g)).
  assert (Hleaf : NoDup (leaves g)) by (apply NoDup_filter; apply Hg).
  assert (Hsort : NoDup (zsort (leaves g))).
  { eapply Permutation_NoDup; [symmetry; apply zsort_perm|auto]. }
  assert (Hin : forall x, In x first -> In x (leaves g)).
  { intros x Hx. apply filter_In in Hx. destruct Hx as [_ Hx].
    apply andb_prop in Hx. destruct Hx as [H1 H2]. apply filter_In. split; auto.
    apply zmem_In; auto. }
  apply NoDup_Permutation; auto.
  - apply NoDup_app_intro.
    + apply NoDup_filter; auto.
    + apply NoDup_filter; auto.
    + intros x H1 H2. apply filter_In in H2. destruct H2 as [_ H2].
      apply zmem_In in H1. rewrite H1 in H2. discriminate.
  - intros x. rewrite in_app_iff, filter_In. split.
    + intros [H|[H _]]; auto. eapply Permutation_in; [apply zsort_perm|auto].
    + intros H. destruct (zmem x first) eqn:E.
      * left. apply zmem_In; auto.
      * right. split; auto. eapply Permutation_in; [symmetry; apply zsort_perm|auto].
Qed.

(** position lemmas *)
Lemma before_app_l {A} (l1 l2 : list A) a b : In a l1 -> In b l2 -> before (l1 ++ l2) a b.
Proof.
  intros H1 H2. apply In_nth_error in H1. apply In_nth_error in H2.
  destruct H1 as [i Hi]. destruct H2 as [j Hj].
  assert (Hi' : (i < length l1)%nat) by (apply nth_error_Some; congruence).
  exists i, (length l1 + j)%nat. split; [lia|]. split.
  - rewrite nth_error_app1; auto.
  - rewrite nth_error_app2 by lia. replace (length l1 + j - length l1)%nat with j by lia. auto.
Qed.
Lemma before_app_r {A} (l1 l2 : list A) a b : before l2 a b -> before (l1 ++ l2) a b.
Proof.
  intros [i [j [H [Hi Hj]]]]. exists (length l1 + i)%nat, (length l1 + j)%nat.
  split; [lia|]. split; rewrite nth_error_app2 by lia.
  - replace (length l1 + i - length l1)%nat with i by lia. auto.
  - replace (length l1 + j - length l1)%nat with j by lia. auto.
Qed.
Lemma before_mid {A} (a b : list A) x y : In y a -> before (a ++ x :: b) y x.
Proof. intros H. apply before_app_l; simpl; auto. Qed.

Lemma elementals_read_ok g : incl (gsugg g) (gnodes g) -> elementals_read g = Some (elementals g).
Proof.
  intros H. unfold elementals_read.
  replace (forallb (fun e => zmem e (gnodes g)) (gsugg g)) with true; auto.
  symmetry. apply forallb_forall. intros x Hx. apply zmem_In. auto.
Qed.
Lemma elementals_read_fail g x : In x (gsugg g) -> ~ In x (gnodes g) -> elementals_read g = None.
Proof.
  intros H1 H2. unfold elementals_read.
  replace (forallb (fun e => zmem e (gnodes g)) (gsugg g)) with false; auto.
  symmetry. apply not_true_iff_false. rewrite forallb_forall. intros H.
  apply H2, zmem_In, H; auto.
Qed.
Lemma standard_sort_ok g : gwf g -> acyclic g -> NoDup (gsugg g) -> incl (gsugg g) (gnodes g) ->
  exists nests, standard_sort g = Some (elementals g ++ nests) /\
    Permutation (elementals g) (leaves g) /\
    Permutation (elementals g ++ nests) (gnodes g) /\
    (forall u v, link g u v -> before (elementals g ++ nests) v u).
Proof.
  intros Hg Hac Hs Hin. destruct (topo_acyclic g Hg Hac) as [l [H1 [H2 H3]]].
  set (nests := filter (fun i => negb (zmem i (leaves g))) l).
  exists nests. unfold standard_sort, nests_sorted. rewrite (elementals_read_ok g Hin), H1. fold nests.
  assert (He := elementals_perm g Hg Hs).
  assert (Hl : NoDup l) by (eapply Permutation_NoDup; [symmetry; eauto|apply Hg]).
  assert (Hleaf : NoDup (leaves g)) by (apply NoDup_filter; apply Hg).
  split; auto. split; auto. split.
  - rewrite He. apply NoDup_Permutation; [|apply Hg|].
    + apply NoDup_app_intro; auto. apply NoDup_filter; auto.
      intros x Hx Hx2. apply filter_In in Hx2. destruct Hx2 as [_ Hx2].
      apply zmem_In in Hx. rewrite Hx in Hx2; discriminate.
    + intros x. rewrite in_app_iff. unfold nests. rewrite filter_In.
      split.
      * intros [H|[H _]]; [apply filter_In in H; tauto|].
        eapply Permutation_in; eauto.
      * intros H. destruct (zmem x (leaves g)) eqn:E; [left; apply zmem_In; auto|].
        right. split; auto. eapply Permutation_in; [symmetry; eauto|auto].
  - intros u v Huv.
    assert (Hu : In u l). { eapply Permutation_in; [symmetry; eauto|]. apply (link_nodes g u v Hg Huv). }
    assert (Hun : zmem u (leaves g) = false).
    { apply zmem_nIn. rewrite in_leaves. intros [_ H]. apply (H v); auto. }
    destruct (in_split _ _ Hu) as [a [c E]].
    assert (Hv := H3 a u c E v Huv).
    destruct (zmem v (leaves g)) eqn:Ev.
    + apply before_app_l.
      * eapply Permutation_in; [symmetry; apply He|]. apply zmem_In; auto.
      * apply filter_In. rewrite Hun. auto.
    + apply before_app_r. unfold nests. rewrite E, filter_app. simpl. rewrite Hun. simpl.
      apply before_mid. apply filter_In. rewrite Ev. auto.
Qed.

Lemma nth_error_NoDup_eq {A} (l : list A) i j x : NoDup l ->
  nth_error l i = Some x -> nth_error l j = Some x -> i = j.
Proof.
  intros H Hi Hj. rewrite NoDup_nth_error in H. apply H.
  - apply nth_error_Some. congruence.
  - congruence.
Qed.
Lemma before_trans {A} (l : list A) a b c : NoDup l -> before l a b -> before l b c -> before l a c.
Proof.
  intros Hd [i [j [H1 [H2 H3]]]] [k [m [H4 [H5 H6]]]].
  assert (j = k) by (eapply nth_error_NoDup_eq; eauto). subst.
  exists i, m. split; [lia|]. auto.
Qed.
Lemma root_last g std : gwf g -> rooted g -> Permutation std (gnodes g) ->
  (forall u v, link g u v -> before std v u) -> exists l, std = l ++ [groot g].
Proof.
  intros Hg [Hr Hb] Hp Ho.
  assert (Hd : NoDup std) by (eapply Permutation_NoDup; [symmetry; eauto|apply Hg]).
  assert (Hbb : forall x y, below g x y -> before std y x).
  { intros x y H. induction H; auto. eapply before_trans; eauto. }
  assert (Hrin : In (groot g) std) by (eapply Permutation_in; [symmetry; eauto|auto]).
  destruct (in_split _ _ Hrin) as [a [c E]]. destruct c as [|z c]; [exists a; auto|].
  exfalso. assert (Hz : In z (gnodes g)).
  { eapply Permutation_in; [eauto|]. rewrite E, in_app_iff. simpl; auto. }
  assert (Hzr : z <> groot g).
  { intros ->. rewrite E in Hd. apply NoDup_remove_2 in Hd. apply Hd. rewrite in_app_iff. simpl; auto. }
  destruct (Hbb _ _ (Hb z Hz Hzr)) as [i [j [H1 [H2 H3]]]].
  assert (Hi : nth_error std (S (length a)) = Some z).
  { rewrite E, nth_error_app2 by lia. replace (S (length a) - length a)%nat with 1%nat by lia. auto. }
  assert (Hj : nth_error std (length a) = Some (groot g)).
  { rewrite E, nth_error_app2 by lia. replace (length a - length a)%nat with 0%nat by lia. auto. }
  assert (i = S (length a)) by (eapply nth_error_NoDup_eq; eauto).
  assert (j = length a) by (eapply nth_error_NoDup_eq; eauto). lia.
Qed.

(** ---------- slots ---------- *)
Lemma slot_from_spec l : forall k c found, NoDup l ->
  (~ In c l -> slot_from k l c found = found) /\
  (forall i, nth_error l i = Some c -> slot_from k l c found = Some (k + i)%nat).
Proof.
  induction l as [|x l IH]; intros k c found Hd; simpl.
  - split; auto. intros i Hi. destruct i; discriminate.
  - inversion Hd as [|? ? Hx Hd']; subst. destruct (Z.eqb_spec x c) as [->|Hne].
    + split; [tauto|]. intros i Hi. destruct (IH (S k) c (Some k) Hd') as [H1 _].
      destruct i as [|i]; simpl in Hi.
      * rewrite H1; auto.
      * exfalso. apply nth_error_In in Hi. auto.
    + destruct (IH (S k) c found Hd') as [H1 H2]. split; [tauto|].
      intros i Hi. destruct i as [|i]; simpl in Hi; [congruence|].
      rewrite (H2 i Hi). f_equal; lia.
Qed.
Lemma slot_nth std c i : NoDup std -> nth_error std i = Some c -> slot std c = i.
Proof.
  intros Hd H. unfold slot, slot_of. destruct (slot_from_spec std 0 c None Hd) as [_ H2].
  rewrite (H2 i H). lia.
Qed.
Lemma slot_before std a b : NoDup std -> before std a b -> (slot std a < slot std b)%nat.
Proof.
  intros Hd [i [j [H [Hi Hj]]]]. rewrite (slot_nth std a i), (slot_nth std b j); auto.
Qed.
Lemma slot_lt std c : NoDup std -> In c std -> (slot std c < length std)%nat.
Proof.
  intros Hd Hc. apply In_nth_error in Hc. destruct Hc as [i Hi].
  rewrite (slot_nth std c i); auto. apply nth_error_Some; congruence.
Qed.
Lemma nth_slot std c : NoDup std -> In c std -> nth_error std (slot std c) = Some c.
Proof.
  intros Hd Hc. apply In_nth_error in Hc. destruct Hc as [i Hi]. rewrite (slot_nth std c i); auto.
Qed.
Lemma slot_inj std a b : NoDup std -> In a std -> In b std -> slot std a = slot std b -> a = b.
Proof.
  intros Hd Ha Hb E. assert (H1 := nth_slot std a Hd Ha). assert (H2 := nth_slot std b Hd Hb).
  rewrite E in H1. congruence.
Qed.

(** ---------- edge arrays ---------- *)
Lemma fold_cons_rev {A B} (f : A -> B) l acc :
  fold_left (fun a x => f x :: a) (rev l) acc = map f l ++ acc.
Proof.
  revert acc. induction l as [|x l IH]; intros acc; simpl; auto.
  rewrite fold_left_app. simpl. f_equal. apply IH.
Qed.
Lemma edge_fill_gen g base l acc : fold_left (fun acc up =>
      fold_left (fun acc' dn => (slot base up, slot base dn) :: acc') (rev (succs g up)) acc) (rev l) acc
      = flat_map (fun up => map (fun dn => (slot base up, slot base dn)) (succs g up)) l ++ acc.
Proof.
  revert acc. induction l as [|x l IH]; intros acc; simpl; auto.
  rewrite fold_left_app. simpl. rewrite IH.
  rewrite (fold_cons_rev (fun dn => (slot base x, slot base dn))). rewrite app_assoc. reflexivity.
Qed.
Lemma edge_fill_flat g std :
  edge_fill g std = flat_map (fun up => map (fun dn => (slot std up, slot std dn)) (succs g up)) std.
Proof. unfold edge_fill. rewrite edge_fill_gen. apply app_nil_r. Qed.

Lemma eq_perm {A} (l l' : list A) : l = l' -> Permutation l l'.
Proof. intros ->. reflexivity. Qed.
Lemma filter_perm_split (es : list edge) (l : list Z) : NoDup l ->
  (forall e, In e es -> In (eu e) l) ->
  Permutation (flat_map (fun u => filter (fun e => eu e =? u) es) l) es.
Proof.
  revert es. induction l as [|x l IH]; intros es Hd H; simpl.
  - destruct es as [|e es]; auto. exfalso. apply (H e). left; auto.
  - inversion Hd as [|? ? Hx Hd']; subst.
    assert (Hp : Permutation (filter (fun e => eu e =? x) es ++ filter (fun e => negb (eu e =? x)) es) es).
    { clear. induction es as [|e es IH]; simpl; auto. destruct (eu e =? x); simpl; auto.
      rewrite <- Permutation_middle. auto. }
    rewrite <- Hp at 2. apply Permutation_app_head.
    rewrite <- (IH (filter (fun e => negb (eu e =? x)) es)); auto.
    + apply eq_perm. rewrite !flat_map_concat_map. f_equal. apply map_ext_in. intros u Hu.
      clear -Hu Hx. induction es as [|e es IH]; simpl; auto.
      destruct (Z.eqb_spec (eu e) x) as [E|E]; simpl.
      * destruct (Z.eqb_spec (eu e) u); auto. subst. exfalso. congruence.
      * destruct (eu e =? u); simpl; rewrite IH; auto.
    + intros e He. apply filter_In in He. destruct He as [He Hne].
      destruct (H e He); auto. subst. rewrite Z.eqb_refl in Hne. discriminate.
Qed.

Lemma flat_succs_map g base l :
  flat_map (fun up => map (fun dn => (slot base up, slot base dn)) (succs g up)) l =
  map (fun e => (slot base (eu e), slot base (ev e)))
      (flat_map (fun u => filter (fun e => eu e =? u) (gedges g)) l).
Proof.
  induction l as [|x l IH]; simpl; auto.
  rewrite map_app. f_equal; auto. unfold succs. rewrite map_map.
  apply map_ext_in. intros e He. apply filter_In in He. destruct He as [_ He].
  apply Z.eqb_eq in He. subst; auto.
Qed.
Lemma edge_fill_perm g std : gwf g -> Permutation std (gnodes g) ->
  Permutation (edge_fill g std) (map (fun e => (slot std (eu e), slot std (ev e))) (gedges g)).
Proof.
  intros Hg Hp. rewrite edge_fill_flat, flat_succs_map.
  assert (Hd : NoDup std) by (eapply Permutation_NoDup; [symmetry; eauto|apply Hg]).
  apply Permutation_map. apply filter_perm_split; auto.
  intros e He. eapply Permutation_in; [symmetry; eauto|]. apply Hg; auto.
Qed.
Lemma edge_slot_arrays_flat g std : gwf g -> Permutation std (gnodes g) ->
  edge_slot_arrays g std = flat_map (fun up => map (fun dn => (slot std up, slot std dn)) (succs g up)) std.
Proof.
  intros Hg Hp. unfold edge_slot_arrays.
  assert (H := Permutation_length (edge_fill_perm g std Hg Hp)). rewrite map_length in H.
  rewrite H. rewrite Nat.sub_diag. simpl. apply edge_fill_flat.
Qed.

(** children slots of slot [k] *)
Definition kids (g : graph) (std : list Z) (k : nat) : list nat :=
  match nth_error std k with Some c => map (slot std) (succs g c) | None => [] end.

Lemma map_nth_seq {A B} (f : nat -> option A -> B) (l : list A) : forall k,
  map (fun i => f (k + i)%nat (nth_error l i)) (seq 0 (length l)) =
  map (fun p => f (fst p) (Some (snd p))) (combine (seq k (length l)) l).
Proof.
  induction l as [|x l IH]; intros k; simpl; auto. f_equal.
  - f_equal. lia.
  - rewrite <- seq_shift, map_map. specialize (IH (S k)). simpl in IH. rewrite <- IH.
    apply map_ext. intros i. f_equal. lia.
Qed.

Lemma edge_arrays_kids g std : gwf g -> Permutation std (gnodes g) ->
  edge_slot_arrays g std = flat_map (fun k => map (pair k) (kids g std k)) (seq 0 (length std)).
Proof.
  intros Hg Hp. rewrite edge_slot_arrays_flat; auto.
  assert (Hd : NoDup std) by (eapply Permutation_NoDup; [symmetry; eauto|apply Hg]).
  rewrite !flat_map_concat_map. f_equal.
  assert (Hgen : forall (l pre : list Z), std = pre ++ l ->
     map (fun up => map (fun dn => (slot std up, slot std dn)) (succs g up)) l =
     map (fun k => map (pair k) (kids g std k)) (seq (length pre) (length l))).
  { induction l as [|x l IH]; intros pre E; simpl; auto. f_equal.
    - assert (En : nth_error std (length pre) = Some x).
      { rewrite E, nth_error_app2 by lia. rewrite Nat.sub_diag. auto. }
      unfold kids. rewrite En. rewrite map_map. rewrite (slot_nth std x (length pre)); auto.
    - specialize (IH (pre ++ [x])). rewrite app_length in IH. simpl in IH.
      replace (length pre + 1)%nat with (S (length pre)) in IH by lia. apply IH.
      rewrite <- app_assoc. auto. }
  apply (Hgen std []). auto.
Qed.

(** ---------- node arrays ---------- *)
Lemma nsa_inner up (cs : list Z) : forall n st nu,
  (length cs <= n)%nat ->
  let '(n', st', nu') := fold_left (nsa_step up) cs (n, st, nu) in
  n' = (n - length cs)%nat /\
  (forall k, nu' k = if (k =? up)%nat then (nu k + length cs)%nat else nu k) /\
  (forall k, st' k = if (k =? up)%nat then (if (length cs =? 0)%nat then st k else Some (n - length cs)%nat) else st k).
Proof.
  induction cs as [|c cs IH]; intros n st nu Hn; cbn [fold_left].
  - simpl. split; [lia|]. split; intros k; destruct (k =? up)%nat; auto.
  - unfold nsa_step at 2. simpl in Hn.
    specialize (IH (pred n) (fun k => if (k =? up)%nat then Some (pred n) else st k)
       (fun k => if (k =? up)%nat then S (nu k) else nu k)).
    destruct (fold_left (nsa_step up) cs _) as [[n' st'] nu'].
    destruct IH as [H1 [H2 H3]]; [lia|]. simpl length.
    split; [lia|]. split; intros k.
    + rewrite H2. destruct (k =? up)%nat; lia.
    + rewrite H3. destruct (k =? up)%nat; auto.
      destruct (length cs =? 0)%nat eqn:E; simpl.
      * apply Nat.eqb_eq in E. rewrite E. f_equal. lia.
      * f_equal. lia.
Qed.

Definition sumlen (g : graph) (l : list Z) : nat := fold_right (fun c a => (length (succs g c) + a)%nat) 0%nat l.
Lemma sumlen_app g a b : sumlen g (a ++ b) = (sumlen g a + sumlen g b)%nat.
Proof. induction a as [|x a IH]; simpl; auto. fold (sumlen g (a ++ b)). fold (sumlen g a). lia. Qed.

Lemma nsa_outer g std : NoDup std -> forall l pre total, std = pre ++ l ->
  (sumlen g l <= total)%nat ->
  let '(n', st', nu') := fold_left (fun s up => fold_left (nsa_step (slot std up)) (rev (succs g up)) s)
     (rev l) (total, (fun _ => None), (fun _ => 0%nat)) in
  n' = (total - sumlen g l)%nat /\
  (forall k, (k < length pre)%nat -> nu' k = 0%nat /\ st' k = None) /\
  (forall i c, nth_error l i = Some c ->
     nu' (length pre + i)%nat = length (succs g c) /\
     (succs g c <> [] -> st' (length pre + i)%nat = Some (total - sumlen g (skipn i l))%nat)).
Proof.
  intros Hd. induction l as [|x l IH]; intros pre total E Ht.
  - simpl. split; [lia|]. split; auto. intros i c Hi. destruct i; discriminate.
  - simpl rev. rewrite fold_left_app. cbn [fold_left].
    specialize (IH (pre ++ [x]) total).
    destruct (fold_left _ (rev l) _) as [[n1 st1] nu1].
    simpl in Ht. fold (sumlen g l) in Ht.
    destruct IH as [H1 [H2 H3]]; [rewrite <- app_assoc; auto|lia|].
    rewrite app_length in H2, H3. simpl in H2, H3.
    assert (Hs : slot std x = length pre).
    { apply slot_nth; auto. rewrite E, nth_error_app2 by lia. rewrite Nat.sub_diag. auto. }
    assert (Hin := nsa_inner (slot std x) (rev (succs g x)) n1 st1 nu1).
    rewrite rev_length in Hin.
    destruct (fold_left (nsa_step (slot std x)) _ _) as [[n2 st2] nu2].
    destruct Hin as [K1 [K2 K3]]; [lia|]. rewrite Hs in *.
    simpl sumlen. fold (sumlen g l).
    split; [lia|]. split.
    + intros k Hk. rewrite K2, K3. destruct (Nat.eqb_spec k (length pre)); [lia|].
      apply H2. lia.
    + intros i c Hi. destruct i as [|i].
      * simpl in Hi. injection Hi as ->. rewrite Nat.add_0_r. rewrite K2, K3, Nat.eqb_refl.
        destruct (H2 (length pre)) as [Ha Hb]; [lia|]. rewrite Ha. split; [lia|].
        intros Hne. destruct (succs g c) eqn:Es; [congruence|]. simpl.
        fold (sumlen g l). rewrite Es. simpl. f_equal. simpl in *. lia.
      * simpl in Hi. destruct (H3 i c Hi) as [Ha Hb].
        replace (length pre + 1 + i)%nat with (length pre + S i)%nat in Ha, Hb by lia.
        rewrite K2, K3. destruct (Nat.eqb_spec (length pre + S i) (length pre)); [lia|].
        simpl. auto.
Qed.

Lemma sumlen_flat g base l : sumlen g l =
  length (flat_map (fun up => map (fun dn => (slot base up, slot base dn)) (succs g up)) l).
Proof. induction l as [|x l IH]; simpl; auto. rewrite app_length, map_length, <- IH. auto. Qed.

Lemma sumlen_edges g std : gwf g -> Permutation std (gnodes g) -> sumlen g std = length (gedges g).
Proof.
  intros Hg Hp. assert (H := Permutation_length (edge_fill_perm g std Hg Hp)).
  rewrite map_length in H. rewrite <- H. rewrite edge_fill_flat. apply sumlen_flat.
Qed.

Lemma flat_map_firstn_skipn {A B} (f : A -> list B) l i x :
  nth_error l i = Some x ->
  firstn (length (f x)) (skipn (length (flat_map f (firstn i l))) (flat_map f l)) = f x.
Proof.
  revert i. induction l as [|a l IH]; intros i H; [destruct i; discriminate|].
  destruct i as [|i]; simpl in *.
  - injection H as ->. rewrite firstn_app. rewrite Nat.sub_diag. simpl.
    rewrite app_nil_r. apply firstn_all.
  - rewrite app_length, skipn_app.
    rewrite skipn_all2 by lia. simpl.
    replace (length (f a) + length (flat_map f (firstn i l)) - length (f a))%nat
      with (length (flat_map f (firstn i l))) by lia. auto.
Qed.
(** The block [start, start+num) of the edge arrays holds exactly the nest's edges. *)
Lemma node_arrays_block g std : gwf g -> Permutation std (gnodes g) ->
  let '(_, st, nu) := node_slot_arrays g std in
  forall k, (k < length std)%nat ->
    nu k = length (kids g std k) /\
    (kids g std k <> [] -> exists s, st k = Some s /\
       firstn (nu k) (skipn s (edge_slot_arrays g std)) = map (pair k) (kids g std k)) /\
    (kids g std k = [] -> nu k = 0%nat).
Proof.
  intros Hg Hp. 
  assert (Hd : NoDup std) by (eapply Permutation_NoDup; [symmetry; eauto|apply Hg]).
  assert (Hlen := sumlen_edges g std Hg Hp).
  assert (H := nsa_outer g std Hd std [] (length (gedges g)) eq_refl).
  unfold node_slot_arrays. destruct (fold_left _ (rev std) _) as [[n st] nu].
  destruct H as [_ [_ H]]; [lia|]. intros k Hk.
  destruct (nth_error std k) as [c|] eqn:E; [|apply nth_error_None in E; lia].
  destruct (H k c E) as [H1 H2]. simpl in H1, H2. unfold kids. rewrite E.
  rewrite map_length. split; auto. split.
  - intros Hne. assert (Hne' : succs g c <> []) by (intros Hz; apply Hne; rewrite Hz; auto).
    eexists. split; [apply H2; auto|].
    rewrite edge_slot_arrays_flat by auto. rewrite H1.
    assert (Hs : (length (gedges g) - sumlen g (skipn k std))%nat =
      length (flat_map (fun up => map (fun dn => (slot std up, slot std dn)) (succs g up)) (firstn k std))).
    { rewrite <- sumlen_flat. rewrite <- Hlen. 
      rewrite <- (firstn_skipn k std) at 1. rewrite sumlen_app. lia. }
    rewrite Hs.
    assert (HB := flat_map_firstn_skipn (fun up => map (fun dn => (slot std up, slot std dn)) (succs g up)) std k c E).
    cbv beta in HB. rewrite map_length in HB. rewrite HB. rewrite map_map. rewrite (slot_nth std c k); auto.
  - intros Hnil. rewrite H1. apply map_eq_nil in Hnil. rewrite Hnil. auto.
Qed.
