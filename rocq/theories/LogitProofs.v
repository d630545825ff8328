From Coq Require Import Permutation FunctionalExtensionality.
From Verif Require Export LogitSpec.

(** ---------- sums ---------- *)
Lemma Rsum_app {A} (f : A -> R) l1 l2 : Rsum f (l1 ++ l2) = Rsum f l1 + Rsum f l2.
Proof. induction l1; simpl; lra. Qed.
Lemma Rsum_perm {A} (f : A -> R) l1 l2 : Permutation l1 l2 -> Rsum f l1 = Rsum f l2.
Proof. induction 1; simpl; lra. Qed.
Lemma Rsum_ext {A} (f g : A -> R) l : (forall x, In x l -> f x = g x) -> Rsum f l = Rsum g l.
Proof.
  induction l as [|x l IH]; simpl; intros H; auto. rewrite (H x), IH; auto.
Qed.
Lemma Rsum_plus {A} (f g : A -> R) l : Rsum (fun x => f x + g x) l = Rsum f l + Rsum g l.
Proof. induction l; simpl; lra. Qed.
Lemma Rsum_minus {A} (f g : A -> R) l : Rsum (fun x => f x - g x) l = Rsum f l - Rsum g l.
Proof. induction l; simpl; lra. Qed.
Lemma Rsum_scal {A} c (f : A -> R) l : Rsum (fun x => c * f x) l = c * Rsum f l.
Proof. induction l; simpl; lra. Qed.
Lemma Rsum_scal_r {A} c (f : A -> R) l : Rsum (fun x => f x * c) l = Rsum f l * c.
Proof. induction l; simpl; lra. Qed.
Lemma Rsum_zero {A} (f : A -> R) l : (forall x, In x l -> f x = 0) -> Rsum f l = 0.
Proof. induction l as [|x l IH]; simpl; intros H; auto. rewrite (H x), IH; auto. lra. Qed.
Lemma Rsum_nonneg {A} (f : A -> R) l : (forall x, In x l -> 0 <= f x) -> 0 <= Rsum f l.
Proof.
  induction l as [|x l IH]; simpl; intros H; [lra|].
  assert (0 <= f x) by auto. assert (0 <= Rsum f l) by auto. lra.
Qed.
Lemma Rsum_pos {A} (f : A -> R) l x : (forall x, In x l -> 0 <= f x) -> In x l -> 0 < f x -> 0 < Rsum f l.
Proof.
  induction l as [|y l IH]; simpl; intros H Hx Hp; [tauto|].
  assert (0 <= f y) by auto. assert (0 <= Rsum f l) by (apply Rsum_nonneg; auto).
  destruct Hx as [ ->|Hx]; [lra|]. assert (0 < Rsum f l) by auto. lra.
Qed.
Lemma Rsum_ge_one {A} (f : A -> R) l x : (forall x, In x l -> 0 <= f x) -> In x l -> f x <= Rsum f l.
Proof.
  induction l as [|y l IH]; simpl; intros H Hx; [tauto|].
  assert (0 <= f y) by auto. assert (0 <= Rsum f l) by (apply Rsum_nonneg; auto).
  destruct Hx as [ ->|Hx]; [lra|]. assert (f x <= Rsum f l) by auto. lra.
Qed.
Lemma Rsum_flat_map {A B} (f : B -> R) (g : A -> list B) l :
  Rsum f (flat_map g l) = Rsum (fun a => Rsum f (g a)) l.
Proof. induction l; simpl; auto. rewrite Rsum_app, IHl. auto. Qed.
Lemma Rsum_map {A B} (f : B -> R) (g : A -> B) l : Rsum f (map g l) = Rsum (fun a => f (g a)) l.
Proof. induction l; simpl; congruence. Qed.
Lemma fold_left_Rplus {A} (f : A -> R) l a : fold_left (fun s x => s + f x) l a = a + Rsum f l.
Proof. revert a. induction l as [|x l IH]; simpl; intros a; [lra|]. rewrite IH. lra. Qed.

Lemma upd_eq {A} (f : nat -> A) k v : upd f k v k = v.
Proof. unfold upd. rewrite Nat.eqb_refl. auto. Qed.
Lemma upd_neq {A} (f : nat -> A) k v i : i <> k -> upd f k v i = f i.
Proof. unfold upd. intros H. apply Nat.eqb_neq in H. rewrite H. auto. Qed.

(** ---------- loops that fill an array ---------- *)
(** bottom up: node k computed from smaller nodes *)
Lemma fold_up {A} (F : (nat -> A) -> nat -> A) (lo hi : nat) :
  (forall U U' k, (lo <= k < hi)%nat -> (forall j, (j < k)%nat -> U j = U' j) -> U k = U' k ->
     F U k = F U' k) ->
  forall m a U0, (lo <= a)%nat -> (a + m <= hi)%nat ->
  let V := fold_left (fun U k => upd U k (F U k)) (seq a m) U0 in
  (forall k, (k < a \/ a + m <= k)%nat -> V k = U0 k) /\
  (forall k, (a <= k < a + m)%nat -> V k = F (upd V k (U0 k)) k).
Proof.
  intros HF. induction m as [|m IH]; intros a U0 Hlo Hhi; simpl.
  - split; [auto|]. intros; lia.
  - destruct (IH (S a) (upd U0 a (F U0 a))) as [I1 I2]; [lia|lia|].
    set (V := fold_left _ _ _) in *. split.
    + intros k Hk. rewrite I1 by lia. apply upd_neq. lia.
    + intros k Hk. destruct (Nat.eq_dec k a) as [ ->|Hne].
      * rewrite I1 by lia. rewrite upd_eq. apply HF; [lia| |].
        -- intros j Hj. rewrite upd_neq by lia. rewrite I1 by lia. rewrite upd_neq; auto. lia.
        -- rewrite upd_eq. auto.
      * rewrite I2 by lia. rewrite upd_neq; auto.
Qed.
(** along a list of edges, each writing its lower end once, after its upper end is final *)
Lemma fold_down {A} (F : (nat -> A) -> nat * nat -> A) (L : list (nat * nat)) :
  (forall U U' e, U (fst e) = U' (fst e) -> U (snd e) = U' (snd e) -> F U e = F U' e) ->
  NoDup (map snd L) ->
  (forall a e b, L = a ++ e :: b -> fst e <> snd e /\ ~ In (fst e) (map snd b)) ->
  forall P0,
  let V := fold_left (fun P e => upd P (snd e) (F P e)) L P0 in
  (forall x, ~ In x (map snd L) -> V x = P0 x) /\
  (forall e, In e L -> V (snd e) = F (upd V (snd e) (P0 (snd e))) e).
Proof.
  intros HF. induction L as [|e L IH]; intros Hnd Hord P0; simpl.
  - split; auto. intros e [].
  - simpl in Hnd. inversion Hnd as [|x l Hx Hl]; subst.
    destruct (IH Hl) with (P0 := upd P0 (snd e) (F P0 e)) as [I1 I2].
    { intros a e' b E. apply (Hord (e :: a) e' b). rewrite E. auto. }
    set (V := fold_left _ _ _) in *.
    destruct (Hord [] e L eq_refl) as [Hne Hnin].
    split.
    + intros x Hnx. rewrite I1 by tauto. apply upd_neq. intros ->. tauto.
    + intros e' [<-|He'].
      * rewrite I1 by auto. rewrite upd_eq. apply HF; [|rewrite upd_eq; auto].
        rewrite upd_neq by auto. rewrite I1 by auto. rewrite upd_neq; auto.
      * rewrite I2 by auto. assert (snd e' <> snd e).
        { intros E. apply Hx. rewrite <- E. apply in_map; auto. }
        rewrite upd_neq; auto.
Qed.
(** same, any order, when the value does not depend on the array *)
Lemma fold_write {A} (v : nat * nat -> A) (L : list (nat * nat)) : NoDup (map snd L) -> forall P0,
  let V := fold_left (fun P e => upd P (snd e) (v e)) L P0 in
  (forall x, ~ In x (map snd L) -> V x = P0 x) /\ (forall e, In e L -> V (snd e) = v e).
Proof.
  induction L as [|e L IH]; intros Hnd P0; simpl.
  - split; auto. intros e [].
  - simpl in Hnd. inversion Hnd as [|x l Hx Hl]; subst.
    destruct (IH Hl (upd P0 (snd e) (v e))) as [I1 I2]. split.
    + intros x Hnx. rewrite I1 by tauto. apply upd_neq. intros ->; tauto.
    + intros e' [<-|He']; auto. rewrite I1 by auto. apply upd_eq.
Qed.

(** ---------- one nest ---------- *)
Lemma shifter_loop mu U cs : forall acc,
  let r := fold_left (shifter_step mu U) cs acc in
  ((fst acc = None /\ snd acc = None) \/
   (exists s p u, acc = (Some s, Some p) /\ U p = Some u /\ s = u / mu)) ->
  (r = (None, None) /\ acc = (None, None) /\ (forall j, In j cs -> U j = None)) \/
  (exists s p u, r = (Some s, Some p) /\ U p = Some u /\ s = u / mu /\
     (fst acc <> None \/ exists j, In j cs /\ U j <> None)).
Proof.
  induction cs as [|c cs IH]; intros acc; cbv zeta; simpl.
  - intros [[H1 H2]|[s [p [u [H1 [H2 H3]]]]]].
    + left. destruct acc; simpl in *; subst. repeat split; auto. intros j [].
    + right. exists s, p, u. subst acc. simpl. repeat split; auto. left; discriminate.
  - intros H. destruct (U c) as [x|] eqn:Ec.
    + assert (Hc : exists s p u, shifter_step mu U acc c = (Some s, Some p) /\ U p = Some u /\ s = u / mu).
      { unfold shifter_step. rewrite Ec. destruct acc as [[s|] pos]; simpl.
        - destruct H as [[H1 H2]|[s' [p [u [H1 [H2 H3]]]]]]; [discriminate|]. injection H1 as -> ->.
          destruct (Rlt_dec s' (x / mu)); eauto 8.
        - eauto 8. }
      destruct (IH (shifter_step mu U acc c)) as [[I1 [I2 I3]]|[s [p [u [I1 [I2 [I3 I4]]]]]]].
      * right. auto.
      * destruct Hc as [s [p [u [Hc _]]]]. congruence.
      * right. exists s, p, u. repeat split; auto. right. exists c. split; auto. congruence.
    + assert (Hs : shifter_step mu U acc c = acc) by (unfold shifter_step; rewrite Ec; auto).
      rewrite Hs. destruct (IH acc H) as [[I1 [I2 I3]]|[s [p [u [I1 [I2 [I3 I4]]]]]]].
      * left. repeat split; auto. intros j [<-|Hj]; auto.
      * right. exists s, p, u. repeat split; auto. destruct I4 as [I4|[j [I4 I5]]]; auto.
        right. exists j. auto.
Qed.
Lemma exp_loop mu s p u U cs base : mu <> 0 -> U p = Some u -> s = u / mu ->
  fold_left (exp_step mu s (Some p) U) cs base = base + exp (- s) * Rsum (fun j => oexp mu (U j)) cs.
Proof.
  intros Hmu Hp Hs. revert base. induction cs as [|c cs IH]; intros base; simpl; [lra|].
  rewrite IH. unfold exp_step. destruct (U c) as [x|] eqn:Ec; simpl; [|lra].
  destruct (Nat.eqb_spec p c) as [ ->|Hne].
  - rewrite Hp in Ec. injection Ec as ->. rewrite <- Hs.
    rewrite Rmult_plus_distr_l, <- exp_plus. replace (- s + s) with 0 by lra. rewrite exp_0. lra.
  - rewrite Rmult_plus_distr_l, <- exp_plus. replace (x / mu - s) with (- s + x / mu) by lra. lra.
Qed.
Definition logsum (mu : R) (xs : list (option R)) : option R :=
  if existsb (fun x => match x with Some _ => true | None => false end) xs
  then Some (mu * ln (Rsum (oexp mu) xs)) else None.
Lemma oexp_nonneg mu x : 0 <= oexp mu x.
Proof. destruct x; simpl; [left; apply exp_pos|lra]. Qed.
Lemma nest_val mu U cs base : mu <> 0 -> base = 0 ->
  (let '(sh, pos) := fold_left (shifter_step mu U) cs (None, None) in
   match sh with
   | None => None
   | Some s => Some ((ln (fold_left (exp_step mu s pos U) cs base) + s) * mu)
   end) = logsum mu (map U cs).
Proof.
  intros Hmu ->. destruct (shifter_loop mu U cs (None, None)) as [[H1 [_ H3]]|[s [p [u [H1 [H2 [H3 H4]]]]]]].
  - left; auto.
  - rewrite H1. unfold logsum.
    replace (existsb _ (map U cs)) with false; auto. symmetry.
    apply not_true_iff_false. rewrite existsb_exists. intros [x [Hx Hs]].
    apply in_map_iff in Hx. destruct Hx as [j [Hj Hin]]. rewrite H3 in Hj by auto. subst; discriminate.
  - rewrite H1. rewrite (exp_loop mu s p u U cs 0 Hmu H2 H3). unfold logsum.
    destruct H4 as [H4|[j [Hj Hne]]]; [simpl in H4; congruence|].
    replace (existsb _ (map U cs)) with true.
    2:{ symmetry. apply existsb_exists. exists (U j). split; [apply in_map; auto|].
        destruct (U j); auto. }
    rewrite Rsum_map. f_equal.
    assert (Hpos : 0 < Rsum (fun j => oexp mu (U j)) cs).
    { apply (Rsum_pos _ _ j); auto.
      - intros; apply oexp_nonneg.
      - destruct (U j) as [v|]; [simpl; apply exp_pos|congruence]. }
    rewrite Rplus_0_l, ln_mult by (auto; apply exp_pos). rewrite ln_exp. lra.
Qed.

Lemma NoDup_app_both {A} (l1 l2 : list A) : NoDup (l1 ++ l2) -> NoDup l1 /\ NoDup l2.
Proof.
  induction l1 as [|x l1 IH]; simpl; intros H; [split; [constructor|auto]|].
  inversion H; subst. destruct (IH H3). split; auto. constructor; auto.
  intros Hx. apply H2. apply in_app_iff; auto.
Qed.
(** ---------- tree facts ---------- *)
Lemma kid_range st kids (T : dag_slots st kids) k j : (k < n_nodes st)%nat -> In j (kids k) -> (j < k)%nat /\ (n_alts st <= k)%nat.
Proof.
  intros Hk Hj. split; [eapply ts_less; eauto|].
  destruct (Nat.lt_ge_cases k (n_alts st)) as [H|H]; auto. rewrite (ts_leaf _ _ T) in Hj by auto. destruct Hj.
Qed.
Section Tree.
Variable st : slots.
Variable kids : nat -> list nat.
Hypothesis T : tree_slots st kids.
Let na := n_alts st.
Let n := n_nodes st.

Lemma map_snd_edges : map snd (edges st) = flat_map kids (seq 0 n).
Proof.
  rewrite (ts_edges _ _ T). fold n. generalize (seq 0 n). induction l as [|k l IH]; simpl; auto.
  rewrite map_app, IH, map_map. simpl. rewrite map_id. auto.
Qed.
Lemma dn_perm : Permutation (map snd (edges st)) (seq 0 (n - 1)).
Proof. rewrite map_snd_edges. apply (ts_tree _ _ T). Qed.
Lemma dn_nodup : NoDup (map snd (edges st)).
Proof. eapply Permutation_NoDup; [symmetry; apply dn_perm|apply seq_NoDup]. Qed.
Lemma in_edges_iff up dn : In (up, dn) (edges st) <-> (up < n)%nat /\ In dn (kids up).
Proof.
  rewrite (ts_edges _ _ T), in_flat_map. split.
  - intros [k [Hk Hin]]. apply in_map_iff in Hin. destruct Hin as [j [Hj Hin]].
    injection Hj as -> ->. apply in_seq in Hk. split; auto. unfold n; lia.
  - intros [H1 H2]. exists up. split; [apply in_seq; unfold n in H1; lia|]. apply in_map; auto.
Qed.
Lemma kids_nodup k : (k < n)%nat -> NoDup (kids k).
Proof.
  intros Hk. assert (H := dn_nodup). rewrite map_snd_edges in H.
  assert (Hin : In k (seq 0 n)) by (apply in_seq; lia).
  clear -H Hin. revert H Hin. generalize (seq 0 n). induction l as [|x l IH]; simpl; intros H Hin; [tauto|].
  apply NoDup_app_both in H. destruct Hin as [ ->|Hin]; tauto.
Qed.
Lemma parent_ex j : (j < n - 1)%nat -> exists k, (k < n)%nat /\ In j (kids k).
Proof.
  intros Hj. assert (H : In j (flat_map kids (seq 0 n))).
  { eapply Permutation_in; [symmetry; apply (ts_tree _ _ T)|]. apply in_seq. unfold n in *; lia. }
  apply in_flat_map in H. destruct H as [k [Hk Hin]]. apply in_seq in Hk. exists k. split; auto. lia.
Qed.
Lemma kid_lt_root k j : (k < n)%nat -> In j (kids k) -> (j < n - 1)%nat.
Proof. intros Hk Hj. destruct (kid_range st kids T k j Hk Hj). lia. Qed.
Lemma parent_unique j k k' : (k < n)%nat -> (k' < n)%nat -> In j (kids k) -> In j (kids k') -> k = k'.
Proof.
  intros H1 H2 H3 H4. assert (H := dn_nodup).
  assert (E1 : In (k, j) (edges st)) by (apply in_edges_iff; auto).
  assert (E2 : In (k', j) (edges st)) by (apply in_edges_iff; auto).
  revert H E1 E2. generalize (edges st). clear. induction l as [|[a b] l IH]; simpl; intros H E1 E2; [tauto|].
  inversion H; subst.
  destruct E1 as [E1|E1], E2 as [E2|E2]; try congruence; auto.
  - injection E1 as -> ->. exfalso. apply H2. apply in_map_iff. exists (k', j); auto.
  - injection E2 as -> ->. exfalso. apply H2. apply in_map_iff. exists (k, j); auto.
Qed.
(** sums over all non-root nodes, grouped by parent *)
Lemma sum_by_parent (f : nat -> R) :
  Rsum (fun k => Rsum f (kids k)) (seq 0 n) = Rsum f (seq 0 (n - 1)).
Proof. rewrite <- Rsum_flat_map. apply Rsum_perm. apply (ts_tree _ _ T). Qed.
Lemma seq_split_at a m : (a <= m)%nat -> seq 0 m = seq 0 a ++ seq a (m - a).
Proof. intros H. replace m with (a + (m - a))%nat at 1 by lia. rewrite seq_app. auto. Qed.
Lemma telescope (f : nat -> R) :
  (forall k, (na <= k < n)%nat -> Rsum f (kids k) = f k) ->
  Rsum f (seq 0 na) = f (n - 1)%nat.
Proof.
  intros H1. assert (Hr := ts_root _ _ T). fold na n in Hr.
  assert (HS := sum_by_parent f).
  rewrite (seq_split_at na n), Rsum_app in HS by lia.
  rewrite (Rsum_zero _ (seq 0 na)) in HS.
  2:{ intros k Hk. apply in_seq in Hk. rewrite (ts_leaf _ _ T) by (unfold na in *; lia). auto. }
  rewrite (Rsum_ext _ f (seq na (n - na))) in HS.
  2:{ intros k Hk. apply in_seq in Hk. apply H1. lia. }
  rewrite (seq_split_at na (n - 1)), Rsum_app in HS by lia.
  replace (n - na)%nat with (S (n - 1 - na)) in HS by lia.
  rewrite seq_S, Rsum_app in HS. replace (na + (n - 1 - na))%nat with (n - 1)%nat in HS by lia.
  simpl in HS. lra.
Qed.
(** edges in reverse order: the upper end is final *)
Lemma rev_order a e b : rev (edges st) = a ++ e :: b -> fst e <> snd e /\ ~ In (fst e) (map snd b).
Proof.
  intros E. assert (E2 : edges st = rev b ++ e :: rev a).
  { rewrite <- (rev_involutive (edges st)), E, rev_app_distr. simpl. rewrite <- app_assoc. auto. }
  assert (He : In e (edges st)) by (rewrite E2; apply in_app_iff; simpl; auto).
  destruct e as [up dn]. simpl. apply in_edges_iff in He. destruct He as [Hup Hdn].
  destruct (kid_range st kids T up dn Hup Hdn) as [H1 _]. split; [lia|].
  intros Hin. apply in_map_iff in Hin. destruct Hin as [[up2 dn2] [Hs Hin]]. simpl in Hs. subst dn2.
  assert (Hin2 : In (up2, up) (edges st)) by (rewrite E2, in_app_iff, <- in_rev; auto).
  apply in_edges_iff in Hin2. destruct Hin2 as [Hup2 Hk2].
  destruct (kid_range st kids T up2 up Hup2 Hk2) as [H3 _].
  (* parents are non-decreasing along edges *)
  assert (Hs : forall l base, forall l1 x l2, flat_map (fun k => map (pair k) (kids k)) (seq base l) = l1 ++ x :: l2 ->
     forall y, In y l1 -> (fst y <= fst x)%nat).
  { clear. intros l. induction l as [|l IH]; intros base l1 x l2 E y Hy; simpl in E.
    - destruct l1; discriminate.
    - assert (Hge : forall z, In z (flat_map (fun k => map (pair k) (kids k)) (seq (S base) l)) -> (base <= fst z)%nat).
      { intros z Hz. apply in_flat_map in Hz. destruct Hz as [k [Hk Hz]]. apply in_seq in Hk.
        apply in_map_iff in Hz. destruct Hz as [j [<- _]]. simpl. lia. }
      revert l1 E Hy. induction (kids base) as [|c cs IHc]; simpl; intros l1 E Hy.
      + eapply IH; eauto.
      + destruct l1 as [|z l1]; [destruct Hy|]. simpl in E. injection E as Ez E.
        destruct Hy as [<-|Hy].
        * subst z. simpl. assert (Hx : In x (map (pair base) cs ++ flat_map (fun k => map (pair k) (kids k)) (seq (S base) l))).
          { rewrite E. apply in_app_iff. simpl; auto. }
          apply in_app_iff in Hx. destruct Hx as [Hx|Hx]; [|auto].
          apply in_map_iff in Hx. destruct Hx as [j [<- _]]. simpl. lia.
        * eapply IHc; eauto. }
  rewrite (ts_edges _ _ T) in E2.
  assert (Hle := Hs _ _ _ _ _ E2 (up2, up)). simpl in Hle. rewrite <- in_rev in Hle.
  specialize (Hle Hin). lia.
Qed.
End Tree.
