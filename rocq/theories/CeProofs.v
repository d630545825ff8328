(** Proofs about the row map, alignment and cracking. *)
From Coq Require Import Sorting.Sorted.
From Verif Require Import LabelModel LabelSpec LabelProofs CeModel CeSpec.
Open Scope Z_scope.

(** ** Sorting by case *)
Lemma sorted_le_increasing l : StronglySorted Z.le l <-> increasing l.
Proof.
  split.
  - induction 1 as [|y l Hs IH Hf]; intros i j Hij; cbn [length] in Hij; [ lia | ].
    destruct i as [|i], j as [|j]; [ lia | | lia | ]; cbn [nth].
    + rewrite Forall_forall in Hf. apply Hf, nth_In. lia.
    + apply IH. lia.
  - induction l as [|y l IH]; intros H; [ constructor | ]. constructor.
    + apply IH. intros i j Hij. apply (H (S i) (S j)). cbn. lia.
    + apply Forall_forall. intros z Hz. apply (In_nth _ _ 0) in Hz as (i & Hi & <-).
      apply (H 0%nat (S i)). cbn. lia.
Qed.
Lemma monotonic_sorted l : monotonic l = true <-> StronglySorted Z.le l.
Proof.
  induction l as [|a [|b l] IH]; [ split; [ constructor | easy ] | split; [ repeat constructor | easy ] | ].
  change (monotonic (a :: b :: l)) with ((a <=? b) && monotonic (b :: l)).
  rewrite andb_true_iff, IH, Z.leb_le. split.
  - intros [Hab Hs]. constructor; [ easy | ]. constructor; [ easy | ].
    inversion Hs as [|? ? ? Hf]; subst. eapply Forall_impl; [ | exact Hf ]. cbn; lia.
  - intros Hs. inversion Hs as [|? ? Hs' Hf]; subst. split; [ | easy ]. now inversion Hf.
Qed.
Lemma sorted_perm_eq l m : StronglySorted Z.le l -> StronglySorted Z.le m -> Permutation l m -> l = m.
Proof.
  intros Hl. revert m. induction Hl as [|x l Hl IH Hf]; intros m Hm Hp.
  - apply Permutation_nil in Hp. now subst.
  - destruct Hm as [|y m Hm Hg]; [ now apply Permutation_sym, Permutation_nil in Hp | ].
    assert (E : x = y).
    { rewrite Forall_forall in Hf, Hg.
      assert (Hy : In y (x :: l)) by (apply (Permutation_in _ (Permutation_sym Hp)); now left).
      assert (Hx : In x (y :: m)) by (apply (Permutation_in _ Hp); now left).
      destruct Hy as [ -> | Hy ]; [ easy | ]. destruct Hx as [ -> | Hx ]; [ easy | ].
      specialize (Hf y Hy). specialize (Hg x Hx). lia. }
    subst y. f_equal. apply IH; [ easy | ]. now apply Permutation_cons_inv in Hp.
Qed.
Lemma finsert_perm {A} (x : Z * A) f : Permutation (finsert x f) (x :: f).
Proof.
  induction f as [|y f IH]; cbn [finsert]; [ apply Permutation_refl | ].
  destruct (fst x <=? fst y); [ apply Permutation_refl | ].
  eapply perm_trans; [ apply perm_skip, IH | apply perm_swap ].
Qed.
Lemma sort_index_perm {A} (f : cframe A) : Permutation (sort_index f) f.
Proof.
  induction f as [|x f IH]; [ apply Permutation_refl | ]. cbn [sort_index fold_right].
  eapply perm_trans; [ apply finsert_perm | apply perm_skip, IH ].
Qed.
Lemma finsert_sorted {A} (x : Z * A) f : StronglySorted Z.le (ids f) -> StronglySorted Z.le (ids (finsert x f)).
Proof.
  unfold ids. induction f as [|y f IH]; intros Hs; cbn [finsert map]; [ repeat constructor | ].
  destruct (Z.leb_spec (fst x) (fst y)) as [H|H].
  - cbn [map]. constructor; [ easy | ]. cbn [map] in Hs. inversion Hs as [|? ? Hs' Hf]; subst.
    constructor; [ easy | ]. eapply Forall_impl; [ | exact Hf ]. cbn; lia.
  - cbn [map] in *. inversion Hs as [|? ? Hs' Hf]; subst. constructor; [ now apply IH | ].
    apply Forall_forall. intros z Hz.
    assert (Hz' : In z (fst x :: map fst f)).
    { apply (Permutation_in _ (Permutation_map fst (finsert_perm x f))). exact Hz. }
    destruct Hz' as [ <- | Hz' ]; [ lia | ]. rewrite Forall_forall in Hf. now apply Hf.
Qed.
Lemma sort_index_sorted {A} (f : cframe A) : StronglySorted Z.le (ids (sort_index f)).
Proof. induction f; [ constructor | now apply finsert_sorted ]. Qed.
Lemma set_sorted_sorted {A} (f : cframe A) : StronglySorted Z.le (ids (set_sorted f)).
Proof.
  unfold set_sorted. destruct (monotonic (ids f)) eqn:E; [ now apply monotonic_sorted | apply sort_index_sorted ].
Qed.
Lemma set_sorted_perm {A} (f : cframe A) : Permutation (set_sorted f) f.
Proof. unfold set_sorted. destruct (monotonic (ids f)); [ apply Permutation_refl | apply sort_index_perm ]. Qed.
Lemma set_sorted_ids {A B} (f : cframe A) (g : cframe B) : Permutation (ids f) (ids g) ->
  ids (set_sorted f) = ids (set_sorted g).
Proof.
  intros H. apply sorted_perm_eq; [ apply set_sorted_sorted | apply set_sorted_sorted | ].
  eapply perm_trans; [ apply (Permutation_map fst), set_sorted_perm | ].
  eapply perm_trans; [ exact H | ]. apply Permutation_sym. apply (Permutation_map fst), set_sorted_perm.
Qed.

(** ** The row map *)
Lemma combine_snoc {A B} (l : list A) (m : list B) x y : length l = length m ->
  combine (l ++ [x]) (m ++ [y]) = combine l m ++ [(x, y)].
Proof.
  revert m. induction l as [|a l IH]; intros [|b m] E; cbn in *; try easy. f_equal. apply IH. lia.
Qed.
Lemma put_fold (L : list (nat * nat)) c a i :
  fold_left put (combine (seq 0 (length L)) L) (fun _ _ => None) c a = Some i <->
  (nth_error L i = Some (c, a) /\ forall j, (i < j)%nat -> nth_error L j <> Some (c, a)).
Proof.
  revert i. induction L as [|[c' a'] L IH] using rev_ind; intros i.
  - cbn. split; [ discriminate | ]. intros [H _]. now destruct i.
  - rewrite app_length. cbn [length]. rewrite Nat.add_1_r, seq_S. rewrite combine_snoc by (now rewrite seq_length).
    rewrite fold_left_app. cbn [fold_left Nat.add]. unfold put at 1. cbn [fst snd].
    destruct (Nat.eqb c c' && Nat.eqb a a') eqn:E.
    + apply andb_true_iff in E as [E1 E2]. apply Nat.eqb_eq in E1, E2. subst c' a'. split.
      * intros H. injection H as <-. split; [ rewrite nth_error_app2, Nat.sub_diag by lia; easy | ].
        intros j Hj. rewrite (proj2 (nth_error_None (L ++ [(c, a)]) j)); [ easy | ]. rewrite app_length. cbn. lia.
      * intros [H1 H2]. assert (Hi : (i < length (L ++ [(c, a)]))%nat) by (apply nth_error_Some; congruence).
        rewrite app_length in Hi. cbn in Hi.
        destruct (Nat.eq_dec i (length L)) as [ -> |Hne ]; [ easy | ].
        exfalso. apply (H2 (length L)); [ lia | ]. rewrite nth_error_app2, Nat.sub_diag by lia. easy.
    + rewrite IH. assert (Hne : (c', a') <> (c, a)).
      { intros H. injection H as <- <-. now rewrite !Nat.eqb_refl in E. }
      split; intros [H1 H2].
      * assert (Hi : (i < length L)%nat) by (apply nth_error_Some; congruence).
        split; [ now rewrite nth_error_app1 | ]. intros j Hj.
        destruct (Nat.lt_ge_cases j (length L)) as [Hl|Hl]; [ rewrite nth_error_app1 by easy; now apply H2 | ].
        rewrite nth_error_app2 by easy. destruct (j - length L)%nat as [|k]; [ cbn; congruence | ]. destruct k; discriminate.
      * assert (Hi : (i < length L)%nat).
        { destruct (Nat.lt_ge_cases i (length L)) as [|Hge]; [ easy | ]. exfalso.
          rewrite nth_error_app2 in H1 by easy. destruct (i - length L)%nat as [|k]; [ cbn in H1; congruence | destruct k; discriminate ]. }
        rewrite nth_error_app1 in H1 by easy. split; [ easy | ]. intros j Hj.
        destruct (Nat.lt_ge_cases j (length L)) as [Hl|Hl]; [ | now rewrite (proj2 (nth_error_None L j)) ].
        specialize (H2 j Hj). now rewrite nth_error_app1 in H2 by easy.
Qed.
Lemma pairs_nth ix i c a :
  nth_error (combine (caseindexes ix) (altindexes ix)) i = Some (c, a) <-> row_is ix i c a.
Proof.
  unfold row_is, caseindexes, altindexes. set (cs := cases_of ix).
  assert (Hcs : forall k, (k < length ix)%nat -> In (fst (nth k ix (0, 0%nat))) cs).
  { intros k Hk. unfold cs, cases_of. apply lunique_in, in_map, nth_In, Hk. }
  assert (E : forall (cs : list Z) (l : list (Z * nat)), combine (map (fun r : Z * nat => digitize cs (fst r)) l) (map snd l) = map (fun r => (digitize cs (fst r), snd r)) l).
  { clear. intros cs l. induction l as [|r l IH]; [ easy | ]. cbn. now rewrite IH. }
  rewrite (E cs ix).
  assert (Hs : StronglySorted Z.lt cs) by apply unique_sorted.
  destruct (Nat.lt_ge_cases i (length ix)) as [Hi|Hi].
  - rewrite (nth_error_nth' _ (digitize cs (fst (0, 0%nat)), snd (0, 0%nat))) by (now rewrite map_length).
    rewrite (map_nth (fun r => (digitize cs (fst r), snd r)) ix (0, 0%nat) i).
    destruct (digitize_found cs _ Hs (Hcs i Hi)) as [H1 H2]. split.
    + intros H. injection H as <- <-. repeat split; [ easy | easy | now rewrite H2 ].
    + intros (_ & Hc & H3 & <-). f_equal. f_equal. rewrite H3. now apply digitize_nth.
  - rewrite (proj2 (nth_error_None _ i)) by (now rewrite map_length). split; [ discriminate | ]. intros [H _]. lia.
Qed.
Lemma pairs_length ix : length (combine (caseindexes ix) (altindexes ix)) = length ix.
Proof. unfold caseindexes, altindexes. rewrite combine_length, !map_length. lia. Qed.
Lemma reversemap_some ix c a i : reversemap ix c a = Some i <->
  (row_is ix i c a /\ forall j, (i < j)%nat -> ~ row_is ix j c a).
Proof.
  unfold reversemap. pose proof (put_fold (combine (caseindexes ix) (altindexes ix)) c a i) as H.
  rewrite pairs_length in H. rewrite H. rewrite pairs_nth. split; intros [H1 H2]; (split; [ easy | ]); intros j Hj.
  - rewrite <- pairs_nth. now apply H2.
  - rewrite pairs_nth. now apply H2.
Qed.
Lemma row_is_dec ix i c a : {row_is ix i c a} + {~ row_is ix i c a}.
Proof.
  destruct (nth_error (combine (caseindexes ix) (altindexes ix)) i) as [[c' a']|] eqn:E.
  - destruct (Nat.eq_dec c' c) as [ -> |H ]; [ destruct (Nat.eq_dec a' a) as [ -> |H ] | ].
    + left. now apply pairs_nth.
    + right. rewrite <- pairs_nth, E. congruence.
    + right. rewrite <- pairs_nth, E. congruence.
  - right. rewrite <- pairs_nth, E. discriminate.
Qed.
Lemma last_row ix c a i : row_is ix i c a -> exists k, row_is ix k c a /\ forall j, (k < j)%nat -> ~ row_is ix j c a.
Proof.
  intros Hi. assert (G : forall m, (forall j, (m <= j)%nat -> ~ row_is ix j c a) -> exists k, row_is ix k c a /\ forall j, (k < j)%nat -> ~ row_is ix j c a).
  { induction m as [|m IH]; intros H; [ exfalso; apply (H i); [ lia | easy ] | ].
    destruct (row_is_dec ix m c a) as [Hm|Hm].
    - exists m. split; [ easy | ]. intros j Hj. apply H. lia.
    - apply IH. intros j Hj. destruct (Nat.eq_dec j m) as [ -> |Hne ]; [ easy | ]. apply H. lia. }
  apply (G (length ix)). intros j Hj [H _]. lia.
Qed.
Lemma reversemap_none ix c a : reversemap ix c a = None <-> forall i, ~ row_is ix i c a.
Proof.
  split.
  - intros H i Hi. destruct (last_row ix c a i Hi) as (k & Hk). apply reversemap_some in Hk. congruence.
  - intros H. destruct (reversemap ix c a) as [i|] eqn:E; [ | easy ]. apply reversemap_some in E as [E _]. now apply H in E.
Qed.
Lemma row_is_fun ix i c a c' a' : row_is ix i c a -> row_is ix i c' a' -> c = c' /\ a = a'.
Proof. rewrite <- !pairs_nth. intros -> H. now injection H as <- <-. Qed.
Lemma row_of ix i : (i < length ix)%nat -> exists c a, row_is ix i c a.
Proof.
  intros Hi. destruct (nth_error (combine (caseindexes ix) (altindexes ix)) i) as [[c a]|] eqn:E.
  - exists c, a. now apply pairs_nth.
  - apply nth_error_None in E. rewrite pairs_length in E. lia.
Qed.
Lemma nodup_rows ix i j c a : NoDup ix -> row_is ix i c a -> row_is ix j c a -> i = j.
Proof.
  intros Hn (Hi & _ & H1 & H2) (Hj & _ & H3 & H4).
  apply (proj1 (NoDup_nth ix (0, 0%nat)) Hn); [ easy | easy | ].
  destruct (nth i ix (0, 0%nat)), (nth j ix (0, 0%nat)). cbn in *. congruence.
Qed.
Lemma reversemap_nodup ix c a i : NoDup ix -> (reversemap ix c a = Some i <-> row_is ix i c a).
Proof.
  intros Hn. rewrite reversemap_some. split; [ tauto | ]. intros H. split; [ easy | ].
  intros j Hj Hr. rewrite (nodup_rows ix i j c a Hn H Hr) in Hj. lia.
Qed.
Lemma row_in_shape ix i c a : row_is ix i c a -> (c < rm_cases ix)%nat /\ (a < rm_alts ix)%nat.
Proof.
  intros H. apply pairs_nth, nth_error_In in H. unfold rm_cases, rm_alts.
  pose proof (in_combine_l _ _ _ _ H) as H1. pose proof (in_combine_r _ _ _ _ H) as H2.
  apply maxn_ge in H1, H2. lia.
Qed.

(** ** Spreading an array over the rows *)
Lemma set_nth_length {A} (l : list A) i v : length (set_nth l i v) = length l.
Proof.
  unfold set_nth. destruct (Nat.ltb_spec i (length l)); [ | easy ].
  rewrite app_length. cbn [length]. rewrite firstn_length, skipn_length. lia.
Qed.
Lemma set_nth_nth {A} (l : list A) i v j d : (i < length l)%nat ->
  nth j (set_nth l i v) d = if Nat.eqb j i then v else nth j l d.
Proof.
  intros Hi. unfold set_nth. rewrite (proj2 (Nat.ltb_lt i (length l)) Hi). revert i j Hi.
  induction l as [|x l IH]; intros i j Hi; cbn [length] in Hi; [ lia | ].
  destruct i as [|i]; [ destruct j; reflexivity | ]. change (skipn (S (S i)) (x :: l)) with (skipn (S i) l).
  cbn [firstn app]. destruct j as [|j]; [ reflexivity | ]. cbn [nth]. rewrite IH by lia. reflexivity.
Qed.
Lemma spread_length {A} m (arr : nat -> nat -> A) L out : length (fold_left (spread m arr) L out) = length out.
Proof.
  revert out. induction L as [|x L IH]; intros out; [ easy | ]. cbn [fold_left]. rewrite IH. unfold spread.
  destruct (m (fst x) (snd x)); [ apply set_nth_length | easy ].
Qed.
Lemma spread_hit {A} m (arr : nat -> nat -> A) L out i c a d : (i < length out)%nat -> m c a = Some i ->
  (forall c' a', m c' a' = Some i -> c' = c /\ a' = a) -> In (c, a) L ->
  nth i (fold_left (spread m arr) L out) d = arr c a.
Proof.
  intros Hi Hm Hu. induction L as [|[c' a'] L IH] using rev_ind; intros Hin; [ easy | ].
  rewrite fold_left_app. cbn [fold_left]. unfold spread at 1. cbn [fst snd].
  destruct (m c' a') as [row|] eqn:E.
  - destruct (Nat.eq_dec row i) as [ -> |Hne ].
    + apply Hu in E as [ -> -> ]. rewrite set_nth_nth by (now rewrite spread_length). now rewrite Nat.eqb_refl.
    + assert (Hin' : In (c, a) L).
      { apply in_app_or in Hin as [Hin|[Hin|[]]]; [ easy | ]. injection Hin as -> ->. congruence. }
      specialize (IH Hin'). unfold set_nth. destruct (Nat.ltb_spec row (length (fold_left (spread m arr) L out))); [ | easy ].
      change (nth i (firstn row (fold_left (spread m arr) L out) ++ arr c' a' :: skipn (S row) (fold_left (spread m arr) L out)) d = arr c a).
      pose proof (set_nth_nth (fold_left (spread m arr) L out) row (arr c' a') i d H) as Hx.
      unfold set_nth in Hx. rewrite (proj2 (Nat.ltb_lt _ _) H) in Hx. rewrite Hx.
      destruct (Nat.eqb_spec i row); [ congruence | easy ].
  - apply IH. apply in_app_or in Hin as [Hin|[Hin|[]]]; [ easy | ]. injection Hin as -> ->. congruence.
Qed.
Lemma spread_miss {A} m (arr : nat -> nat -> A) L out i d : (forall c a, In (c, a) L -> m c a <> Some i) ->
  nth i (fold_left (spread m arr) L out) d = nth i out d.
Proof.
  revert out. induction L as [|[c a] L IH]; intros out H; [ easy | ]. cbn [fold_left].
  rewrite IH by (intros c' a' Hi; apply H; now right). unfold spread. cbn [fst snd].
  destruct (m c a) as [row|] eqn:E; [ | easy ].
  unfold set_nth. destruct (Nat.ltb_spec row (length out)) as [Hl|Hl]; [ | easy ].
  pose proof (set_nth_nth out row (arr c a) i d Hl) as Hx. unfold set_nth in Hx. rewrite (proj2 (Nat.ltb_lt _ _) Hl) in Hx. rewrite Hx.
  destruct (Nat.eqb_spec i row) as [ -> |]; [ | easy ]. exfalso. now apply (H c a (or_introl eq_refl)).
Qed.
Lemma cells_in n m c a : In (c, a) (cells n m) <-> (c < n)%nat /\ (a < m)%nat.
Proof. unfold cells. rewrite in_prod_iff, !in_seq. lia. Qed.
Lemma spread_value {A} ix (arr : nat -> nat -> A) n m zero i c a : row_is ix i c a -> (c < n)%nat -> (a < m)%nat ->
  nth i (fold_left (spread (reversemap ix) arr) (cells n m) (repeat zero (length ix))) zero =
  if existsb (fun j => if row_is_dec ix j c a then Nat.ltb i j else false) (seq 0 (length ix)) then zero else arr c a.
Proof.
  intros H Hc Ha. pose proof H as (Hi & _).
  destruct (existsb _ _) eqn:E.
  - apply existsb_exists in E as (j & _ & Hj). destruct (row_is_dec ix j c a) as [Hr|]; [ | discriminate ].
    apply Nat.ltb_lt in Hj. rewrite spread_miss.
    + apply nth_repeat.
    + intros c' a' _ Hm. apply reversemap_some in Hm as [Hm1 Hm2]. destruct (row_is_fun _ _ _ _ _ _ H Hm1) as [ <- <- ].
      now apply (Hm2 j).
  - apply spread_hit; [ now rewrite repeat_length | | | now apply cells_in ].
    + apply reversemap_some. split; [ easy | ]. intros j Hj Hr.
      assert (Ht : existsb (fun j => if row_is_dec ix j c a then Nat.ltb i j else false) (seq 0 (length ix)) = true).
      { apply existsb_exists. exists j. split; [ apply in_seq; destruct Hr; lia | ].
        destruct (row_is_dec ix j c a); [ now apply Nat.ltb_lt | easy ]. }
      congruence.
    + intros c' a' Hm. apply reversemap_some in Hm as [Hm1 _]. destruct (row_is_fun _ _ _ _ _ _ H Hm1). auto.
Qed.
Lemma spread_nodup {A} ix (arr : nat -> nat -> A) n m zero i c a : NoDup ix -> row_is ix i c a -> (c < n)%nat -> (a < m)%nat ->
  nth i (fold_left (spread (reversemap ix) arr) (cells n m) (repeat zero (length ix))) zero = arr c a.
Proof.
  intros Hn H Hc Ha. rewrite (spread_value ix arr n m zero i c a H Hc Ha).
  destruct (existsb _ _) eqn:E; [ | easy ]. apply existsb_exists in E as (j & _ & Hj).
  destruct (row_is_dec ix j c a) as [Hr|]; [ | discriminate ]. apply Nat.ltb_lt in Hj.
  rewrite (nodup_rows ix i j c a Hn H Hr) in Hj. lia.
Qed.

(** ** idce to idca *)
Lemma eq_key_iff x y : eq_key x y = true <-> x = y.
Proof.
  unfold eq_key. rewrite andb_true_iff, Z.eqb_eq, Nat.eqb_eq. destruct x, y; cbn. split; [ intros [ -> -> ]; easy | intros H; now injection H ].
Qed.
Lemma has_dup_nodup ix : has_dup ix = false <-> NoDup ix.
Proof.
  induction ix as [|k r IH]; cbn [has_dup]; [ split; [ constructor | easy ] | ].
  rewrite orb_false_iff, IH. split.
  - intros [H1 H2]. constructor; [ | easy ]. intros Hin.
    assert (existsb (eq_key k) r = true) by (apply existsb_exists; exists k; split; [ easy | now apply eq_key_iff ]). congruence.
  - intros H. inversion H as [|? ? H1 H2]; subst. split; [ | easy ].
    destruct (existsb (eq_key k) r) eqn:E; [ | easy ]. apply existsb_exists in E as (x & Hx & E). apply eq_key_iff in E. subst. contradiction.
Qed.
Lemma find_row_some {A} (rows : list ((Z * nat) * A)) k v : NoDup (map fst rows) ->
  (find_row rows k = Some v <-> In (k, v) rows).
Proof.
  induction rows as [|[k' v'] r IH]; intros Hn; [ cbn; split; easy | ]. cbn [find_row map fst] in *.
  inversion Hn as [|? ? Hk Hr]; subst. destruct (eq_key k' k) eqn:E.
  - apply eq_key_iff in E. subst k'. split.
    + intros H. injection H as ->. now left.
    + intros [H|H]; [ now injection H as -> | ]. exfalso. apply Hk. now apply (in_map fst) in H.
  - rewrite (IH Hr). cbn [In]. split; [ auto | ]. intros [H|H]; [ | easy ]. injection H as -> ->.
    rewrite (proj2 (eq_key_iff k k) eq_refl) in E. discriminate.
Qed.
Lemma find_row_none {A} (rows : list ((Z * nat) * A)) k : find_row rows k = None <-> ~ In k (map fst rows).
Proof.
  induction rows as [|[k' v'] r IH]; [ cbn; tauto | ]. cbn [find_row map fst In]. destruct (eq_key k' k) eqn:E.
  - apply eq_key_iff in E. split; [ discriminate | ]. intros H. exfalso. apply H. now left.
  - rewrite IH. split; [ | tauto ]. intros H [H1|H1]; [ | now apply H ]. subst.
    rewrite (proj2 (eq_key_iff k k) eq_refl) in E. discriminate.
Qed.
Lemma alts_in ix a : In a (alts_of ix) <-> exists c, In (c, a) ix.
Proof.
  unfold alts_of. rewrite in_map_iff. split.
  - intros (z & <- & Hz). rewrite lunique_in, in_map_iff in Hz; destruct Hz as ([c b] & <- & Hin). cbn. rewrite Nat2Z.id. eauto.
  - intros (c & Hin). exists (Z.of_nat a). split; [ apply Nat2Z.id | ]. apply lunique_in, in_map_iff. exists (c, a). auto.
Qed.
Lemma cases_in ix c : In c (cases_of ix) <-> exists a, In (c, a) ix.
Proof.
  unfold cases_of. rewrite lunique_in, in_map_iff. split.
  - intros ([c' a] & <- & Hin). eauto.
  - intros (a & Hin). exists (c, a). auto.
Qed.

(** ** Cracking *)
Lemma vals_in j rows v : In v (vals j rows) <-> exists r, In r rows /\ colval j r = Some v.
Proof.
  unfold vals. rewrite in_flat_map. split.
  - intros (r & Hr & Hv). exists r. split; [ easy | ]. destruct (colval j r); [ | easy ]. destruct Hv as [ -> |[] ]. easy.
  - intros (r & Hr & E). exists r. split; [ easy | ]. rewrite E. now left.
Qed.
Lemma varies_false l : varies l = false -> forall v w, In v l -> In w l -> v = w.
Proof.
  destruct l as [|x l]; cbn; intros H v w Hv Hw; [ easy | ].
  assert (G : forall z, In z l -> z = x).
  { intros z Hz. destruct (Z.eqb_spec z x); [ easy | ].
    assert (Ht : existsb (fun w => negb (w =? x)) l = true).
    { apply existsb_exists. exists z. split; [ easy | ]. now rewrite (proj2 (Z.eqb_neq z x)). }
    congruence. }
  destruct Hv as [ -> |Hv ], Hw as [ -> |Hw ]; try easy; [ symmetry; now apply G | now apply G | rewrite (G v Hv); now rewrite (G w Hw) ].
Qed.
Lemma varies_true l : varies l = true -> exists v w, In v l /\ In w l /\ v <> w.
Proof.
  destruct l as [|x l]; cbn; [ discriminate | ]. intros H. apply existsb_exists in H as (w & Hw & E).
  exists w, x. split; [ now right | ]. split; [ now left | ]. intros ->. now rewrite Z.eqb_refl in E.
Qed.
Lemma group_in c rows r : In r (group c rows) <-> In r rows /\ fst r = c.
Proof. unfold group. rewrite filter_In, Z.eqb_eq. tauto. Qed.
Lemma first_value rows j r v : is_ca rows j = false -> In r rows -> colval j r = Some v ->
  hd_error (vals j (group (fst r) rows)) = Some v.
Proof.
  intros H Hr Hv. assert (Hin : In v (vals j (group (fst r) rows))) by (apply vals_in; exists r; split; [ now apply group_in | easy ]).
  assert (Hf : varies (vals j (group (fst r) rows)) = false).
  { destruct (varies (vals j (group (fst r) rows))) eqn:E; [ | easy ].
    assert (Ht : is_ca rows j = true).
    { apply existsb_exists. exists (fst r). split; [ apply lunique_in; now apply in_map | easy ]. }
    congruence. }
  destruct (vals j (group (fst r) rows)) as [|x l] eqn:E; [ easy | ]. cbn. f_equal.
  apply (varies_false _ Hf); [ now left | easy ].
Qed.
