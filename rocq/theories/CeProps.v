(** C48: sparse row lookup; C58: alignment of the case-indexed parts; C59: cracking idca data. *)
From Coq Require Import Sorting.Sorted.
From Verif Require Import LabelProofs BitsCodes CeModel CeSpec CeProofs.
Open Scope Z_scope.

(** ** C48 *)
(** The map has an entry exactly for the pairs that are in the data, and the entry is a row of that pair (the
    last one). *)
Theorem C48_lookup ix c a :
  (forall i, reversemap ix c a = Some i -> row_is ix i c a /\ forall j, row_is ix j c a -> (j <= i)%nat) /\
  (reversemap ix c a = None <-> forall i, ~ row_is ix i c a).
Proof.
  split; [ | apply reversemap_none ]. intros i H. apply reversemap_some in H as [H1 H2]. split; [ easy | ].
  intros j Hj. destruct (Nat.le_gt_cases j i); [ easy | ]. exfalso. now apply (H2 j).
Qed.
(** When no pair is repeated, the map is the inverse of the index. *)
Theorem C48_lookup_exact ix c a i : NoDup ix -> (reversemap ix c a = Some i <-> row_is ix i c a).
Proof. apply reversemap_nodup. Qed.
(** Every row is a row of some pair, inside the map. *)
Theorem C48_every_row ix i : (i < length ix)%nat ->
  exists c a, row_is ix i c a /\ (c < rm_cases ix)%nat /\ (a < rm_alts ix)%nat.
Proof. intros Hi. destruct (row_of ix i Hi) as (c & a & H). exists c, a. split; [ easy | now apply (row_in_shape ix i) ]. Qed.
Definition ex_ix : ceindex := [(7, 1%nat); (3, 0%nat); (3, 2%nat); (7, 0%nat)].
Example C48_met : NoDup ex_ix /\ row_is ex_ix 0 1 1 /\ reversemap ex_ix 1%nat 1%nat = Some 0%nat /\ reversemap ex_ix 0%nat 2%nat = Some 2%nat /\
  reversemap ex_ix 1%nat 2%nat = None.
Proof.
  split; [ | split; [ unfold row_is; cbn; repeat split; lia | repeat split; reflexivity ] ].
  repeat constructor; cbn; intuition congruence.
Qed.
(** Choices, availability and weights written in idce format: one value per row, each that of the row's own
    case and alternative. *)
Theorem C48_own_row_partial {A} ix (zero : A) arr i c a : NoDup ix -> row_is ix i c a ->
  length (as_ce ix zero arr) = length ix /\ nth i (as_ce ix zero arr) zero = arr c a.
Proof.
  intros Hn H. split; [ unfold as_ce; now rewrite spread_length, repeat_length | ].
  destruct (row_in_shape ix i c a H). now apply (spread_nodup ix arr).
Qed.
Theorem C48_array_own_row_partial {A} ix n_cases n_alts (zero : A) arr out i c a : NoDup ix -> row_is ix i c a ->
  (c < n_cases)%nat -> (a < n_alts)%nat -> array_to_ce ix n_cases n_alts zero arr = Some out ->
  length out = length ix /\ nth i out zero = arr c a.
Proof.
  intros Hn H Hc Ha. unfold array_to_ce. destruct (Nat.leb n_cases (rm_cases ix) && Nat.leb n_alts (rm_alts ix)); [ | discriminate ].
  intros E. injection E as <-. split; [ now rewrite spread_length, repeat_length | now apply spread_nodup ].
Qed.
Example C48_own_row_met : as_ce ex_ix 0 (fun c a => Z.of_nat (10 * c + a)) = [11; 0; 2; 10].
Proof. reflexivity. Qed.
Example C48_array_met : array_to_ce ex_ix 2 3 0 (fun c a => Z.of_nat (10 * c + a)) = Some [11; 0; 2; 10].
Proof. reflexivity. Qed.
(** When a pair is repeated, only its last row gets the value: the others stay zero. *)
Theorem C48_repeated_pair_refuted {A} ix (zero : A) arr i j c a : row_is ix i c a -> row_is ix j c a -> (i < j)%nat ->
  nth i (as_ce ix zero arr) zero = zero.
Proof.
  intros Hi Hj Hij. destruct (row_in_shape ix i c a Hi) as [Hc Ha]. unfold as_ce.
  rewrite (spread_value ix arr _ _ zero i c a Hi Hc Ha).
  assert (E : existsb (fun j => if row_is_dec ix j c a then Nat.ltb i j else false) (seq 0 (length ix)) = true).
  { apply existsb_exists. exists j. split; [ apply in_seq; destruct Hj; lia | ].
    destruct (row_is_dec ix j c a); [ now apply Nat.ltb_lt | easy ]. }
  now rewrite E.
Qed.
Example C48_repeated_pair_met : as_ce [(3, 0%nat); (3, 0%nat)] 0 (fun _ _ => 5) = [0; 5].
Proof. reflexivity. Qed.
(** An alternative that comes after every alternative in the rows makes array_to_ce raise. *)
Theorem C48_unused_alternative_raises_refuted {A} ix n_cases n_alts (zero : A) arr :
  (exists a, (a < n_alts)%nat /\ forall r, In r ix -> (snd r < a)%nat) -> ix <> [] ->
  array_to_ce ix n_cases n_alts zero arr = None.
Proof.
  intros (a & Ha & H) Hne. unfold array_to_ce. assert (Hl : (rm_alts ix < n_alts)%nat).
  { unfold rm_alts, altindexes. assert (G : forall l : list (Z * nat), l <> [] -> (forall r, In r l -> (snd r < a)%nat) -> (maxn (map snd l) < a)%nat).
    { clear. intros l Hl H. assert (Hx : In (maxn (map (@snd Z nat) l)) (map snd l)).
      { apply maxn_in. intros E. now apply map_eq_nil in E. }
      apply in_map_iff in Hx as (r & <- & Hr). now apply H. }
    specialize (G ix Hne H). lia. }
  rewrite (proj2 (Nat.leb_gt n_alts (rm_alts ix)) Hl). now rewrite andb_false_r.
Qed.
Example C48_unused_alternative_met : array_to_ce ex_ix 2 4 0 (fun _ _ => 1) = None.
Proof. reflexivity. Qed.
(** data_co_as_ce only works for one variable. *)
Theorem C48_co_as_ce_refuted {A} ix n_vars (zero : A) arr : n_vars <> 1%nat -> data_co_as_ce ix n_vars zero arr = None.
Proof. intros H. unfold data_co_as_ce. now rewrite (proj2 (Nat.eqb_neq n_vars 1) H). Qed.
(** Cases are counted among those that have rows: when a case has none, the values of later cases land on the
    rows of other cases.  Here the case data are for cases 1, 2, 3, and case 2 has no row: case 3's row gets the
    value of case 2. *)
Theorem C48_missing_case_shifts_refuted :
  exists (ix : ceindex) (co : list (Z * Z)), NoDup ix /\ (forall r, In r ix -> In (fst r) (map fst co)) /\
    as_ce ix 0 (fun c _ => snd (nth c co (0, 0))) <> map (fun r => match find (fun p => fst p =? fst r) co with Some p => snd p | None => 0 end) ix.
Proof.
  exists [(1, 0%nat); (3, 0%nat)], [(1, 10); (2, 20); (3, 30)]. split; [ | split ].
  - repeat constructor; cbn; intuition congruence.
  - cbn. intuition (subst; auto).
  - cbv. discriminate.
Qed.
(** When every case of the data has rows, each row gets the value of its own case. *)
Theorem C48_every_case_present_partial {A} ix (co : list (Z * A)) zero i : NoDup ix -> map fst co = cases_of ix ->
  (i < length ix)%nat ->
  In (fst (nth i ix (0, 0%nat)), nth i (as_ce ix zero (fun c _ => snd (nth c co (0, zero)))) zero) co.
Proof.
  intros Hn E Hi. destruct (row_of ix i Hi) as (c & a & H).
  destruct (C48_own_row_partial ix zero (fun c _ => snd (nth c co (0, zero))) i c a Hn H) as [_ ->].
  destruct H as (_ & Hc & -> & _). rewrite <- E in Hc |- *. rewrite map_length in Hc.
  change 0 with (fst (0, zero)). rewrite map_nth. rewrite <- surjective_pairing. apply nth_In, Hc.
Qed.
Example C48_every_case_present_met : map fst [(3, 30); (7, 70)] = cases_of ex_ix /\
  as_ce ex_ix 0 (fun c _ => snd (nth c [(3, 30); (7, 70)] (0, 0))) = [70; 30; 30; 70].
Proof. split; reflexivity. Qed.
(** Without availability data, an alternative is available in a case iff the pair has a row. *)
Theorem C48_availability_from_rows ix c a : av_from_ce ix c a = true <-> exists i, row_is ix i c a.
Proof.
  unfold av_from_ce. destruct (reversemap ix c a) as [i|] eqn:E.
  - apply reversemap_some in E as [E _]. split; [ eauto | easy ].
  - split; [ discriminate | ]. intros [i Hi]. exfalso. now apply (proj1 (reversemap_none ix c a) E i).
Qed.
(** data_ce_as_ca: the rows of the data unchanged, zeros for the absent pairs of the cases and alternatives
    that appear, each pair once. *)
Theorem C48_ce_as_ca {A} (zero : A) rows out : data_ce_as_ca zero rows = Some out ->
  (forall k v, In (k, v) rows -> In (k, v) out) /\
  (forall c a v, In ((c, a), v) out -> In ((c, a), v) rows \/ (~ In (c, a) (map fst rows) /\ v = zero)) /\
  (forall c a, (exists v, In ((c, a), v) out) <-> (exists b, In (c, b) (map fst rows)) /\ (exists d, In (d, a) (map fst rows))) /\
  (length out = length (cases_of (map fst rows)) * length (alts_of (map fst rows)))%nat.
Proof.
  unfold data_ce_as_ca. destruct (has_dup (map fst rows)) eqn:Hd; [ discriminate | ]. intros E. injection E as <-.
  apply has_dup_nodup in Hd. split; [ | split; [ | split ] ].
  - intros [c a] v H. apply in_map_iff. exists (c, a). split.
    + now rewrite (proj2 (find_row_some rows (c, a) v Hd) H).
    + apply (in_map fst) in H. cbn [fst] in H. apply in_prod_iff. split; [ apply cases_in | apply alts_in ]; eauto.
  - intros c a v H. apply in_map_iff in H as ([c' a'] & E & _). injection E as -> -> <-.
    destruct (find_row rows (c, a)) as [w|] eqn:E.
    + left. now apply find_row_some.
    + right. split; [ now apply find_row_none | easy ].
  - intros c a. split.
    + intros (v & H). apply in_map_iff in H as ([c' a'] & E & H). injection E as -> -> _.
      apply in_prod_iff in H as [H1 H2]. now rewrite cases_in in H1; rewrite alts_in in H2.
    + intros [H1 H2]. eexists. apply in_map_iff. exists (c, a). split; [ reflexivity | ].
      apply in_prod_iff. split; [ now apply cases_in | now apply alts_in ].
  - now rewrite map_length, prod_length.
Qed.
Example C48_ce_as_ca_met : data_ce_as_ca 0 [((7, 1%nat), 71); ((3, 0%nat), 30); ((3, 2%nat), 32)] =
  Some [((3, 0%nat), 30); ((3, 1%nat), 0); ((3, 2%nat), 32); ((7, 0%nat), 0); ((7, 1%nat), 71); ((7, 2%nat), 0)].
Proof. reflexivity. Qed.

(** ** C58 *)
(** However the rows are ordered, setting case data, choices and availability keeps every row and puts the
    three in the same order, the cases in increasing order. *)
Theorem C58_aligned_partial {A B C D} (co : cframe A) (ch : cframe B) (av : cframe C) (wt_of : A -> D) d :
  Permutation (ids ch) (ids co) -> Permutation (ids av) (ids co) -> init co ch av wt_of = d ->
  Permutation (data_co d) co /\ Permutation (data_ch d) ch /\ Permutation (data_av d) av /\
  increasing (ids (data_co d)) /\ ids (data_ch d) = ids (data_co d) /\ ids (data_av d) = ids (data_co d).
Proof.
  intros H1 H2 <-. cbn. repeat split; try apply set_sorted_perm; try now apply set_sorted_ids.
  apply sorted_le_increasing, set_sorted_sorted.
Qed.
(** Weights named as a column of the case data are aligned with them when the case ids are in increasing
    order, ... *)
Theorem C58_weights_aligned_partial {A B C D} (co : cframe A) (ch : cframe B) (av : cframe C) (wt_of : A -> D) :
  increasing (ids co) -> let d := init co ch av wt_of in
  data_co d = co /\ data_wt d = map (fun r => (fst r, wt_of (snd r))) (data_co d).
Proof.
  intros H. cbn. assert (E : set_sorted co = co).
  { unfold set_sorted. now rewrite (proj2 (monotonic_sorted (ids co)) (proj2 (sorted_le_increasing _) H)). }
  now rewrite E.
Qed.
Example C58_met : let co := [(3, 30); (1, 10); (2, 20)] in let ch := [(2, true); (1, false); (3, true)] in
  Permutation (ids ch) (ids co) /\
  init co ch ch (fun x => x) = mkData [(1, 10); (2, 20); (3, 30)] [(1, false); (2, true); (3, true)] [(1, false); (2, true); (3, true)] [(3, 30); (1, 10); (2, 20)].
Proof.
  cbn zeta. split; [ | reflexivity ]. cbn.
  eapply perm_trans; [ apply perm_swap | ]. eapply perm_trans; [ apply perm_skip, perm_swap | ]. eapply perm_trans; [ apply perm_swap | ].
  apply perm_skip, Permutation_refl.
Qed.
(** ... and never otherwise: the case data are sorted and the weights are not. *)
Theorem C58_weights_misaligned_refuted {A B C D} (co : cframe A) (ch : cframe B) (av : cframe C) (wt_of : A -> D) :
  ~ increasing (ids co) -> ids (data_wt (init co ch av wt_of)) <> ids (data_co (init co ch av wt_of)).
Proof.
  intros H E. apply H. cbn in E. unfold set_data_wt, ids in E. rewrite map_map in E. cbn in E.
  apply sorted_le_increasing. change (ids co) with (map (fun x : Z * A => fst x) co). rewrite E. apply set_sorted_sorted.
Qed.
Example C58_misaligned_met : ~ increasing (ids [(3, 30); (1, 10)]).
Proof. intros H. specialize (H 0%nat 1%nat). cbn in H. lia. Qed.

(** ** C59 *)
(** Every column goes to exactly one side; those that are the same within every case to the case side. *)
Theorem C59_columns n_cols rows j : (j < n_cols)%nat ->
  (In j (ca_columns n_cols rows) <-> ~ In j (co_columns n_cols rows)) /\
  (constant_in_cases rows j -> In j (co_columns n_cols rows)) /\
  ((forall r, In r rows -> colval j r <> None) -> In j (co_columns n_cols rows) -> constant_in_cases rows j).
Proof.
  intros Hj. unfold ca_columns, co_columns. rewrite !filter_In, !in_seq. split; [ | split ].
  - destruct (is_ca rows j); cbn; intuition (congruence || lia).
  - intros H. split; [ lia | ]. destruct (is_ca rows j) eqn:E; [ | easy ]. exfalso.
    unfold is_ca in E. apply existsb_exists in E as (c & _ & E). apply varies_true in E as (v & w & Hv & Hw & Hne).
    apply vals_in in Hv as (r & Hr & Ev). apply vals_in in Hw as (s & Hs & Ew). apply group_in in Hr as [Hr Er]. apply group_in in Hs as [Hs Es].
    specialize (H r s Hr Hs ltac:(congruence)). congruence.
  - intros Hno [_ E] r s Hr Hs Hrs. apply negb_true_iff in E.
    destruct (colval j r) as [v|] eqn:Ev; [ | now apply Hno in Ev ]. destruct (colval j s) as [w|] eqn:Ew; [ | now apply Hno in Ew ].
    pose proof (first_value rows j r v E Hr Ev) as H1. pose proof (first_value rows j s w E Hs Ew) as H2. rewrite Hrs in H1. congruence.
Qed.
(** Nothing is lost: the kept columns are unchanged, row by row, ... *)
Theorem C59_kept_columns n_cols rows i k : (i < length rows)%nat -> (k < length (ca_columns n_cols rows))%nat ->
  let out := fst (crack_idca n_cols rows) in
  length out = length rows /\ fst (nth i out (0, [])) = fst (nth i rows (0, [])) /\
  colval k (nth i out (0, [])) = colval (nth k (ca_columns n_cols rows) 0%nat) (nth i rows (0, [])).
Proof.
  intros Hi Hk. unfold crack_idca. cbn [fst]. split; [ apply map_length | ].
  set (f := fun r : Z * list (option Z) => (fst r, map (fun j => colval j r) (filter (is_ca rows) (seq 0 n_cols)))).
  assert (E : nth i (map f rows) (0, []) = f (nth i rows (0, []))).
  { rewrite (nth_indep _ (0, []) (f (0, []))) by (now rewrite map_length). apply map_nth. }
  unfold arow in *. rewrite E. split; [ easy | ]. unfold f, colval at 1. cbn [snd]. fold (ca_columns n_cols rows).
  set (g := fun j => colval j (nth i rows (0, []))).
  rewrite (nth_indep _ None (g 0%nat)) by (now rewrite map_length). rewrite (map_nth g). reflexivity.
Qed.
(** ... and the cell of a moved column, when it is not NaN, is the cell of the row's case. *)
Theorem C59_moved_columns_partial n_cols rows r k v : In r rows -> (k < length (co_columns n_cols rows))%nat ->
  colval (nth k (co_columns n_cols rows) 0%nat) r = Some v ->
  exists s, In s (snd (crack_idca n_cols rows)) /\ fst s = fst r /\ colval k s = Some v.
Proof.
  intros Hr Hk Hv. eexists. split; [ | split ].
  - cbn [crack_idca snd]. apply in_map_iff. exists (fst r). split; [ reflexivity | ]. apply lunique_in. now apply in_map.
  - reflexivity.
  - unfold colval at 1. cbn [snd]. fold (co_columns n_cols rows).
    set (g := fun j => hd_error (vals j (group (fst r) rows))).
    rewrite (nth_indep _ None (g 0%nat)) by (now rewrite map_length). rewrite (map_nth g). unfold g.
    apply first_value; [ | easy | easy ].
    assert (Hin : In (nth k (co_columns n_cols rows) 0%nat) (co_columns n_cols rows)) by (now apply nth_In).
    unfold co_columns in Hin at 2. apply filter_In in Hin as [_ Hin]. now apply negb_true_iff in Hin.
Qed.
(** One row per case, in increasing order. *)
Theorem C59_one_row_per_case n_cols rows :
  let out := snd (crack_idca n_cols rows) in
  StronglySorted Z.lt (map fst out) /\ forall c, In c (map fst out) <-> In c (map fst rows).
Proof.
  cbn [crack_idca snd]. rewrite map_map. cbn [fst]. rewrite map_id. split; [ apply unique_sorted | intros c; apply lunique_in ].
Qed.
Definition ex_rows : list arow := [(2, [Some 5; Some 1]); (2, [Some 5; Some 2]); (1, [Some 7; Some 1]); (1, [Some 7; Some 3])].
Example C59_met : crack_idca 2 ex_rows =
  ([(2, [Some 1]); (2, [Some 2]); (1, [Some 1]); (1, [Some 3])], [(1, [Some 7]); (2, [Some 5])]) /\
  constant_in_cases ex_rows 0 /\ co_columns 2 ex_rows = [0%nat].
Proof.
  split; [ reflexivity | ]. split; [ | reflexivity ]. intros r s Hr Hs E. cbn in Hr, Hs.
  repeat destruct Hr as [ <- |Hr ]; try easy; repeat destruct Hs as [ <- |Hs ]; try easy; cbn in E; discriminate.
Qed.
(** NaN cells are lost: a column that is NaN for some alternatives of a case and a number for others is
    moved, and the number replaces the NaN. *)
Theorem C59_nan_cell_lost_refuted : exists rows j r,
  In r rows /\ colval j r = None /\ ~ constant_in_cases rows j /\ In j (co_columns 1 rows) /\
  forall s, In s (snd (crack_idca 1 rows)) -> fst s = fst r -> colval 0 s <> None.
Proof.
  exists [(1, [Some 4]); (1, [None])], 0%nat, (1, [None]). split; [ now right; left | ]. split; [ reflexivity | ]. split; [ | split ].
  - intros H. specialize (H (1, [Some 4]) (1, [None])). cbn in H. specialize (H ltac:(auto) ltac:(auto) eq_refl). discriminate.
  - cbn. auto.
  - cbn. intros s [ <- |[] ] _. cbn. discriminate.
Qed.
