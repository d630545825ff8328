(** Proofs about the codes of systematic alternatives. *)
From Verif Require Import BitsModel BitsSpec BitsProofs.
From Coq Require Import ZifyBool ZifyNat.
Open Scope Z_scope.

Definition vals (ds : list nat) : list Z := map (fun d => Z.of_nat d + 1) ds.
Lemma code_loop_eq sizes : forall t x ds, 0 <= x < 2 ^ Z.of_nat t -> (t + total sizes <= 63)%nat -> fits sizes (vals ds) ->
  code_loop x sizes ds = x * 2 ^ Z.of_nat (total sizes) + pack sizes (vals ds).
Proof.
  induction sizes as [|b r IH]; intros t x ds Hx Ht Hf.
  - cbn [code_loop pack]. unfold total. simpl. ring.
  - destruct ds as [|d ds]; [inversion Hf|]. cbn [vals map] in Hf. inversion Hf; subst. rewrite total_cons in *.
    cbn [code_loop]. rewrite (shl_id _ t) by lia. rewrite (IH (t + b)%nat).
    + cbn [vals map pack]. rewrite pow_add. fold (vals ds). ring.
    + rewrite pow_add. pose proof (pow_pos b). nia.
    + lia.
    + auto.
Qed.
Lemma row_code_eq sizes lo ds s : (total sizes + lo <= 62)%nat -> fits sizes (vals ds) ->
  row_code sizes lo ds s = pack sizes (vals ds) * 2 ^ Z.of_nat lo + Z.of_nat s.
Proof.
  intros Ht Hf. unfold row_code. f_equal.
  assert (E : match sizes, ds with _ :: sizes, d :: digits => code_loop (Z.of_nat d + 1) sizes digits | _, _ => 0 end = pack sizes (vals ds)).
  { destruct sizes as [|b r]; [inversion Hf; destruct ds; reflexivity|].
    destruct ds as [|d ds]; [inversion Hf|]. cbn [vals map] in Hf. inversion Hf; subst. rewrite total_cons in *.
    rewrite (code_loop_eq _ b); auto; try lia. }
  rewrite E. pose proof (pack_bound _ _ Hf). rewrite (shl_id _ (total sizes)) by lia. reflexivity.
Qed.

Lemma index_of_spec v l i : index_of v l = Some i -> (i < length l)%nat /\ nth i l 0 = v.
Proof.
  revert i; induction l as [|a l IH]; intros i H; [discriminate|]. cbn [index_of] in H.
  destruct (index_of v l) as [j|]; [injection H as <-; destruct (IH j eq_refl); split; [simpl; lia|auto]|].
  destruct (Z.eqb_spec a v); [|discriminate]. injection H as <-. split; [simpl; lia|auto].
Qed.
Lemma index_of_in v l : In v l -> exists i, index_of v l = Some i.
Proof.
  induction l as [|a l IH]; [contradiction|]. intros [->|H]; cbn [index_of].
  - destruct (index_of v l); [eauto|]. rewrite Z.eqb_refl. eauto.
  - destruct (IH H) as [i ->]. eauto.
Qed.
Lemma digits_spec alts : forall cats ds, digits_of alts cats = Some ds ->
  length ds = length alts /\ (length alts <= length cats)%nat /\
  forall k, (k < length alts)%nat -> (nth k ds 0 < length (nth k alts []))%nat /\ nth (nth k ds 0%nat) (nth k alts []) 0 = nth k cats 0.
Proof.
  induction alts as [|a alts IH]; intros cats ds H.
  - injection H as <-. simpl. split; [auto|]. split; [lia|]. intros; lia.
  - destruct cats as [|c cats]; [discriminate|]. cbn [digits_of] in H.
    destruct (index_of c a) as [d|] eqn:Ei; [|discriminate]. destruct (digits_of alts cats) as [r|] eqn:E; [|discriminate].
    injection H as <-. destruct (IH _ _ E) as (Hl & Hc & Hk). split; [simpl; lia|]. split; [simpl; lia|].
    intros [|k] Hlt; cbn [nth]; [apply index_of_spec; auto|apply Hk; simpl in Hlt; lia].
Qed.
Lemma log2_up_enough n : (0 < n)%nat -> (n <= 2 ^ Nat.log2_up n)%nat.
Proof. intros H. destruct (Nat.eq_dec n 1) as [->|]; [simpl; lia|]. apply Nat.log2_up_spec. lia. Qed.
Lemma digits_fit alts padding : forall cats ds, digits_of alts cats = Some ds ->
  fits (level_sizes padding alts) (vals ds).
Proof.
  induction alts as [|a alts IH]; intros cats ds H.
  - injection H as <-. constructor.
  - destruct cats as [|c cats]; [discriminate|]. cbn [digits_of] in H.
    destruct (index_of c a) as [d|] eqn:Ei; [|discriminate]. destruct (digits_of alts cats) as [r|] eqn:E; [|discriminate].
    injection H as <-. cbn [level_sizes map vals]. constructor; [|exact (IH _ _ E)].
    destruct (index_of_spec _ _ _ Ei) as [Hd _]. unfold clog2.
    pose proof (log2_up_enough (length a + 1 + padding) ltac:(lia)) as L.
    assert (Z.of_nat (length a + 1 + padding) <= 2 ^ Z.of_nat (Nat.log2_up (length a + 1 + padding))).
    { rewrite <- (Nat2Z.inj_pow 2). lia. }
    lia.
Qed.
Lemma all_some_map {A B} (f : A -> option B) l r d : all_some (map f l) = Some r ->
  length r = length l /\ forall i e, (i < length l)%nat -> f (nth i l e) = Some (nth i r d).
Proof.
  revert r; induction l as [|a l IH]; intros r H; cbn [map all_some] in H.
  - injection H as <-. split; [auto|]. simpl. intros; lia.
  - destruct (f a) as [b|] eqn:E; [|discriminate]. destruct (all_some (map f l)) as [r'|]; [|discriminate].
    injection H as <-. destruct (IH r' eq_refl) as [Hl Hn]. split; [simpl; lia|].
    intros [|i] e Hi; [auto|]. simpl in Hi. cbn [nth]. apply Hn. lia.
Qed.

(** Ordinals. *)
Lemma filter_length_rev {A} (f : A -> bool) l : length (filter f (rev l)) = length (filter f l).
Proof.
  induction l as [|a l IH]; [auto|]. cbn [rev filter]. rewrite filter_app, app_length, IH. cbn [filter].
  destruct (f a); simpl; lia.
Qed.
Lemma ordinals_from_nth rows : forall before i, (i < length rows)%nat ->
  nth i (ordinals_from before rows) 0%nat =
  S (length (filter (same_group (nth i rows (mkRow 0 []))) (rev (firstn i rows) ++ before))).
Proof.
  induction rows as [|r rows IH]; intros before i Hi; [simpl in Hi; lia|].
  destruct i as [|i]; [reflexivity|]. cbn [ordinals_from nth firstn rev]. rewrite IH by (simpl in Hi; lia).
  rewrite <- app_assoc. reflexivity.
Qed.
Lemma ordinals_nth rows i : (i < length rows)%nat -> nth i (ordinals rows) 0%nat = ordinal rows i.
Proof.
  intros Hi. unfold ordinals, ordinal. rewrite ordinals_from_nth by auto. rewrite app_nil_r. now rewrite filter_length_rev.
Qed.
Lemma ordinals_length rows : length (ordinals rows) = length rows.
Proof. unfold ordinals. generalize (@nil row). induction rows; intros; simpl; auto. Qed.
Lemma cats_eqb_eq a b : cats_eqb a b = true <-> a = b.
Proof.
  revert b; induction a as [|x a IH]; intros [|y b]; simpl; try (split; congruence).
  rewrite andb_true_iff, Z.eqb_eq, IH. split; [intros [-> ->]; auto|]. intros H; injection H as -> ->; auto.
Qed.
Lemma same_group_iff a b : same_group a b = true <-> r_case a = r_case b /\ r_cats a = r_cats b.
Proof. unfold same_group. rewrite andb_true_iff, Z.eqb_eq, cats_eqb_eq. reflexivity. Qed.
Lemma ordinal_lt rows i j : (i < j < length rows)%nat ->
  r_case (nth i rows (mkRow 0 [])) = r_case (nth j rows (mkRow 0 [])) ->
  r_cats (nth i rows (mkRow 0 [])) = r_cats (nth j rows (mkRow 0 [])) -> (ordinal rows i < ordinal rows j)%nat.
Proof.
  intros Hij Hc Ht. unfold ordinal. apply -> Nat.succ_lt_mono.
  assert (F : firstn j rows = firstn i rows ++ nth i rows (mkRow 0 []) :: skipn (S i) (firstn j rows)).
  { rewrite <- (firstn_skipn i (firstn j rows)) at 1. rewrite firstn_firstn, Nat.min_l by lia. f_equal.
    assert (Hn : nth i rows (mkRow 0 []) = nth i (firstn j rows) (mkRow 0 [])).
    { rewrite <- (firstn_skipn j rows) at 1. rewrite app_nth1; [auto|]. rewrite firstn_length. lia. }
    rewrite Hn. assert (Hl : (i < length (firstn j rows))%nat) by (rewrite firstn_length; lia).
    generalize dependent (firstn j rows). clear. intros l _ Hl. revert i Hl; induction l as [|a l IH]; intros i Hl; [simpl in Hl; lia|].
    destruct i; [reflexivity|]. cbn [skipn nth]. apply IH. simpl in Hl. lia. }
  rewrite F, filter_app, app_length.
  assert (S1 : same_group (nth j rows (mkRow 0 [])) (nth i rows (mkRow 0 [])) = true) by (apply same_group_iff; auto).
  cbn [filter]. rewrite S1. cbn [length].
  replace (length (filter (same_group (nth i rows (mkRow 0 []))) (firstn i rows)))
    with (length (filter (same_group (nth j rows (mkRow 0 []))) (firstn i rows))); [lia|].
  f_equal. apply filter_ext. intros a. unfold same_group. now rewrite Hc, Ht.
Qed.
Lemma maxn_ge l i : (i < length l)%nat -> (nth i l 0 <= maxn l)%nat.
Proof.
  revert i; induction l as [|a l IH]; intros i H; [simpl in H; lia|]. unfold maxn in *. cbn [fold_right].
  destruct i; cbn [nth]; [lia|]. specialize (IH i ltac:(simpl in H; lia)). lia.
Qed.
Lemma maxn_in l : l <> [] -> In (maxn l) l.
Proof.
  unfold maxn. induction l as [|a l IH]; [contradiction|]. intros _. cbn [fold_right]. destruct l as [|b l]; [simpl; left; lia|].
  destruct (Nat.max_spec a (fold_right Nat.max 0 (b :: l))%nat) as [[_ ->]|[_ ->]]; [right; apply IH; discriminate|left; auto].
Qed.
Lemma ordinal_pos rows i : (1 <= ordinal rows i)%nat. Proof. unfold ordinal. lia. Qed.
Lemma ordinal_le rows i : (i < length rows)%nat -> (ordinal rows i <= 2 ^ clog2 (maxn (ordinals rows)))%nat.
Proof.
  intros Hi. pose proof (maxn_ge (ordinals rows) i ltac:(rewrite ordinals_length; auto)) as M.
  rewrite ordinals_nth in M by auto. pose proof (ordinal_pos rows i).
  pose proof (log2_up_enough (maxn (ordinals rows)) ltac:(lia)). unfold clog2. lia.
Qed.
Lemma ordinal_lt_pow rows i : (i < length rows)%nat -> no_power_of_two rows -> (ordinal rows i < 2 ^ clog2 (maxn (ordinals rows)))%nat.
Proof.
  intros Hi Hp. pose proof (maxn_ge (ordinals rows) i ltac:(rewrite ordinals_length; auto)) as M.
  rewrite ordinals_nth in M by auto. pose proof (ordinal_pos rows i).
  pose proof (log2_up_enough (maxn (ordinals rows)) ltac:(lia)). specialize (Hp (Nat.log2_up (maxn (ordinals rows)))). unfold clog2. lia.
Qed.
Lemma total_fields complete padding rows :
  total (field_sizes complete padding rows) = bits_needed complete padding rows.
Proof. unfold field_sizes, bits_needed, total. rewrite list_sum_app. simpl. lia. Qed.

(** What the codes are. *)
Lemma level_lists_length complete rows : length (level_lists complete rows) = length complete.
Proof. unfold level_lists. rewrite map_length, combine_length, seq_length. lia. Qed.
Lemma codes_of_nth alts padding lo rows x : codes_of alts padding lo rows = Some x ->
  length x = length rows /\
  forall i, (i < length rows)%nat -> exists ds,
    digits_of alts (r_cats (nth i rows (mkRow 0 []))) = Some ds /\
    nth i x 0 = row_code (level_sizes padding alts) lo ds (ordinal rows i).
Proof.
  unfold codes_of. destruct (all_some _) as [dss|] eqn:E; [|discriminate]. intros H; injection H as <-.
  destruct (all_some_map _ _ _ ([] : list nat) E) as [Hl Hn].
  rewrite map_length, combine_length, ordinals_length, Hl, Nat.min_id. split; [auto|].
  intros i Hi. exists (nth i dss []). split; [exact (Hn i (mkRow 0 []) Hi)|].
  set (f := fun p : list nat * nat => row_code (level_sizes padding alts) lo (fst p) (snd p)).
  rewrite (nth_indep _ 0 (f ([], 0%nat))) by (rewrite map_length, combine_length, ordinals_length, Hl; lia).
  rewrite map_nth. rewrite combine_nth by (rewrite ordinals_length; auto). unfold f. cbn [fst snd].
  now rewrite ordinals_nth by auto.
Qed.
Lemma new_codes_nth complete padding rows x sa :
  new_alternative_codes complete padding rows = Some (x, sa) ->
  let alts := level_lists complete rows in let lo := clog2 (maxn (ordinals rows)) in
  codes_of alts padding lo rows = Some x /\
  sa = mkSA (sa_masks (level_sizes padding alts) lo) alts (unique x) padding.
Proof.
  unfold new_alternative_codes. destruct rows as [|r rows]; [discriminate|].
  destruct (codes_of _ _ _ _) as [y|] eqn:E; [|discriminate]. intros H; injection H as <- <-. split; auto.
Qed.
(** The same, as packed fields. *)
Lemma code_packed complete padding rows x sa i :
  new_alternative_codes complete padding rows = Some (x, sa) -> (bits_needed complete padding rows <= 62)%nat ->
  (i < length rows)%nat ->
  exists ds, digits_of (level_lists complete rows) (r_cats (nth i rows (mkRow 0 []))) = Some ds /\
    fits (level_sizes padding (level_lists complete rows)) (vals ds) /\
    nth i x 0 = pack (level_sizes padding (level_lists complete rows)) (vals ds) * 2 ^ Z.of_nat (clog2 (maxn (ordinals rows))) + Z.of_nat (ordinal rows i).
Proof.
  intros H Hb Hi. destruct (new_codes_nth _ _ _ _ _ H) as [Hc _].
  destruct (codes_of_nth _ _ _ _ _ Hc) as [_ Hn]. destruct (Hn i Hi) as (ds & Hd & He).
  exists ds. split; [auto|]. pose proof (digits_fit _ padding _ _ Hd) as Hf. split; [auto|].
  rewrite He. apply row_code_eq; auto.
Qed.
Lemma code_fields complete padding rows x sa i :
  new_alternative_codes complete padding rows = Some (x, sa) -> (bits_needed complete padding rows <= 62)%nat ->
  (i < length rows)%nat -> (ordinal rows i < 2 ^ clog2 (maxn (ordinals rows)))%nat ->
  exists ds, digits_of (level_lists complete rows) (r_cats (nth i rows (mkRow 0 []))) = Some ds /\
    fits (field_sizes complete padding rows) (vals ds ++ [Z.of_nat (ordinal rows i)]) /\
    nth i x 0 = pack (field_sizes complete padding rows) (vals ds ++ [Z.of_nat (ordinal rows i)]).
Proof.
  intros H Hb Hi Ho. destruct (code_packed _ _ _ _ _ _ H Hb Hi) as (ds & Hd & Hf & He). exists ds.
  split; [auto|]. split.
  - apply fits_app; [exact Hf|]. constructor; [|constructor]. split; [lia|].
    rewrite <- (Nat2Z.inj_pow 2). unfold clog2 in Ho. lia.
  - rewrite He. unfold field_sizes. rewrite pack_app.
    + cbn [pack]. unfold total. cbn [list_sum fold_right]. rewrite Nat.add_0_r. unfold level_sizes, clog2. simpl (2 ^ Z.of_nat 0). ring.
    + apply fits_length in Hf. unfold level_sizes in Hf. now rewrite Hf.
Qed.

(** Distinct codes. *)
Lemma vals_inj a b : vals a = vals b -> a = b.
Proof.
  revert b; induction a as [|x a IH]; intros [|y b]; cbn; try congruence. intros H; injection H as H1 H2. f_equal; [lia|auto].
Qed.
Lemma code_eq_iff complete padding rows x sa i j :
  new_alternative_codes complete padding rows = Some (x, sa) -> rows_ok complete rows ->
  (bits_needed complete padding rows <= 62)%nat -> (i < length rows)%nat -> (j < length rows)%nat ->
  (nth i x 0 = nth j x 0 <->
   r_cats (nth i rows (mkRow 0 [])) = r_cats (nth j rows (mkRow 0 [])) /\ ordinal rows i = ordinal rows j).
Proof.
  intros H Hr Hb Hi Hj.
  destruct (code_packed _ _ _ _ _ _ H Hb Hi) as (di & Hdi & Hfi & Ei).
  destruct (code_packed _ _ _ _ _ _ H Hb Hj) as (dj & Hdj & Hfj & Ej). rewrite Ei, Ej.
  pose proof (ordinal_le rows i Hi) as Li. pose proof (ordinal_le rows j Hj) as Lj.
  pose proof (ordinal_pos rows i). pose proof (ordinal_pos rows j).
  set (lo := clog2 _) in *. assert (P : Z.of_nat (2 ^ lo) = 2 ^ Z.of_nat lo) by apply (Nat2Z.inj_pow 2).
  split.
  - intros E.
    assert (E' : (2 ^ Z.of_nat lo) * pack (level_sizes padding (level_lists complete rows)) (vals di) + (Z.of_nat (ordinal rows i) - 1) =
            (2 ^ Z.of_nat lo) * pack (level_sizes padding (level_lists complete rows)) (vals dj) + (Z.of_nat (ordinal rows j) - 1)) by lia.
    apply Z.div_mod_unique in E'; [|left; lia|left; lia]. destruct E' as [E1 E2].
    apply (pack_inj _ _ _ Hfi Hfj) in E1. apply vals_inj in E1. subst dj. split; [|lia].
    destruct (digits_spec _ _ _ Hdi) as (_ & _ & Ki). destruct (digits_spec _ _ _ Hdj) as (_ & _ & Kj).
    assert (Ci : length (r_cats (nth i rows (mkRow 0 []))) = length complete).
    { eapply Forall_forall in Hr; [exact Hr|]. now apply nth_In. }
    assert (Cj : length (r_cats (nth j rows (mkRow 0 []))) = length complete).
    { eapply Forall_forall in Hr; [exact Hr|]. now apply nth_In. }
    apply (nth_ext _ _ 0 0); [congruence|]. intros k Hk. rewrite Ci in Hk.
    rewrite level_lists_length in Ki, Kj. rewrite <- (proj2 (Ki k Hk)). apply (proj2 (Kj k Hk)).
  - intros [Ec Eo]. rewrite Ec in Hdi. rewrite Hdi in Hdj. injection Hdj as <-. now rewrite Eo.
Qed.

(** Names. *)
Lemma combine_removelast_ideal sizes lo : removelast (ideal (sizes ++ [lo])) = map (fun m => m * 2 ^ Z.of_nat lo) (ideal sizes)
  /\ last (ideal (sizes ++ [lo])) 0 = 2 ^ Z.of_nat lo - 1.
Proof. rewrite ideal_snoc. split; [apply removelast_last|apply last_last]. Qed.
Lemma pack_nonneg sizes v : fits sizes v -> 0 <= pack sizes v. Proof. intros H. apply pack_bound in H. lia. Qed.
Lemma field_sizes_eq complete padding rows :
  field_sizes complete padding rows = level_sizes padding (level_lists complete rows) ++ [clog2 (maxn (ordinals rows))].
Proof. reflexivity. Qed.
Lemma name_fields complete padding rows x sa v k :
  new_alternative_codes complete padding rows = Some (x, sa) -> (bits_needed complete padding rows <= 62)%nat ->
  fits (field_sizes complete padding rows) v -> (k < length complete)%nat ->
  nth k (fst (alternative_name sa (pack (field_sizes complete padding rows) v))) NoCat =
  name_part (nth k (level_lists complete rows) []) (nth k v 0).
Proof.
  intros H Hb Hf Hk. destruct (new_codes_nth _ _ _ _ _ H) as [_ ->]. unfold alternative_name. cbn [sa_cats sa_mask fst].
  set (sizes := level_sizes padding (level_lists complete rows)). set (lo := clog2 (maxn (ordinals rows))).
  assert (Hls : length sizes = length complete) by (unfold sizes, level_sizes; rewrite map_length; apply level_lists_length).
  assert (Hb' : (total sizes + lo <= 62)%nat) by exact Hb.
  rewrite sa_masks_eq by lia.
  set (f := fun p => name_part (fst p) (field (snd p) (pack (field_sizes complete padding rows) v))).
  assert (Hrl : length (removelast (ideal (sizes ++ [lo]))) = length complete).
  { rewrite (proj1 (combine_removelast_ideal _ _)), map_length, ideal_length. auto. }
  rewrite (nth_indep _ NoCat (f ([], 0))) by (rewrite map_length, combine_length, level_lists_length, Hrl; lia).
  rewrite map_nth. rewrite combine_nth by (rewrite level_lists_length, Hrl; auto). unfold f. cbn [fst snd]. f_equal.
  assert (Hn : nth k (removelast (ideal (sizes ++ [lo]))) 0 = nth k (ideal (sizes ++ [lo])) 0).
  { rewrite (app_removelast_last (l := ideal (sizes ++ [lo])) 0) at 2 by (rewrite ideal_snoc; destruct (map _ _); discriminate).
    rewrite app_nth1; [auto|lia]. }
  rewrite Hn. change (sizes ++ [lo]) with (field_sizes complete padding rows).
  assert (Hlen : (k < length (field_sizes complete padding rows))%nat).
  { change (field_sizes complete padding rows) with (sizes ++ [lo]). rewrite app_length. simpl. lia. }
  rewrite ideal_nth by auto. rewrite field_eq by (apply pack_nonneg; auto). apply pack_field; auto.
Qed.
Lemma name_last complete padding rows x sa v :
  new_alternative_codes complete padding rows = Some (x, sa) -> (bits_needed complete padding rows <= 62)%nat ->
  fits (field_sizes complete padding rows) v ->
  snd (alternative_name sa (pack (field_sizes complete padding rows) v)) = last v 0.
Proof.
  intros H Hb Hf. destruct (new_codes_nth _ _ _ _ _ H) as [_ ->]. unfold alternative_name. cbn [sa_cats sa_mask snd].
  set (sizes := level_sizes padding (level_lists complete rows)). set (lo := clog2 (maxn (ordinals rows))).
  assert (Hb' : (total sizes + lo <= 62)%nat) by exact Hb.
  rewrite sa_masks_eq by lia. rewrite (proj2 (combine_removelast_ideal _ _)).
  replace (2 ^ Z.of_nat lo - 1) with ((2 ^ Z.of_nat lo - 1) * 2 ^ Z.of_nat 0) by (simpl (2 ^ Z.of_nat 0); ring).
  rewrite field_eq by (apply pack_nonneg; auto).
  pose proof (pack_field _ _ (length sizes) Hf) as P.
  assert (Hl : length (field_sizes complete padding rows) = S (length sizes)).
  { change (field_sizes complete padding rows) with (sizes ++ [lo]). rewrite app_length. simpl. lia. }
  specialize (P ltac:(lia)).
  assert (Ha : after (length sizes) (field_sizes complete padding rows) = 0%nat).
  { unfold after. rewrite skipn_all2 by lia. reflexivity. }
  assert (Hs : nth (length sizes) (field_sizes complete padding rows) 0%nat = lo).
  { change (field_sizes complete padding rows) with (sizes ++ [lo]). rewrite app_nth2, Nat.sub_diag by lia. reflexivity. }
  rewrite Ha, Hs in P. rewrite P. pose proof (fits_length _ _ Hf) as Hv. rewrite Hl in Hv.
  clear -Hv. destruct (exists_last (l := v) ltac:(intros ->; discriminate)) as (w & z & ->).
  rewrite app_length in Hv. simpl in Hv. assert (length w = length sizes) by lia.
  rewrite last_last, <- H, app_nth2, Nat.sub_diag by lia. reflexivity.
Qed.
Lemma name_length complete padding rows x sa c :
  new_alternative_codes complete padding rows = Some (x, sa) -> (bits_needed complete padding rows <= 62)%nat ->
  length (fst (alternative_name sa c)) = length complete.
Proof.
  intros H Hb. destruct (new_codes_nth _ _ _ _ _ H) as [_ ->]. unfold alternative_name. cbn [sa_cats sa_mask fst].
  assert (Hb' : (total (level_sizes padding (level_lists complete rows)) + clog2 (maxn (ordinals rows)) <= 62)%nat) by exact Hb.
  rewrite sa_masks_eq by lia. rewrite map_length, combine_length, (proj1 (combine_removelast_ideal _ _)), map_length, ideal_length.
  unfold level_sizes. rewrite map_length, level_lists_length. lia.
Qed.
Lemma name_cat cats d : (d < length cats)%nat -> name_part cats (Z.of_nat d + 1) = Cat (nth d cats 0).
Proof.
  intros H. unfold name_part. replace (Z.of_nat d + 1 - 1) with (Z.of_nat d) by lia.
  destruct (Z.ltb_spec (Z.of_nat d) 0); [lia|]. rewrite Nat2Z.id. destruct (Nat.ltb_spec d (length cats)); [auto|lia].
Qed.
Lemma name_of_code complete padding rows x sa i :
  new_alternative_codes complete padding rows = Some (x, sa) -> rows_ok complete rows ->
  (bits_needed complete padding rows <= 62)%nat -> (i < length rows)%nat ->
  (ordinal rows i < 2 ^ clog2 (maxn (ordinals rows)))%nat ->
  alternative_name sa (nth i x 0) = (map Cat (r_cats (nth i rows (mkRow 0 []))), Z.of_nat (ordinal rows i)).
Proof.
  intros H Hr Hb Hi Ho. destruct (code_fields _ _ _ _ _ _ H Hb Hi Ho) as (ds & Hd & Hf & He).
  rewrite He. rewrite (surjective_pairing (alternative_name _ _)). f_equal.
  - destruct (digits_spec _ _ _ Hd) as (Hl & _ & Hk). rewrite level_lists_length in *.
    assert (Ci : length (r_cats (nth i rows (mkRow 0 []))) = length complete).
    { eapply Forall_forall in Hr; [exact Hr|]. now apply nth_In. }
    apply (nth_ext _ _ NoCat NoCat).
    + rewrite (name_length _ _ _ _ _ _ H Hb). rewrite map_length. auto.
    + rewrite (name_length _ _ _ _ _ _ H Hb). intros k Hlt.
      rewrite (name_fields _ _ _ _ _ _ _ H Hb Hf Hlt).
      rewrite app_nth1 by (unfold vals; rewrite map_length; lia).
      unfold vals. rewrite (nth_indep _ 0 (Z.of_nat 0 + 1)) by (rewrite map_length; lia).
      rewrite (map_nth (fun d => Z.of_nat d + 1)). destruct (Hk k Hlt) as [K1 K2]. rewrite name_cat by auto.
      rewrite (nth_indep _ NoCat (Cat 0)) by (rewrite map_length; lia). rewrite map_nth. now rewrite K2.
  - rewrite (name_last _ _ _ _ _ _ H Hb Hf). apply last_last.
Qed.
