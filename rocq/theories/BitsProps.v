(** C52: bit fields.  C53: codes of systematic alternatives.  C56: the nesting built from them. *)
From Verif Require Import BitsModel BitsSpec BitsProofs BitsCodes BitsNest.
From Coq Require Import ZifyBool ZifyNat.
Open Scope Z_scope.

(** ** C52 *)
(** For every list of sizes of at most 63 bits in all, mask [k] is exactly the bits of field [k]:
    as many as its size, starting just above all later fields. *)
Theorem C52_masks sizes masks :
  define_masks sizes = Some masks -> (total sizes <= 63)%nat ->
  length masks = length sizes /\
  forall k i, (k < length sizes)%nat -> 0 <= i ->
    Z.testbit (nth k masks 0) i = (Z.of_nat (after k sizes) <=? i) && (i <? Z.of_nat (after k sizes) + Z.of_nat (nth k sizes 0%nat)).
Proof.
  intros H Ht. rewrite define_masks_ideal in H; [|intros ->; discriminate|auto]. injection H as <-.
  split; [apply ideal_length|]. intros k i Hk Hi. rewrite ideal_nth by auto. apply mask_bit; auto.
Qed.
(** Different masks share no bit, and together they fill the bits below the total size. *)
Theorem C52_disjoint sizes masks j k :
  define_masks sizes = Some masks -> (total sizes <= 63)%nat -> (j < k < length sizes)%nat ->
  Z.land (nth j masks 0) (nth k masks 0) = 0.
Proof.
  intros H Ht Hjk. destruct (C52_masks _ _ H Ht) as [_ B]. apply Z.bits_inj'. intros i Hi.
  rewrite Z.land_spec, !B, Z.bits_0 by lia.
  assert (A : (nth k sizes 0 + after k sizes <= after j sizes)%nat).
  { clear -Hjk. unfold after. revert j k Hjk; induction sizes as [|b r IH]; intros j k Hjk; [simpl in Hjk; lia|].
    destruct k as [|k]; [lia|]. cbn [nth]. change (skipn (S (S k)) (b :: r)) with (skipn (S k) r). simpl in Hjk. destruct j as [|j].
    - change (skipn 1 (b :: r)) with r. pose proof (after_total k r ltac:(lia)) as T. unfold after in T. lia.
    - change (skipn (S (S j)) (b :: r)) with (skipn (S j) r). apply IH. lia. }
  lia.
Qed.
Theorem C52_all_bits sizes masks i :
  define_masks sizes = Some masks -> (total sizes <= 63)%nat -> 0 <= i < Z.of_nat (total sizes) ->
  exists k, (k < length sizes)%nat /\ Z.testbit (nth k masks 0) i = true.
Proof.
  intros H Ht Hi. destruct (C52_masks _ _ H Ht) as [_ B].
  assert (E : exists k, (k < length sizes)%nat /\ (Z.of_nat (after k sizes) <=? i) && (i <? Z.of_nat (after k sizes) + Z.of_nat (nth k sizes 0%nat)) = true).
  { clear -Hi. induction sizes as [|b r IH]; [unfold total in Hi; simpl in Hi; lia|].
    destruct (Z.ltb_spec i (Z.of_nat (total r))).
    - destruct (IH ltac:(lia)) as (k & Hk & E). exists (S k). split; [simpl; lia|]. exact E.
    - exists 0%nat. split; [simpl; lia|]. unfold after. cbn [skipn nth]. rewrite total_cons in Hi. lia. }
  destruct E as (k & Hk & E). exists k. split; [auto|]. rewrite B by lia. exact E.
Qed.
(** Fields packed side by side are read back with the masks. *)
Theorem C52_pack_extract sizes masks values k :
  define_masks sizes = Some masks -> (total sizes <= 63)%nat -> fits sizes values -> (k < length sizes)%nat ->
  field (nth k masks 0) (pack sizes values) = nth k values 0.
Proof.
  intros H Ht Hf Hk. rewrite define_masks_ideal in H; [|intros ->; discriminate|auto]. injection H as <-.
  rewrite ideal_nth by auto. rewrite field_eq by (apply pack_nonneg; auto). apply pack_field; auto.
Qed.
(** Masks for sets have room to number the distinct values of each set, and no more bits than needed. *)
Theorem C52_min_masks sets masks :
  define_min_masks sets = Some masks ->
  exists sizes, define_masks sizes = Some masks /\ length sizes = length sets /\
    forall k, (k < length sets)%nat ->
      (length (unique (nth k sets [])) <= 2 ^ nth k sizes 0)%nat /\
      ((0 < nth k sizes 0)%nat -> (2 ^ (nth k sizes 0 - 1) < length (unique (nth k sets [])))%nat).
Proof.
  unfold define_min_masks. destruct (existsb _ sets) eqn:E; [discriminate|]. intros H.
  exists (map (fun s => clog2 (length (unique s))) sets). split; [exact H|]. split; [apply map_length|].
  intros k Hk. set (f := fun s => clog2 (length (unique s))).
  rewrite (nth_indep (map f sets) 0%nat (f [])) by (rewrite map_length; auto). rewrite map_nth. unfold f, clog2.
  assert (P : (0 < length (unique (nth k sets [])))%nat).
  { assert (Hne : nth k sets [] <> []).
    { intros En. assert (existsb (fun s : list Z => match s with [] => true | _ => false end) sets = true); [|congruence].
      apply existsb_exists. exists (nth k sets []). split; [apply nth_In; auto|]. now rewrite En. }
    destruct (nth k sets []) as [|a l]; [contradiction|]. unfold unique. cbn [fold_right].
    assert (forall v m, (0 < length (uinsert v m))%nat).
    { clear. intros v [|b m]; cbn [uinsert]; [simpl; lia|]. destruct (v <? b); [simpl; lia|]. destruct (v =? b); simpl; lia. }
    auto. }
  split; [apply log2_up_enough; auto|].
  intros Hp. destruct (Nat.eq_dec (length (unique (nth k sets []))) 1) as [E1|N1]; [rewrite E1 in Hp; change (Nat.log2_up 1) with 0%nat in Hp; lia|].
  rewrite Nat.sub_1_r. apply Nat.log2_up_spec. lia.
Qed.
(** Beyond 63 bits the masks lose bits and the fields cannot be read back. *)
Theorem C52_overflow_refuted :
  exists sizes masks values, define_masks sizes = Some masks /\ fits sizes values /\ total sizes = 65%nat /\
    field (nth 0 masks 0) (wrap64 (pack sizes values)) <> nth 0 values 0.
Proof.
  exists [32; 33]%nat. eexists. exists [2 ^ 31; 0]. split; [reflexivity|]. split; [repeat constructor; vm_compute; congruence|].
  split; [reflexivity|]. vm_compute. congruence.
Qed.
Example C52_example : exists masks, define_masks [3; 2; 4]%nat = Some masks /\ masks = [448; 48; 15] /\
  fits [3; 2; 4]%nat [5; 3; 9] /\ pack [3; 2; 4]%nat [5; 3; 9] = 377 /\ field 448 377 = 5.
Proof. eexists. split; [reflexivity|]. split; [reflexivity|]. split; [repeat constructor; vm_compute; congruence|]. split; reflexivity. Qed.

(** ** C53 *)
(** Two rows have the same code exactly when they agree in every category and are both the n-th row
    of their case with these categories. *)
Theorem C53_codes_identify complete padding rows x sa i j :
  new_alternative_codes complete padding rows = Some (x, sa) -> rows_ok complete rows ->
  (bits_needed complete padding rows <= 62)%nat -> (i < length rows)%nat -> (j < length rows)%nat ->
  (nth i x 0 = nth j x 0 <->
   r_cats (nth i rows (mkRow 0 [])) = r_cats (nth j rows (mkRow 0 [])) /\ ordinal rows i = ordinal rows j).
Proof. apply code_eq_iff. Qed.
(** So within a case no two rows have the same code: the new index is unique. *)
Theorem C53_unique_in_case complete padding rows x sa i j :
  new_alternative_codes complete padding rows = Some (x, sa) -> rows_ok complete rows ->
  (bits_needed complete padding rows <= 62)%nat -> (i < length rows)%nat -> (j < length rows)%nat ->
  r_case (nth i rows (mkRow 0 [])) = r_case (nth j rows (mkRow 0 [])) -> nth i x 0 = nth j x 0 -> i = j.
Proof.
  intros H Hr Hb Hi Hj Hc E. apply (code_eq_iff _ _ _ _ _ _ _ H Hr Hb Hi Hj) in E. destruct E as [Ec Eo].
  destruct (lt_eq_lt_dec i j) as [[L| ->]|L]; auto.
  - pose proof (ordinal_lt rows i j ltac:(lia) Hc Ec). lia.
  - pose proof (ordinal_lt rows j i ltac:(lia) (eq_sym Hc) (eq_sym Ec)). lia.
Qed.
(** The masks recover the categories and the ordinal, provided the largest ordinal is not a power of
    two. *)
Theorem C53_masks_recover_partial complete padding rows x sa i :
  new_alternative_codes complete padding rows = Some (x, sa) -> rows_ok complete rows ->
  (bits_needed complete padding rows <= 62)%nat -> no_power_of_two rows -> (i < length rows)%nat ->
  alternative_name sa (nth i x 0) = (map Cat (r_cats (nth i rows (mkRow 0 []))), Z.of_nat (ordinal rows i)).
Proof. intros H Hr Hb Hp Hi. apply (name_of_code _ _ _ _ _ _ H Hr Hb Hi). apply ordinal_lt_pow; auto. Qed.
(** When every row is alone in its case and category - the largest ordinal is 1 - no field is kept
    for the ordinal, it spills over into the last category, and every name is one category off. *)
Theorem C53_power_of_two_refuted :
  exists rows x sa, new_alternative_codes [None] 4 rows = Some (x, sa) /\ rows_ok [None] rows /\
    r_cats (nth 0 rows (mkRow 0 [])) = [10] /\ alternative_name sa (nth 0 x 0) = ([Cat 20], 0).
Proof.
  exists [mkRow 1 [10]; mkRow 1 [20]; mkRow 1 [30]]. eexists _, _.
  split; [vm_compute; reflexivity|]. split; [repeat constructor|]. split; [reflexivity|]. vm_compute. reflexivity.
Qed.
(** With more than 64 bits of categories the codes of different rows of one case coincide. *)
Theorem C53_overflow_refuted :
  exists complete rows x sa, new_alternative_codes complete 4 rows = Some (x, sa) /\ rows_ok complete rows /\
    r_case (nth 0 rows (mkRow 0 [])) = r_case (nth 1 rows (mkRow 0 [])) /\ nth 0 x 0 = nth 1 x 0.
Proof.
  exists (repeat None 23), [mkRow 1 (1 :: repeat 5 22); mkRow 1 (2 :: repeat 5 22)]. eexists _, _.
  split; [vm_compute; reflexivity|]. split; [repeat constructor|]. split; [reflexivity|]. vm_compute. reflexivity.
Qed.
(** Recoding the frame the alternatives were made from gives the same codes. *)
Theorem C53_recode_same_frame complete padding rows x sa :
  new_alternative_codes complete padding rows = Some (x, sa) ->
  compute_alternative_codes sa rows = Some x.
Proof.
  intros H. destruct (new_codes_nth _ _ _ _ _ H) as [Hc ->]. unfold compute_alternative_codes. cbn [sa_cats sa_padding].
  unfold new_alternative_codes. destruct rows as [|r rows]; [discriminate|].
  assert (E : level_lists (map Some (level_lists complete (r :: rows))) (r :: rows) = level_lists complete (r :: rows)).
  { generalize (level_lists complete (r :: rows)) as l. intros l. unfold level_lists. rewrite map_length. generalize 0%nat as o. induction l as [|a l IH]; intros o; [reflexivity|].
    cbn [map length seq combine]. f_equal. apply IH. }
  rewrite E, Hc. reflexivity.
Qed.
(** Recoding another frame does not keep the codes: the room for ordinals depends on the frame. *)
Theorem C53_recode_other_frame_refuted :
  exists train test x sa y,
    new_alternative_codes [None] 4 train = Some (x, sa) /\ compute_alternative_codes sa test = Some y /\
    r_cats (nth 0 train (mkRow 0 [])) = r_cats (nth 0 test (mkRow 0 [])) /\ ordinal train 0 = ordinal test 0 /\
    nth 0 x 0 <> nth 0 y 0.
Proof.
  exists [mkRow 1 [10]; mkRow 1 [10]; mkRow 1 [10]; mkRow 1 [20]; mkRow 1 [30]], [mkRow 1 [10]; mkRow 1 [20]; mkRow 1 [30]].
  eexists _, _, _. split; [vm_compute; reflexivity|]. split; [vm_compute; reflexivity|]. split; [reflexivity|]. split; [reflexivity|].
  vm_compute. congruence.
Qed.
(** Several frames coded together: two rows, of the same frame or of different ones, have the same
    code exactly when they have the same categories and the same number within case and category. *)
Theorem C53_frames_coded_alike complete padding frames xs sa p q i j :
  multiple_new_alternative_codes complete padding frames = Some (xs, sa) ->
  Forall (rows_ok complete) frames -> (frames_bits complete padding frames <= 62)%nat ->
  (p < length frames)%nat -> (q < length frames)%nat ->
  let f := nth p frames [] in let h := nth q frames [] in
  (i < length f)%nat -> (j < length h)%nat ->
  (nth i (nth p xs []) 0 = nth j (nth q xs []) 0 <->
   r_cats (nth i f (mkRow 0 [])) = r_cats (nth j h (mkRow 0 [])) /\ ordinal f i = ordinal h j).
Proof.
  intros H Hr Hb Hp Hq f h Hi Hj. unfold multiple_new_alternative_codes in H.
  destruct (_ || _); [discriminate|].
  set (lo := clog2 (maxn (map (fun f => maxn (ordinals f)) frames))) in *.
  set (alts := level_lists complete (concat frames)) in *.
  destruct (all_some (map (codes_of alts padding lo) frames)) as [ys|] eqn:E; [|discriminate]. injection H as <- <-.
  destruct (all_some_map _ _ _ ([] : list Z) E) as [_ Hn].
  assert (Hs : (total (level_sizes padding alts) + lo <= 62)%nat) by exact Hb.
  assert (Hrow : forall p i, (p < length frames)%nat -> (i < length (nth p frames []))%nat ->
    exists ds, digits_of alts (r_cats (nth i (nth p frames []) (mkRow 0 []))) = Some ds /\
      fits (level_sizes padding alts) (vals ds) /\
      nth i (nth p ys []) 0 = pack (level_sizes padding alts) (vals ds) * 2 ^ Z.of_nat lo + Z.of_nat (ordinal (nth p frames []) i) /\
      (1 <= ordinal (nth p frames []) i <= 2 ^ lo)%nat /\
      length (r_cats (nth i (nth p frames []) (mkRow 0 []))) = length complete).
  { intros p0 i0 Hp0 Hi0. destruct (codes_of_nth _ _ _ _ _ (Hn p0 [] Hp0)) as [_ Hc].
    destruct (Hc i0 Hi0) as (ds & Hd & He). exists ds. split; [auto|].
    pose proof (digits_fit _ padding _ _ Hd) as Hf. split; [auto|]. split; [rewrite He; apply row_code_eq; auto|].
    split.
    - split; [apply ordinal_pos|].
      pose proof (maxn_ge (ordinals (nth p0 frames [])) i0 ltac:(rewrite ordinals_length; auto)) as M1.
      rewrite ordinals_nth in M1 by auto.
      pose proof (maxn_ge (map (fun f => maxn (ordinals f)) frames) p0 ltac:(rewrite map_length; auto)) as M2.
      rewrite (nth_indep _ 0%nat (maxn (ordinals []))) in M2 by (rewrite map_length; auto).
      rewrite (map_nth (fun f => maxn (ordinals f))) in M2.
      pose proof (ordinal_pos (nth p0 frames []) i0).
      pose proof (log2_up_enough (maxn (map (fun f => maxn (ordinals f)) frames)) ltac:(lia)). unfold lo, clog2. lia.
    - eapply Forall_forall in Hr; [|apply nth_In; exact Hp0]. eapply Forall_forall in Hr; [exact Hr|]. apply nth_In; auto. }
  destruct (Hrow p i Hp Hi) as (di & Hdi & Hfi & Ei & Li & Ci).
  destruct (Hrow q j Hq Hj) as (dj & Hdj & Hfj & Ej & Lj & Cj). fold f in Hdi, Ei, Li, Ci. fold h in Hdj, Ej, Lj, Cj.
  rewrite Ei, Ej. assert (P : Z.of_nat (2 ^ lo) = 2 ^ Z.of_nat lo) by apply (Nat2Z.inj_pow 2).
  split.
  - intros EE.
    assert (E' : (2 ^ Z.of_nat lo) * pack (level_sizes padding alts) (vals di) + (Z.of_nat (ordinal f i) - 1) =
            (2 ^ Z.of_nat lo) * pack (level_sizes padding alts) (vals dj) + (Z.of_nat (ordinal h j) - 1)) by lia.
    apply Z.div_mod_unique in E'; [|left; lia|left; lia]. destruct E' as [E1 E2].
    apply (pack_inj _ _ _ Hfi Hfj) in E1. apply vals_inj in E1. subst dj. split; [|lia].
    destruct (digits_spec _ _ _ Hdi) as (_ & _ & Ki). destruct (digits_spec _ _ _ Hdj) as (_ & _ & Kj).
    assert (La : length alts = length complete) by apply level_lists_length.
    apply (nth_ext _ _ 0 0); [congruence|]. intros k Hk. rewrite Ci, <- La in Hk.
    rewrite <- (proj2 (Ki k Hk)). apply (proj2 (Kj k Hk)).
  - intros [Ec Eo]. rewrite Ec in Hdi. rewrite Hdi in Hdj. injection Hdj as <-. now rewrite Eo.
Qed.
(** And no frame is refused: without complete lists the categories are those of all frames
    together, so that each one's rows have a code. *)
Lemma digits_all alts : forall cats, (length alts <= length cats)%nat ->
  (forall k, (k < length alts)%nat -> In (nth k cats 0) (nth k alts [])) -> exists ds, digits_of alts cats = Some ds.
Proof.
  induction alts as [|a alts IH]; intros cats Hl H; [exists []; auto|].
  destruct cats as [|c cats]; [simpl in Hl; lia|]. cbn [digits_of].
  destruct (index_of_in c a) as [d ->]; [apply (H 0%nat); simpl; lia|].
  destruct (IH cats) as [r ->]; [simpl in Hl; lia|intros k Hk; apply (H (S k)); simpl; lia|eauto].
Qed.
Lemma all_some_ok {A B} (f : A -> option B) l : (forall x, In x l -> exists y, f x = Some y) -> exists r, all_some (map f l) = Some r.
Proof.
  induction l as [|a l IH]; intros H; [exists []; auto|]. cbn [map all_some].
  destruct (H a) as [y ->]; [simpl; auto|]. destruct IH as [r ->]; [intros x Hx; apply H; simpl; auto|eauto].
Qed.
Theorem C53_frames_all_coded padding frames n :
  frames <> [] -> Forall (fun f => f <> []) frames -> Forall (rows_ok (repeat None n)) frames ->
  exists xs sa, multiple_new_alternative_codes (repeat None n) padding frames = Some (xs, sa) /\
    map (@length Z) xs = map (@length row) frames.
Proof.
  intros Hne Hf Hr. unfold multiple_new_alternative_codes.
  replace (_ || _) with false.
  2:{ symmetry. destruct frames as [|f0 fs]; [congruence|]. cbn [orb].
      apply not_true_iff_false. rewrite existsb_exists. intros [f [Hin Hx]]. rewrite Forall_forall in Hf.
      specialize (Hf f Hin). destruct f; congruence. }
  set (lo := clog2 _). set (alts := level_lists _ _).
  assert (La : length alts = n) by (unfold alts; rewrite level_lists_length, repeat_length; auto).
  assert (Hok : forall f, In f frames -> exists x, codes_of alts padding lo f = Some x).
  { intros f Hin. unfold codes_of.
    destruct (all_some_ok (fun r => digits_of alts (r_cats r)) f) as [dss ->]; [|eauto].
    intros r Hrin. apply digits_all.
    - rewrite Forall_forall in Hr. specialize (Hr f Hin). unfold rows_ok in Hr. rewrite Forall_forall in Hr.
      specialize (Hr r Hrin). rewrite repeat_length in Hr. lia.
    - intros k Hk. rewrite La in Hk. unfold alts, level_lists.
      set (F := fun p : nat * option (list Z) => level_alts (snd p) (fst p) (concat frames)).
      rewrite (nth_indep _ [] (F (0%nat, Some []))) by (rewrite map_length, combine_length, seq_length, repeat_length; lia).
      rewrite map_nth, combine_nth by (rewrite seq_length; auto).
      rewrite repeat_length, seq_nth by auto. unfold F. cbn [fst snd].
      assert (Hnr : forall m k, (k < m)%nat -> nth k (repeat (@None (list Z)) m) (Some []) = None).
      { induction m as [|m IH]; intros [|k0] Hlt; simpl; auto; try lia. apply IH. lia. }
      rewrite Hnr by auto. cbn [level_alts]. apply unique_in. apply in_map_iff.
      exists r. split; [reflexivity|]. apply in_concat. exists f. auto. }
  destruct (all_some_ok (codes_of alts padding lo) frames Hok) as [xs E]. rewrite E.
  eexists _, _. split; [reflexivity|].
  destruct (all_some_map _ _ _ ([] : list Z) E) as [Hl Hn].
  apply (nth_ext _ _ 0%nat 0%nat); [rewrite !map_length; auto|]. intros p Hp. rewrite map_length, Hl in Hp.
  rewrite (nth_indep _ 0%nat (length (@nil Z))) by (rewrite map_length; lia).
  rewrite (nth_indep (map _ frames) 0%nat (length (@nil row))) by (rewrite map_length; lia).
  rewrite !map_nth. destruct (codes_of_nth _ _ _ _ _ (Hn p [] Hp)) as [L _]. exact L.
Qed.
Example C53_frames_example :
  let frames := [[mkRow 1 [10]; mkRow 1 [20]; mkRow 1 [20]]; [mkRow 5 [30]; mkRow 5 [10]]] in
  Forall (rows_ok [None]) frames /\ (frames_bits [None] 4 frames <= 62)%nat /\
  exists sa, multiple_new_alternative_codes [None] 4 frames = Some ([[3; 5; 6]; [7; 3]], sa).
Proof.
  cbv zeta. split; [repeat constructor|]. split; [vm_compute; lia|]. eexists. vm_compute. reflexivity.
Qed.
(** Coding several frames at once records only the codes of the last one. *)
Theorem C53_multiple_codes_lost_refuted :
  exists f1 f2 x1 x2 sa, multiple_new_alternative_codes [None] 4 [f1; f2] = Some ([x1; x2], sa) /\
    ~ In (nth 0 x1 0) (sa_codes sa).
Proof.
  exists [mkRow 1 [10]; mkRow 1 [20]; mkRow 1 [20]; mkRow 1 [20]], [mkRow 1 [20]; mkRow 2 [20]]. eexists _, _, _.
  split; [vm_compute; reflexivity|]. vm_compute. intuition congruence.
Qed.
Definition ex_rows : list row :=
  [mkRow 1 [10; 7]; mkRow 1 [10; 7]; mkRow 1 [20; 7]; mkRow 1 [10; 7]; mkRow 2 [30; 8]; mkRow 2 [10; 8]].
Lemma ex_no_power : no_power_of_two ex_rows.
Proof.
  intros k. change (maxn (ordinals ex_rows)) with 3%nat. destruct k as [|[|k]]; [simpl; lia|simpl; lia|].
  rewrite !Nat.pow_succ_r'. lia.
Qed.
Example C53_example :
  rows_ok [None; None] ex_rows /\ (bits_needed [None; None] 4 ex_rows <= 62)%nat /\ no_power_of_two ex_rows /\
  exists x sa, new_alternative_codes [None; None] 4 ex_rows = Some (x, sa) /\ x = [37; 38; 69; 39; 105; 41].
Proof.
  split; [repeat constructor|]. split; [vm_compute; lia|]. split; [apply ex_no_power|]. eexists _, _. split; [vm_compute; reflexivity|reflexivity].
Qed.

(** ** C56 *)
(** The edges of the nesting: below the root the first-level nests, below each nest the nests of the
    next level that refine it, below the last nests the alternatives; with an OGEV coverage of c at
    a level every member belongs to its own nest and the c-1 following ones. *)
Theorem C56_edges complete padding rows x sa root coverage edges :
  new_alternative_codes complete padding rows = Some (x, sa) ->
  (bits_needed complete padding rows <= 62)%nat -> no_power_of_two rows ->
  (0 < length complete)%nat -> length coverage = length complete ->
  magic_ogev_nesting root sa coverage = Some edges ->
  let sizes := field_sizes complete padding rows in let g := length complete in
  forall p c, In (p, c) edges <->
    (exists a k e, In a x /\ (k < g)%nat /\ (e <= nth k coverage 0 - 1)%nat /\ c = nest_code sizes k e a /\
       match k with
       | O => p = root
       | S j => exists e', (e' <= nth j coverage 0 - 1)%nat /\ p = nest_code sizes j e' a
       end) \/
    (In c x /\ exists e', (e' <= nth (g - 1) coverage 0 - 1)%nat /\ p = nest_code sizes (g - 1) e' c).
Proof.
  intros H Hb Hp Hg Hc He sizes g p c. unfold magic_ogev_nesting in He. destruct (existsb _ coverage) eqn:Ex; [discriminate|].
  injection He as <-. rewrite (sa_mask_eq _ _ _ _ _ H Hb).
  assert (Hpad : forall k, (k < length complete)%nat -> (nth k coverage 0 - 1 <= padding)%nat).
  { intros k Hk. destruct (new_codes_nth _ _ _ _ _ H) as [_ Esa]. rewrite Esa in Ex. cbn [sa_padding] in Ex.
    destruct (Nat.leb_spec (nth k coverage 0 - 1)%nat padding); [auto|].
    assert (existsb (fun c0 => Nat.ltb padding (c0 - 1)) coverage = true); [|congruence].
    apply existsb_exists. exists (nth k coverage 0%nat). split; [apply nth_In; lia|]. apply Nat.ltb_lt. auto. }
  rewrite (levels_iff _ _ _ _ _ H Hb Hp root coverage Hc Hpad coverage 0%nat 0 0 0%nat Hg eq_refl ltac:(lia) I p c).
  unfold is_edge. split.
  - intros [(a & k & e & Ha & Hk & R)|R]; [left; exists a, k, e; split; [auto|split; [lia|auto]]|right; auto].
  - intros [(a & k & e & Ha & Hk & R)|R]; [left; exists a, k, e; split; [auto|split; [lia|auto]]|right; auto].
Qed.
Lemma ones_nth {A} (l : list A) k : (nth k (map (fun _ => 1%nat) l) 0 - 1 = 0)%nat.
Proof. revert k; induction l; intros [|k]; simpl; auto. Qed.
Lemma C56_plain complete padding rows x sa root edges :
  new_alternative_codes complete padding rows = Some (x, sa) ->
  (bits_needed complete padding rows <= 62)%nat -> no_power_of_two rows ->
  (0 < length complete)%nat -> magic_nesting root sa = Some edges ->
  let sizes := field_sizes complete padding rows in let g := length complete in
  forall p c, In (p, c) edges <->
    (exists a k, In a x /\ (k < g)%nat /\ c = nest_code sizes k 0 a /\
       match k with O => p = root | S j => p = nest_code sizes j 0 a end) \/
    (In c x /\ p = nest_code sizes (g - 1) 0 c).
Proof.
  intros H Hb Hp Hg He sizes g p c.
  assert (Hl : length (map (fun _ : list Z => 1%nat) (sa_cats sa)) = length complete).
  { destruct (new_codes_nth _ _ _ _ _ H) as [_ ->]. cbn [sa_cats]. rewrite map_length. apply level_lists_length. }
  rewrite (C56_edges _ _ _ _ _ root _ edges H Hb Hp Hg Hl He p c). fold sizes. fold g. split.
  - intros [(a & k & e & Ha & Hk & Hle & -> & Hm)|(Hc & e & Hle & ->)].
    + rewrite ones_nth in Hle. assert (e = 0)%nat as -> by lia. left. exists a, k. split; [auto|]. split; [auto|]. split; [auto|].
      destruct k as [|j]; [auto|]. destruct Hm as (e' & He' & ->). rewrite ones_nth in He'. assert (e' = 0)%nat as -> by lia. auto.
    + rewrite ones_nth in Hle. assert (e = 0)%nat as -> by lia. right. auto.
  - intros [(a & k & Ha & Hk & -> & Hm)|(Hc & ->)].
    + left. exists a, k, 0%nat. split; [auto|]. split; [auto|]. split; [lia|]. split; [auto|].
      destruct k as [|j]; [auto|]. exists 0%nat. split; [lia|auto].
    + right. split; [auto|]. exists 0%nat. split; [lia|auto].
Qed.
(** magic_nesting: every node has one parent, *)
Theorem C56_one_parent complete padding rows x sa root edges :
  new_alternative_codes complete padding rows = Some (x, sa) -> rows_ok complete rows ->
  (bits_needed complete padding rows <= 62)%nat -> no_power_of_two rows ->
  (0 < length complete)%nat -> magic_nesting root sa = Some edges ->
  forall p q c, In (p, c) edges -> In (q, c) edges -> p = q.
Proof.
  intros H Hr Hb Hp Hg He p q c H1 H2.
  pose proof (C56_plain _ _ _ _ _ _ _ H Hb Hp Hg He) as Ed. cbv zeta in Ed. apply Ed in H1. apply Ed in H2. clear Ed.
  destruct H1 as [(a & k & Ha & Hk & Ec & Hm)|(Hc & Ep)]; destruct H2 as [(b & j & Hb' & Hj & Ec' & Hm')|(Hc' & Ep')].
  - assert (k = j). { apply (nest_level_inj _ _ _ _ _ H Hb Hp a b k j); auto. congruence. } subst j.
    destruct k as [|k]; [congruence|]. rewrite Hm, Hm'.
    apply (nest_inj _ _ _ _ _ H Hb Hp a b (S k)); auto. congruence.
  - exfalso. apply (nest_not_code _ _ _ _ _ H Hb Hp a c k); auto.
  - exfalso. apply (nest_not_code _ _ _ _ _ H Hb Hp b c j); auto.
  - congruence.
Qed.
(** two alternatives have the same parent exactly when they agree in all categories, *)
Theorem C56_same_nest complete padding rows x sa root edges i j p q :
  new_alternative_codes complete padding rows = Some (x, sa) -> rows_ok complete rows ->
  (bits_needed complete padding rows <= 62)%nat -> no_power_of_two rows ->
  (0 < length complete)%nat -> magic_nesting root sa = Some edges ->
  (i < length rows)%nat -> (j < length rows)%nat -> In (p, nth i x 0) edges -> In (q, nth j x 0) edges ->
  (p = q <-> r_cats (nth i rows (mkRow 0 [])) = r_cats (nth j rows (mkRow 0 []))).
Proof.
  intros H Hr Hb Hp Hg He Hi Hj H1 H2.
  pose proof (C56_plain _ _ _ _ _ _ _ H Hb Hp Hg He) as Ed. cbv zeta in Ed.
  assert (Hx : forall m, (m < length rows)%nat -> In (nth m x 0) x).
  { intros m Hm. destruct (new_codes_nth _ _ _ _ _ H) as [Hc _]. destruct (codes_of_nth _ _ _ _ _ Hc) as [Hl _]. apply nth_In. lia. }
  assert (P : forall m p, (m < length rows)%nat -> In (p, nth m x 0) edges -> p = nest_code (field_sizes complete padding rows) (length complete - 1) 0 (nth m x 0)).
  { intros m p' Hm Hin. apply Ed in Hin. destruct Hin as [(a & k & Ha & Hk & Ec & _)|(_ & ->)]; auto.
    exfalso. apply (nest_not_code _ _ _ _ _ H Hb Hp a (nth m x 0) k); auto. }
  rewrite (P i p Hi H1), (P j q Hj H2).
  rewrite (nest_cats _ _ _ _ _ H Hb Hp Hr i j (length complete - 1) Hi Hj ltac:(lia)).
  assert (C : forall m, (m < length rows)%nat -> length (r_cats (nth m rows (mkRow 0 []))) = length complete).
  { intros m Hm. eapply Forall_forall in Hr; [exact Hr|]. now apply nth_In. }
  rewrite !firstn_all2 by (rewrite C; lia). reflexivity.
Qed.
(** and that parent is the nest named after these categories. *)
Theorem C56_parent_name complete padding rows x sa root edges i :
  new_alternative_codes complete padding rows = Some (x, sa) -> rows_ok complete rows ->
  (bits_needed complete padding rows <= 62)%nat -> no_power_of_two rows ->
  (0 < length complete)%nat -> magic_nesting root sa = Some edges -> (i < length rows)%nat ->
  exists p, In (p, nth i x 0) edges /\ alternative_name sa p = (map Cat (r_cats (nth i rows (mkRow 0 []))), 0).
Proof.
  intros H Hr Hb Hp Hg He Hi.
  assert (Hx : In (nth i x 0) x).
  { destruct (new_codes_nth _ _ _ _ _ H) as [Hc _]. destruct (codes_of_nth _ _ _ _ _ Hc) as [Hl _]. apply nth_In. lia. }
  exists (nest_code (field_sizes complete padding rows) (length complete - 1) 0 (nth i x 0)). split.
  - apply (C56_plain _ _ _ _ _ _ _ H Hb Hp Hg He). right. auto.
  - rewrite (nest_name _ _ _ _ _ H Hb Hp Hr i (length complete - 1) Hi ltac:(lia)).
    replace (length complete - S (length complete - 1))%nat with 0%nat by lia. cbn [repeat]. rewrite app_nil_r.
    rewrite firstn_all2; [auto|]. eapply Forall_forall in Hr; [rewrite Hr; lia|]. now apply nth_In.
Qed.
(** When every row is alone in its case and category, every alternative becomes its own parent. *)
Theorem C56_self_loop_refuted :
  exists rows x sa edges, new_alternative_codes [None] 4 rows = Some (x, sa) /\ rows_ok [None] rows /\
    magic_nesting 0 sa = Some edges /\ forall i, (i < length rows)%nat -> In (nth i x 0, nth i x 0) edges.
Proof.
  exists [mkRow 1 [10]; mkRow 1 [20]; mkRow 2 [10]]. eexists _, _, _. split; [vm_compute; reflexivity|].
  split; [repeat constructor|]. split; [vm_compute; reflexivity|].
  intros i Hi. destruct i as [|[|[|i]]]; simpl in Hi; try lia; vm_compute; intuition.
Qed.
Example C56_example : exists x sa edges,
  new_alternative_codes [None; None] 4 ex_rows = Some (x, sa) /\ magic_nesting 0 sa = Some edges /\ length edges = 13%nat.
Proof. eexists _, _, _. split; [vm_compute; reflexivity|]. split; [vm_compute; reflexivity|]. reflexivity. Qed.
