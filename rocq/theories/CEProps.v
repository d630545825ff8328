(** Properties C14, C15, C16 (sparse part). *)
From Coq Require Import Sorted.
From Verif Require Import CEProofs.

(** ---------------------------------------------------------------- C14 *)
(** C14 to C16 are partial: the hypothesis [good_pointers] excludes cases without rows, for
    which the code is wrong (C14_empty_case_refuted, C16_empty_case_refuted); pointers made by
    from_idce always satisfy it (C15_blocks_have_one_case). *)
(** No alternative has two rows in one case. *)
Definition unique_rows (ptrs altidx : list nat) : Prop :=
  forall c r r', in_case ptrs c r -> in_case ptrs c r' -> nth r altidx 0 = nth r' altidx 0 -> r = r'.
Theorem C14_sparse_to_dense_partial :
  forall A (zero d : A) ptrs n_alts altidx (data : list A),
  good_pointers ptrs (length data) -> length altidx = length data ->
  (forall r, r < length data -> nth r altidx 0 < n_alts) -> unique_rows ptrs altidx ->
  exists out, ce_to_dense zero (ends_1d ptrs) n_alts altidx data = Some out /\
    (forall c r, in_case ptrs c r -> out c (nth r altidx 0) = nth r data d) /\
    (forall c a, (forall r, in_case ptrs c r -> nth r altidx 0 <> a) -> out c a = zero).
Proof.
  intros A zero d ptrs n_alts altidx data G HL Ha Hu.
  destruct (dense_inv ptrs n_alts altidx data zero d G HL Ha (length data) (le_n _)) as [c [out [E [_ Ho]]]].
  exists out. unfold ce_to_dense. rewrite E. split; auto. split.
  - intros k r Hk. assert (Hr := in_case_lt _ _ G _ _ Hk).
    destruct (Ho k (nth r altidx 0)) as [[r' [R1 [R2 [R3 [R4 _]]]]]|[_ R2]].
    + rewrite R4. f_equal. eapply Hu; eauto.
    + exfalso. eapply R2; eauto.
  - intros k a Hn. destruct (Ho k a) as [[r [R1 [R2 [R3 _]]]]|[R1 _]]; auto. exfalso. eapply Hn; eauto.
Qed.
(** Availability is 1 exactly at the pairs that have a row, 0 elsewhere (repeated rows allowed). *)
Theorem C14_availability_partial :
  forall ptrs n_alts altidx,
  good_pointers ptrs (length altidx) -> (forall r, r < length altidx -> nth r altidx 0 < n_alts) ->
  exists out, ce_bool_to_dense (ends_1d ptrs) n_alts altidx = Some out /\
    forall c a, (out c a = 1 /\ exists r, in_case ptrs c r /\ nth r altidx 0 = a) \/
                (out c a = 0 /\ ~ exists r, in_case ptrs c r /\ nth r altidx 0 = a).
Proof.
  intros ptrs n_alts altidx G Ha. rewrite bool_is_dense.
  assert (HL : length (repeat 1 (length altidx)) = length altidx) by apply repeat_length.
  destruct (dense_inv ptrs n_alts altidx (repeat 1 (length altidx)) 0 1) with (m := length altidx) as [c [out [E [_ Ho]]]]; rewrite ?HL; auto.
  exists out. unfold ce_to_dense. rewrite HL, E. split; auto. intros k a.
  destruct (Ho k a) as [[r [R1 [R2 [R3 [R4 _]]]]]|[R1 R2]].
  - left. rewrite R4, nth_repeat. eauto.
  - right. split; auto. intros [r [Hr1 Hr2]]. eapply R2; eauto. eapply in_case_lt; eauto.
Qed.
(** The two forms of pointers the code accepts give the same result. *)
Theorem C14_pointer_forms : forall A (zero : A) ptrs n_alts altidx data,
  ce_to_dense zero (ends_2d (windows ptrs)) n_alts altidx data = ce_to_dense zero (ends_1d ptrs) n_alts altidx data.
Proof. intros. rewrite ends_agree. auto. Qed.
(** An empty case shifts the following rows: pointers [0;1;1;2] say that row 1 belongs to the
    third case, but it is written to the second. *)
Theorem C14_empty_case_refuted :
  exists ptrs altidx data out,
    in_case ptrs 2 1 /\ ~ in_case ptrs 1 1 /\
    ce_to_dense 0 (ends_1d ptrs) 1 altidx data = Some out /\ nth 1 data 0 = 7 /\ out 2 0 = 0 /\ out 1 0 = 7.
Proof.
  exists [0; 1; 1; 2], [0; 0], [5; 7]. eexists. split; [split; simpl; lia|]. split; [intros [_ H]; simpl in H; lia|].
  split; [reflexivity|]. repeat split.
Qed.
Example C14_case :
  let ptrs := [0; 2; 3; 5] in let altidx := [0; 2; 1; 0; 1] in
  good_pointers ptrs 5 /\ unique_rows ptrs altidx /\
  option_map (fun out => (out 0 0, out 0 1, out 0 2, out 1 1, out 2 0, out 2 1)) (ce_to_dense 0 (ends_1d ptrs) 3 altidx [10; 20; 30; 40; 50])
    = Some (10, 0, 20, 30, 40, 50).
Proof.
  cbv zeta. split; [|split; [|reflexivity]].
  - split; [reflexivity|split; [reflexivity|]]. intros c Hc. simpl in Hc. destruct c as [|[|[|c]]]; simpl; lia.
  - intros c r r' [H1 H2] [_ H3]. simpl in H1. destruct c as [|[|[|c]]]; simpl in H2, H3; [| | |lia].
    + destruct r as [|[|r]], r' as [|[|r']]; simpl; lia.
    + lia.
    + assert (r = 3 \/ r = 4) as [ ->| ->] by lia; assert (r' = 3 \/ r' = 4) as [ ->| ->] by lia; simpl; lia.
Qed.

(** ---------------------------------------------------------------- C15 *)
Lemma filter_seq_sorted f k m : StronglySorted lt (filter f (seq k m)).
Proof.
  revert k. induction m as [|m IH]; intros k; simpl; [constructor|].
  destruct (f k); auto. constructor; auto. apply Forall_forall. intros x Hx. apply filter_In in Hx. destruct Hx as [Hx _].
  apply in_seq in Hx. lia.
Qed.
Lemma sorted_nth l : StronglySorted lt l -> forall c, S c < length l -> nth c l 0 < nth (S c) l 0.
Proof.
  induction 1 as [|x l Hs IH Hf]; simpl; intros c Hc; [lia|]. destruct c; [|apply IH; lia].
  rewrite Forall_forall in Hf. apply Hf. apply nth_In. lia.
Qed.
Lemma idce_split codes : codes <> [] -> idce_pointers codes =
  filter (fun i => (i =? 0) || negb (nth i codes 0 =? nth (i - 1) codes 0)) (seq 0 (length codes)) ++ [length codes].
Proof.
  intros Hn. unfold idce_pointers. rewrite seq_S, filter_app. f_equal.
  - apply filter_ext_in. intros i Hi. apply in_seq in Hi. destruct (Nat.eqb_spec i (length codes)); [lia|]. rewrite orb_false_r. auto.
  - cbn [filter plus]. rewrite Nat.eqb_refl, orb_true_r. auto.
Qed.
Lemma idce_good codes : codes <> [] -> good_pointers (idce_pointers codes) (length codes).
Proof.
  intros Hn. split; [|split].
  - unfold idce_pointers. reflexivity.
  - rewrite idce_split by auto. rewrite app_length. simpl. rewrite Nat.add_sub. rewrite nth_error_app2 by lia.
    rewrite Nat.sub_diag. auto.
  - apply sorted_nth. apply filter_seq_sorted.
Qed.
(** Whatever the order of the rows: the pointers are well formed and the rows of one pointer
    block share their case code. *)
Theorem C15_blocks_have_one_case : forall codes, codes <> [] ->
  good_pointers (idce_pointers codes) (length codes) /\
  forall c r r', in_case (idce_pointers codes) c r -> in_case (idce_pointers codes) c r' -> nth r codes 0 = nth r' codes 0.
Proof.
  intros codes Hn. assert (G := idce_good codes Hn). split; auto.
  assert (Hp : forall c r, in_case (idce_pointers codes) c r -> nth r codes 0 = nth (nth c (idce_pointers codes) 0) codes 0).
  { intros c r. induction r as [|r IH]; intros [H1 [H2 H3]].
    - assert (nth c (idce_pointers codes) 0 = 0) as -> by lia. auto.
    - destruct (Nat.eq_dec (S r) (nth c (idce_pointers codes) 0)) as [ <-|Hne]; auto.
      rewrite <- IH by (split; lia).
      destruct (Nat.eq_dec (nth (S r) codes 0) (nth r codes 0)) as [|Hd]; auto. exfalso.
      assert (Hlt : S r < length codes) by (eapply in_case_lt; eauto; split; eauto).
      assert (Hi : In (S r) (idce_pointers codes)).
      { unfold idce_pointers. apply filter_In. split; [apply in_seq; lia|]. simpl. rewrite Nat.sub_0_r.
        destruct (Nat.eqb_spec (nth (S r) codes 0) (nth r codes 0)); [contradiction|]. simpl. apply orb_true_r. }
      apply In_nth with (d := 0) in Hi. destruct Hi as [k [K1 K2]].
      destruct (Nat.lt_trichotomy k (S c)) as [Hk|[ ->|Hk]].
      + destruct (Nat.eq_dec k c) as [ ->|]; [lia|].
        assert (nth k (idce_pointers codes) 0 < nth c (idce_pointers codes) 0) by (apply (ptrs_mono _ _ G); lia). lia.
      + lia.
      + assert (nth (S c) (idce_pointers codes) 0 < nth k (idce_pointers codes) 0) by (apply (ptrs_mono _ _ G); lia). lia. }
  intros c r r' H1 H2. rewrite (Hp c r), (Hp c r'); auto.
Qed.
(** Rows sorted by case and every case id used: block [c] is exactly the rows of the [c]-th
    case id, there is one block per case id, and the rebuilt index is the case code. *)
Definition sorted_codes (codes : list nat) : Prop :=
  codes <> [] /\ nth 0 codes 0 = 0 /\
  forall r, S r < length codes -> nth (S r) codes 0 = nth r codes 0 \/ nth (S r) codes 0 = S (nth r codes 0).
Theorem C15_pointers_delimit_cases_partial : forall codes, sorted_codes codes ->
  length (idce_pointers codes) = S (S (nth (length codes - 1) codes 0)) /\
  (forall c r, in_case (idce_pointers codes) c r <-> r < length codes /\ nth r codes 0 = c) /\
  case_ptr_to_indexes (length codes) (idce_pointers codes) = codes.
Proof.
  intros codes [Hn [H0 Hs]]. assert (Hlen : 0 < length codes) by (destruct codes; simpl; [congruence|lia]).
  assert (G := idce_good codes Hn).
  destruct (codes_step codes Hs H0 (length codes) (le_n _) Hlen) as [I1 I2].
  assert (Es := idce_split codes Hn). set (ps := filter _ (seq 0 (length codes))) in *.
  assert (Hiff : forall c r, in_case (idce_pointers codes) c r <-> r < length codes /\ nth r codes 0 = c).
  { assert (H1 : forall c r, in_case (idce_pointers codes) c r -> r < length codes /\ nth r codes 0 = c).
    { intros c r Hc. assert (Hr := in_case_lt _ _ G _ _ Hc). split; auto.
      destruct (C15_blocks_have_one_case codes Hn) as [_ Hb].
      assert (Hc0 : in_case (idce_pointers codes) c (nth c (idce_pointers codes) 0)) by (destruct Hc; split; lia).
      rewrite (Hb c r _ Hc Hc0). rewrite Es. destruct Hc as [Hc1 _]. rewrite Es, app_length in Hc1. simpl in Hc1.
      rewrite app_nth1 by lia. apply I2. lia. }
    intros c r. split; auto. intros [Hr <-]. destruct (in_case_exists _ _ G r Hr) as [k Hk].
    destruct (H1 k r Hk) as [_ ->]. auto. }
  split; [rewrite Es, app_length, I1; simpl; lia|]. split; auto.
  unfold case_ptr_to_indexes. apply nth_ext with (d := 0) (d' := 0); [rewrite map_length, seq_length; auto|].
  rewrite map_length, seq_length. intros r Hr.
  set (f := fold_left _ _ _). change 0 with (f 0) at 1 || idtac.
  rewrite nth_indep with (d' := f 0) by (rewrite map_length, seq_length; auto).
  rewrite map_nth, seq_nth by auto. simpl. apply (ptr_fold _ _ G). apply Hiff. auto.
Qed.
(** Rebuilding the index from any well-formed pointers labels each row with its case. *)
Theorem C15_index_from_pointers : forall ptrs n r c, good_pointers ptrs n -> in_case ptrs c r ->
  nth r (case_ptr_to_indexes n ptrs) 0 = c.
Proof.
  intros ptrs n r c G Hc. unfold case_ptr_to_indexes. set (f := fold_left _ _ _).
  assert (Hr := in_case_lt _ _ G _ _ Hc).
  rewrite nth_indep with (d' := f 0) by (rewrite map_length, seq_length; auto).
  rewrite map_nth, seq_nth by auto. simpl. eapply ptr_fold; eauto.
Qed.
Example C15_case : sorted_codes [0; 0; 1; 2; 2; 2] /\ idce_pointers [0; 0; 1; 2; 2; 2] = [0; 2; 3; 6] /\
  case_ptr_to_indexes 6 [0; 2; 3; 6] = [0; 0; 1; 2; 2; 2].
Proof.
  split; [|split; reflexivity]. split; [discriminate|]. split; auto. intros r Hr. simpl in Hr.
  destruct r as [|[|[|[|[|r]]]]]; simpl; auto; lia.
Qed.
(** from_idce pairs block [c] with the [c]-th entry of the sorted case ids.  Rows of case id
    1 before those of case id 0 swap the two cases; a case id without rows shifts them. *)
Theorem C15_unsorted_refuted :
  exists codes r, r < length codes /\ nth r (case_ptr_to_indexes (length codes) (idce_pointers codes)) 0 <> nth r codes 0.
Proof. exists [1; 0], 0. split; [simpl; lia|]. vm_compute. discriminate. Qed.
Theorem C15_unused_level_refuted :
  exists codes r, (forall i j, i < j < length codes -> nth i codes 0 <= nth j codes 0) /\ r < length codes /\
    nth r (case_ptr_to_indexes (length codes) (idce_pointers codes)) 0 <> nth r codes 0.
Proof. exists [1; 2], 0. split; [|split; [simpl; lia|vm_compute; discriminate]]. intros i j H. simpl in H. assert (i = 0) as -> by lia. assert (j = 1) as -> by lia. simpl. lia. Qed.

(** ---------------------------------------------------------------- C16 *)
(** [same] is float equality: true only on equal values (false on NaN). *)
Theorem C16_dissolved_value_is_the_constant_partial :
  forall A (same : A -> A -> bool) zero ptrs (data : list A) d out,
  (forall x y, same x y = true -> x = y) ->
  good_pointers ptrs (length data) -> data <> [] ->
  ce_dissolve_zero_variance same zero (ends_1d ptrs) data = Some (Some out) ->
  forall c r, in_case ptrs c r -> out c = nth r data d.
Proof.
  intros A same zero ptrs data d out Hs G Hn E c r Hc. destruct data as [|v0 rest]; [congruence|]. set (data := v0 :: rest) in *.
  unfold ce_dissolve_zero_variance in E. fold data in E. cbn iota in E.
  destruct (ends_1d ptrs) as [|e0 es] eqn:Ee; [simpl in E; unfold data in E; discriminate|]. rewrite <- Ee in E.
  destruct (dissolve_inv same zero ptrs data d G v0 eq_refl (length data) (le_n _)) as [[k [o [E1 [_ [Q [O0 O]]]]]]|[E1 _]].
  - unfold data in E at 1. rewrite E1 in E. injection E as <-. assert (Hr := in_case_lt _ _ G _ _ Hc).
    rewrite (O c r Hr Hc). destruct (Nat.eq_dec r (nth c ptrs 0)) as [ ->|Hne]; auto.
  - unfold data in E at 1. rewrite E1 in E. discriminate.
Qed.
(** It answers for every input, and reports variance only if two rows of a case differ. *)
Theorem C16_dissolves_constants_partial :
  forall A (same : A -> A -> bool) zero ptrs (data : list A) d,
  (forall x y, same x y = true -> x = y) ->
  good_pointers ptrs (length data) -> data <> [] ->
  (exists out, ce_dissolve_zero_variance same zero (ends_1d ptrs) data = Some (Some out)) \/
  (ce_dissolve_zero_variance same zero (ends_1d ptrs) data = Some None /\
   exists c r r', in_case ptrs c r /\ in_case ptrs c r' /\ same (nth r data d) (nth r' data d) = false).
Proof.
  intros A same zero ptrs data d Hs G Hn. destruct data as [|v0 rest]; [congruence|]. set (data := v0 :: rest) in *.
  assert (HG := ptrs_len ptrs _ G). assert (Hl := in_case_exists ptrs _ G 0 ltac:(unfold data; simpl; lia)).
  destruct (ends_1d ptrs) as [|e0 es] eqn:Ee.
  { exfalso. destruct Hl as [k [Hk _]]. assert (length (ends_1d ptrs) = 0) by (rewrite Ee; auto). rewrite len_ends in H. lia. }
  rewrite <- Ee.
  assert (EE : ce_dissolve_zero_variance same zero (ends_1d ptrs) data =
    match fold_left (dissolve_step same (ends_1d ptrs) data) (seq 0 (length data))
            (Some (Some (0, fun i => if i =? 0 then v0 else zero))) with
    | Some (Some (_, out)) => Some (Some out) | Some None => Some None | None => None end).
  { unfold ce_dissolve_zero_variance. rewrite Ee. reflexivity. }
  rewrite EE.
  destruct (dissolve_inv same zero ptrs data d G v0 eq_refl (length data) (le_n _)) as [[k [o [E1 [_ [Q [O0 O]]]]]]|[E1 Q]].
  - left. rewrite E1. eauto.
  - right. rewrite E1. split; auto.
    (* search for the witness among finitely many rows *)
    assert (Hdec : forall m, m <= length data ->
      (exists c r r', in_case ptrs c r /\ in_case ptrs c r' /\ same (nth r data d) (nth r' data d) = false) \/ quiet same ptrs data d m).
    { induction m as [|m IH]; intros Hm; [right; intros c r Hr; lia|].
      destruct (IH ltac:(lia)) as [H|H]; auto. destruct (in_case_exists ptrs _ G m ltac:(lia)) as [c Hc].
      destruct (same (nth (nth c ptrs 0) data d) (nth m data d)) eqn:Es.
      - right. intros c' r Hr Hcr Hnr. destruct (Nat.eq_dec r m) as [ ->|]; [|apply H; auto; lia].
        assert (c' = c) as -> by (eapply in_case_unique; eauto). auto.
      - left. exists c, (nth c ptrs 0), m. split; [destruct Hc; split; lia|]. auto. }
    destruct (Hdec (length data) (le_n _)) as [H|H]; auto. contradiction.
Qed.
Example C16_case :
  let ptrs := [0; 2; 3; 5] in
  good_pointers ptrs 5 /\
  option_map (option_map (fun out => (out 0, out 1, out 2))) (ce_dissolve_zero_variance Nat.eqb 0 (ends_1d ptrs) [4; 4; 7; 9; 9]) = Some (Some (4, 7, 9)) /\
  ce_dissolve_zero_variance Nat.eqb 0 (ends_1d ptrs) [4; 4; 7; 9; 8] = Some None.
Proof.
  cbv zeta. split; [|split; reflexivity]. split; [reflexivity|split; [reflexivity|]].
  intros c Hc. simpl in Hc. destruct c as [|[|[|c]]]; simpl; lia.
Qed.
(** With an empty case the value is stored under the wrong case. *)
Theorem C16_empty_case_refuted :
  exists ptrs data out, in_case ptrs 2 1 /\
    ce_dissolve_zero_variance Nat.eqb 0 (ends_1d ptrs) data = Some (Some out) /\ out 2 <> nth 1 data 0.
Proof.
  exists [0; 1; 1; 2], [5; 7]. eexists. split; [split; simpl; lia|]. split; [reflexivity|]. simpl. lia.
Qed.
