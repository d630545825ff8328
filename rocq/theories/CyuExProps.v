(** More theorems about the compiled engine's utilities (C64): agreement with the numba engine, row order,
    counterexamples and examples. *)
From Coq Require Import FunctionalExtensionality Sorting.Sorted.
From Coquelicot Require Import Coquelicot.
From Verif Require Import LabelProofs CeModel CeSpec CeProofs.
From Verif Require Import CyuProps.
Open Scope list_scope. Open Scope R_scope.

(** ---------- the two engines ---------- *)
Lemma cy_numba A par hold q qs ca co c n data : data_ok n data -> positive_sizes A q par c n ->
  (forall j, (j < n)%nat -> UtilityProofs.row_of (a_av A c) data j = if usable A c j then Some (xrow A c j) else None) ->
  (forall j, (j < n)%nat -> a_av A c j = true -> usable A c j = true) ->
  let num := utilities par hold n q qs ca co (a_av A c) data (a_co A c) in
  exists m, overflow_shift n (fst num) m /\ forall j, (j < n)%nat ->
    fst (fst (cy_case A par hold q qs ca co c n)) j = match fst num j with Some v => Some (v - m) | None => None end /\
    forall p, snd (fst (cy_case A par hold q qs ca co c n)) j p = snd num j p.
Proof.
  intros Hd Hs Hrow Hav num.
  assert (Hclosed : forall j, (j < n)%nat -> fst num j = fst (fst (raw A par hold q qs ca co c n)) j /\
     forall p, snd num j p = snd (fst (raw A par hold q qs ca co c n)) j p).
  { intros j Hj. destruct (utilities_closed par hold n q qs ca co (a_av A c) data (a_co A c) Hd) with (a := j) as [E1 E2]; auto.
    - intros Hq b x Hb Hbn. rewrite Hrow in Hb by auto. destruct (usable A c b) eqn:Eb; [|discriminate]. injection Hb as <-.
      apply Rgt_not_eq. apply (Hs Hq b); auto. now apply usable_row.
    - rewrite Hrow by auto. split; intros H.
      + rewrite (Hav j Hj H). congruence.
      + destruct (usable A c j) eqn:Eb; [|congruence]. unfold usable in Eb. now apply andb_prop in Eb as [Eb _].
    - fold num in E1, E2. rewrite Hrow in E1, E2 by auto.
      destruct (raw_at A par hold q qs ca co c n j Hj) as (F1 & _ & F3 & F4). cbv zeta in F1, F3, F4.
      destruct (usable A c j) eqn:Eu.
      + split.
        * rewrite E1. symmetry. apply (raw_textbook A par hold q qs ca co c n Hs); auto. now apply usable_row.
        * intros p. rewrite E2, F3; auto. intros Hq. apply (Hs Hq j); auto. now apply usable_row.
      + split; [now rewrite E1, F1|]. intros p. rewrite E2, F4 by auto. destruct (a_av A c j) eqn:Ea; auto. rewrite (Hav j Hj Ea) in Eu. discriminate. }
  exists (shift_amount n (fst num)). split; [apply shift_spec|].
  assert (Esh : shift_amount n (fst num) = shift_amount n (fst (fst (raw A par hold q qs ca co c n)))).
  { apply shift_unique. destruct (shift_spec n (fst num)) as [[E H]|(H1 & (i & Hi & E) & H2)]; [left|right].
    - split; auto. intros j v Hj Ej. apply (H j v Hj). now rewrite (proj1 (Hclosed j Hj)).
    - split; auto. split; [exists i; split; auto; now rewrite <- (proj1 (Hclosed i Hi))|]. intros j v Hj Ej. apply (H2 j v Hj). now rewrite (proj1 (Hclosed j Hj)). }
  intros j Hj. unfold cy_case. rewrite onecase_raw. cbn [fst snd]. destruct (Hclosed j Hj) as [C1 C2]. split.
  - rewrite guard_at, C1, Esh by auto. destruct (fst (fst (raw A par hold q qs ca co c n)) j); auto.
  - intros p. now rewrite C2.
Qed.
(** On dense data the two engines give the same derivatives and, up to the overflow shift, the same utilities. *)
Theorem C64_engines_agree : forall A par hold q qs ca co c n, a_rm A = None -> positive_sizes A q par c n ->
  let num := utilities par hold n q qs ca co (a_av A c) (Dense (a_ca A c)) (a_co A c) in
  exists m, overflow_shift n (fst num) m /\ forall j, (j < n)%nat ->
    fst (fst (cy_case A par hold q qs ca co c n)) j = match fst num j with Some v => Some (v - m) | None => None end /\
    forall p, snd (fst (cy_case A par hold q qs ca co c n)) j p = snd num j p.
Proof.
  intros A par hold q qs ca co c n Hrm Hs. apply cy_numba; cbn [data_ok]; auto.
  - intros j Hj. unfold UtilityProofs.row_of, usable, xrow, fetch, row_for. rewrite Hrm. destruct (a_av A c j); auto.
  - intros j Hj E. unfold usable, row_for. now rewrite Hrm, E.
Qed.
(** On sparse data too, provided the numba engine gets the rows of the case in increasing order (see
    C12_unsorted_refuted) and every available alternative has a row. *)
Theorem C64_engines_agree_sparse : forall A par hold q qs ca co c n rows, sorted_rows 0 n rows ->
  (forall j x, In (j, x) rows <-> (j < n)%nat /\ data_row A c j x) ->
  (forall j, (j < n)%nat -> a_av A c j = true -> exists x, data_row A c j x) -> positive_sizes A q par c n ->
  let num := utilities par hold n q qs ca co (a_av A c) (Sparse rows) (a_co A c) in
  exists m, overflow_shift n (fst num) m /\ forall j, (j < n)%nat ->
    fst (fst (cy_case A par hold q qs ca co c n)) j = match fst num j with Some v => Some (v - m) | None => None end /\
    forall p, snd (fst (cy_case A par hold q qs ca co c n)) j p = snd num j p.
Proof.
  intros A par hold q qs ca co c n rows Hso Hrows Hav Hs. apply cy_numba; auto.
  - intros j Hj. cbn [UtilityProofs.row_of].
    assert (Hlk : forall x, lookup rows j = Some x <-> data_row A c j x).
    { intros x. split.
      - intros E. apply lookup_some in E. now apply Hrows in E as [_ E].
      - intros Hx. assert (Hin : In (j, x) rows) by (apply Hrows; auto).
        clear -Hso Hin. revert Hso Hin. generalize 0%nat as lo. induction rows as [|[i y] r IH]; intros lo Hso Hin; [destruct Hin|].
        cbn [lookup fst snd]. destruct Hso as [H1 H2]. cbn [fst] in H1, H2. destruct Hin as [Hin|Hin].
        + injection Hin as -> ->. now rewrite Nat.eqb_refl.
        + destruct (Nat.eqb_spec i j) as [ ->|]; [|eapply IH; eauto]. exfalso.
          assert (GG : forall r lo, sorted_rows lo n r -> In (j, x) r -> (lo <= j)%nat).
          { induction r0 as [|[i' y'] r' IHr]; intros lo' Hs' Hi'; [destruct Hi'|]. destruct Hs' as [G1 G2]. cbn [fst] in G1, G2.
            destruct Hi' as [Hi'|Hi']; [injection Hi' as -> ->; lia|]. assert (G3 := IHr _ G2 Hi'). lia. }
          assert (G4 := GG r _ H2 Hin). lia. }
    destruct (usable A c j) eqn:Eu.
    + apply Hlk. now apply usable_row.
    + destruct (lookup rows j) as [x|] eqn:El; auto. exfalso. destruct (row_usable A c j x) as [E _]; [now apply Hlk|congruence].
  - intros j Hj E. destruct (Hav j Hj E) as [x Hx]. now apply row_usable in Hx as [Hx _].
Qed.

(** ---------- rows of idce data ---------- *)
(** The arrays made from a table of (case id, alternative) rows (dataframes.pyx 1638-1661). *)
Definition ce_arrays (rows : list ((Z * nat) * (nat -> R))) (co : nat -> nat -> R) (av : nat -> nat -> bool) : arrays :=
  mkArrays (Some (rm_cases (map fst rows), rm_alts (map fst rows), reversemap (map fst rows)))
    (fun i => nth i (map snd rows) (fun _ => 0)) (fun _ _ _ => 0) co av.
Definition case_ids (rows : list ((Z * nat) * (nat -> R))) : list Z := cases_of (map fst rows).
(** Each alternative gets the row that carries its own case id and alternative, wherever it stands in the table. *)
Theorem C64_ce_rows : forall rows co av c j x, NoDup (map fst rows) ->
  (data_row (ce_arrays rows co av) c j x <->
   av c j = true /\ (c < length (case_ids rows))%nat /\ In ((nth c (case_ids rows) 0%Z, j), x) rows).
Proof.
  intros rows co av c j x Hn. unfold data_row, ce_arrays. cbn [a_av a_rm a_ce]. set (ix := map fst rows) in *.
  assert (L : length ix = length rows) by (unfold ix; now rewrite map_length).
  assert (M1 : forall i, nth i ix (0%Z, 0%nat) = fst (nth i rows ((0%Z, 0%nat), fun _ => 0))) by (intros i; exact (map_nth fst rows ((0%Z, 0%nat), fun _ => 0) i)).
  assert (M2 : forall i, nth i (map snd rows) (fun _ => 0) = snd (nth i rows ((0%Z, 0%nat), fun _ => 0))) by (intros i; exact (map_nth snd rows ((0%Z, 0%nat), fun _ => 0) i)).
  split; intros [H1 H2]; split; auto.
  - destruct H2 as (L1 & L2 & i & E & ->). apply (reversemap_nodup ix c j i Hn) in E as (Hi & Hc & E1 & E2). split; auto.
    replace (nth c (case_ids rows) 0%Z, j) with (nth i ix (0%Z, 0%nat)).
    2:{ rewrite (surjective_pairing (nth i ix (0%Z, 0%nat))). f_equal; auto. }
    rewrite M1, M2, <- surjective_pairing. apply nth_In. lia.
  - destruct H2 as [Hc Hin]. apply In_nth with (d := ((0%Z, 0%nat), fun _ => 0)) in Hin as (i & Hi & E).
    assert (Hr : row_is ix i c j).
    { split; [lia|]. split; auto. rewrite M1, E. cbn [fst snd]. auto. }
    destruct (row_in_shape ix i c j Hr). split; auto. split; auto. exists i. split; [now apply reversemap_nodup|].
    now rewrite M2, E.
Qed.
Lemma cases_perm rows rows' : Permutation rows rows' -> case_ids rows = case_ids rows'.
Proof.
  intros P. unfold case_ids, cases_of.
  assert (S1 := unique_sorted (map fst (map fst rows))). assert (S2 := unique_sorted (map fst (map fst rows'))).
  assert (Hin : forall z, In z (unique (map fst (map fst rows))) <-> In z (unique (map fst (map fst rows')))).
  { intros z. rewrite !lunique_in. split; apply Permutation_in; [|apply Permutation_sym]; now do 2 apply Permutation_map. }
  assert (P' : Permutation (unique (map fst (map fst rows))) (unique (map fst (map fst rows')))).
  { apply NoDup_Permutation; auto; now apply sorted_nodup. }
  assert (G : forall l, StronglySorted Z.lt l -> StronglySorted Z.le l).
  { induction l as [|z l IH]; intros Hl; constructor; inversion Hl; subst; auto. eapply Forall_impl; [|eassumption]. intros; lia. }
  apply sorted_perm_eq; auto.
Qed.
(** So the order of the rows does not matter: utilities, quantities and derivatives are the same. *)
Theorem C64_row_order : forall rows rows' co av par hold q qs ca cot c n, NoDup (map fst rows) -> Permutation rows rows' ->
  positive_sizes (ce_arrays rows co av) q par c n ->
  let r := cy_case (ce_arrays rows co av) par hold q qs ca cot c n in
  let r' := cy_case (ce_arrays rows' co av) par hold q qs ca cot c n in
  forall j, (j < n)%nat -> fst (fst r) j = fst (fst r') j /\ snd r j = snd r' j /\ forall p, snd (fst r) j p = snd (fst r') j p.
Proof.
  intros rows rows' co av par hold q qs ca cot c n Hn P Hs r r'.
  assert (Hn' : NoDup (map fst rows')) by (eapply Permutation_NoDup; [apply Permutation_map; exact P|auto]).
  assert (Hd : forall j x, data_row (ce_arrays rows co av) c j x <-> data_row (ce_arrays rows' co av) c j x).
  { intros j x. rewrite !C64_ce_rows by auto. rewrite (cases_perm rows rows' P).
    split; intros (H1 & H2 & H3); repeat split; auto; [now apply (Permutation_in _ P)|now apply (Permutation_in _ (Permutation_sym P))]. }
  set (A := ce_arrays rows co av) in *. set (A' := ce_arrays rows' co av) in *.
  assert (Hu : forall j, usable A c j = usable A' c j).
  { intros j. destruct (usable A c j) eqn:E, (usable A' c j) eqn:E'; auto.
    - apply usable_row in E. apply Hd, row_usable in E as [E _]. congruence.
    - apply usable_row in E'. apply Hd, row_usable in E' as [E' _]. congruence. }
  assert (Hx : forall j, usable A c j = true -> xrow A c j = xrow A' c j).
  { intros j E. apply usable_row in E. apply Hd, row_usable in E as [_ E]. auto. }
  assert (Hraw : forall j, (j < n)%nat -> fst (fst (raw A par hold q qs ca cot c n)) j = fst (fst (raw A' par hold q qs ca cot c n)) j /\
     snd (raw A par hold q qs ca cot c n) j = snd (raw A' par hold q qs ca cot c n) j /\
     forall p, snd (fst (raw A par hold q qs ca cot c n)) j p = snd (fst (raw A' par hold q qs ca cot c n)) j p).
  { intros j Hj. destruct (raw_at A par hold q qs ca cot c n j Hj) as (E1 & E2 & E3 & E4). destruct (raw_at A' par hold q qs ca cot c n j Hj) as (F1 & F2 & F3 & F4).
    cbv zeta in *. rewrite E1, E2, F1, F2, <- Hu. destruct (usable A c j) eqn:Eu.
    - assert (Ex := Hx j Eu). rewrite <- Ex in *. unfold tot, base. rewrite <- Ex. split; auto. split; auto. intros p.
      assert (Hp : q <> nil -> 0 < size q (xrow A c j) par) by (intros Hq; apply (Hs Hq j); auto; now apply usable_row).
      rewrite E3, F3 by (auto; now rewrite <- Hu). auto.
    - split; auto. split; auto. intros p. rewrite E4, F4 by (auto; now rewrite <- Hu). auto. }
  assert (Esh : shift_amount n (fst (fst (raw A par hold q qs ca cot c n))) = shift_amount n (fst (fst (raw A' par hold q qs ca cot c n)))).
  { apply shift_unique. destruct (shift_spec n (fst (fst (raw A par hold q qs ca cot c n)))) as [[E H]|(H1 & (i & Hi & E) & H2)]; [left|right].
    - split; auto. intros j v Hj Ej. apply (H j v Hj). now rewrite (proj1 (Hraw j Hj)).
    - split; auto. split; [exists i; split; auto; now rewrite <- (proj1 (Hraw i Hi))|]. intros j v Hj Ej. apply (H2 j v Hj). now rewrite (proj1 (Hraw j Hj)). }
  intros j Hj. unfold r, r', cy_case. rewrite !onecase_raw. cbn [fst snd]. destruct (Hraw j Hj) as (C1 & C2 & C3).
  split; [now rewrite !guard_at, C1, Esh by auto|]. split; auto.
Qed.

(** ---------- counterexamples ---------- *)
(** [link_to_model_parameters] does not update the scale of the quantity: with the scale moved from 1 to 2, an
    alternative of log size 1 keeps utility 1 instead of 2. *)
Theorem C64_stale_scale_refuted : exists A par par' hold q qs,
  fst (utility_onecase A (link_to_model_parameters par hold (read_in par' hold (link_structure q qs nil nil 0 false))) 0 1) 0%nat = Some 1 /\
  fst (utility_onecase A (read_in par hold (read_in par' hold (link_structure q qs nil nil 0 false))) 0 1) 0%nat = Some 2 /\
  exists x, data_row A 0 0 x /\ total_utility q qs nil nil 0 x (a_co A 0) par = 2.
Proof.
  set (A := mkArrays None (fun _ _ => 0) (fun _ _ _ => 1) (fun _ _ => 0) (fun _ _ => true)).
  exists A, (fun p => match p with O => 1 | _ => 2 end), (fun p => 1), (fun _ => false), (mkTerm 1 0 0 :: nil), (Some 1%nat).
  assert (Hl : forall k, k_q k = mkL (exp 1) 1 false 0 0 :: nil -> k_ca k = nil -> k_co k = nil -> k_qval k < 400 ->
    fst (utility_onecase A k 0 1) 0%nat = Some (k_qval k)).
  { intros k E1 E2 E3 E4. unfold utility_onecase. cbn [seq fold_left]. unfold u_alt. cbn [usable a_av A row_for a_rm andb]. rewrite E1, E2, E3. cbn [fold_left fst].
    unfold q_step1, fetch, row_for. cbn [a_rm A a_ca l_data l_val l_scale].
    assert (Ez : addU (fun _ : nat => Some 0) 0 (1 * (exp 1 * 1)) 0%nat = Some (exp 1)).
    { unfold addU. rewrite upd_eq. f_equal. ring. }
    rewrite guard_at by lia. rewrite Ez. cbn [clog]. destruct (Rlt_dec 0 (exp 1)) as [_|N]; [|exfalso; apply N, exp_pos]. rewrite ln_exp. cbn [cscale].
    unfold shift_amount, max_U. cbn [seq fold_left]. rewrite upd_eq. cbn [oplus].
    destruct (Rlt_dec 0 (1 * k_qval k)); [destruct (Rlt_dec 500 (1 * k_qval k)); [lra|f_equal; ring]|destruct (Rlt_dec 500 0); [lra|f_equal; ring]]. }
  split; [|split].
  - rewrite Hl; cbn; auto; lra.
  - rewrite Hl; cbn; auto; lra.
  - exists (fun _ => 1). split; [split; reflexivity|]. unfold total_utility, log_size, size, linear_ca, linear_co. cbn [Rsum fold_right t_scale t_data t_par].
    replace (1 * 1 * exp 1 + 0) with (exp 1) by ring. rewrite ln_exp. ring.
Qed.
(** A parameter in two quantity terms: the code divides by the size twice; reported 1/2, true derivative 1. *)
Theorem C64_repeated_parameter_refuted : exists A par hold q x,
  data_row A 0 0 x /\ 0 < size q x par /\ hold 0%nat = false /\
  is_derive (fun t => total_utility q None nil nil 0 x (a_co A 0) (upd par 0 t)) (par 0%nat) 1 /\
  snd (fst (cy_case A par hold q None nil nil 0 1)) 0%nat 0%nat = / 2.
Proof.
  set (A := mkArrays None (fun _ _ => 0) (fun _ _ _ => 1) (fun _ _ => 0) (fun _ _ => true)).
  set (q := mkTerm 1 0 0 :: mkTerm 1 0 0 :: nil).
  exists A, (fun _ => 0), (fun _ => false), q, (fun _ => 1).
  assert (Hsz : forall par, size q (fun _ => 1) par = 2 * exp (par 0%nat)) by (intros; unfold size, q; cbn; ring).
  assert (Hp : 0 < size q (fun _ => 1) (fun _ => 0)) by (rewrite Hsz, exp_0; lra).
  split; [split; reflexivity|]. split; [exact Hp|]. split; [auto|]. split.
  - eapply is_derive_ext with (f := fun t => ln 2 + t).
    + intros t. unfold total_utility, log_size. unfold q at 1. fold q. rewrite Hsz. unfold linear_ca, linear_co, upd. cbn.
      rewrite ln_mult, ln_exp by (try lra; apply exp_pos). ring.
    + replace 1 with (0 + 1) by ring. apply (d_plus (fun _ => ln 2) (fun t => t)); [apply @is_derive_const|apply @is_derive_id].
  - unfold cy_case. rewrite onecase_raw. cbn [fst snd]. destruct (raw_at A (fun _ => 0) (fun _ => false) q None nil nil 0 1 0 ltac:(lia)) as (_ & _ & E & _).
    cbv zeta in E. assert (Ex : xrow A 0 0 = fun _ => 1) by reflexivity. rewrite Ex in E. rewrite E by auto.
    unfold dq. unfold q at 1. fold q. rewrite Hsz. unfold qcoef, q, coef_ca, coef_co, count. cbn. rewrite exp_0. unfold q_scale_value. field.
Qed.
(** An alternative that is available but has no row: its utility is minus infinity, yet its idco terms are entered in
    the derivative. *)
Theorem C64_missing_row_derivative_refuted : exists A par hold co,
  no_data A 0 0 /\ fst (fst (cy_case A par hold nil None nil co 0 1)) 0%nat = None /\
  snd (fst (cy_case A par hold nil None nil co 0 1)) 0%nat 0%nat = 1.
Proof.
  set (A := mkArrays (Some (1, 1, fun _ _ => None)%nat) (fun _ _ => 0) (fun _ _ _ => 0) (fun _ _ => 0) (fun _ _ => true)).
  exists A, (fun _ => 0), (fun _ => false), (mkCo 0 1 0 None :: nil).
  assert (Hn : usable A 0 0 = false) by reflexivity.
  split; [now apply no_data_usable|]. unfold cy_case. rewrite onecase_raw. cbn [fst snd].
  destruct (raw_at A (fun _ => 0) (fun _ => false) nil None nil (mkCo 0 1 0 None :: nil) 0 1 0 ltac:(lia)) as (E1 & _ & _ & E4). cbv zeta in E1, E4.
  split; [rewrite guard_at, E1, Hn by lia; reflexivity|]. rewrite E4 by auto. cbn [a_av A]. unfold coef_co, co_value. cbn. ring.
Qed.

(** ---------- an example ---------- *)
(** Two cases, table out of order; in the second case alternative 1 has no row, alternative 2 is not available; an idca
    term, a constant on alternative 2, a size term with a scale parameter. *)
Definition ex_rows : list ((Z * nat) * (nat -> R)) :=
  ((20%Z, 0%nat), fun d => INR d + 1) :: ((10%Z, 1%nat), fun d => INR d + 2) :: ((10%Z, 0%nat), fun d => INR d + 3) :: ((20%Z, 2%nat), fun d => INR d + 4) :: nil.
Definition ex_arrays := ce_arrays ex_rows (fun _ _ => 1) (fun c a => negb ((c =? 1) && (a =? 2))%nat).
Definition ex_q := mkTerm 1 0 0 :: mkTerm 2 1 1 :: nil.
Example C64_case :
  NoDup (map fst ex_rows) /\ case_ids ex_rows = (10%Z :: 20%Z :: nil) /\
  data_row ex_arrays 1 0 (fun d => INR d + 1) /\ no_data ex_arrays 1 1 /\ no_data ex_arrays 1 2 /\
  (forall par c, positive_sizes ex_arrays ex_q par c 3) /\ (forall p, (count ex_q p <= 1)%nat).
Proof.
  assert (Hn : NoDup (map fst ex_rows)). { cbn. repeat constructor; cbn; intuition congruence. }
  split; [exact Hn|]. split; [reflexivity|]. split; [apply (C64_ce_rows ex_rows _ _ 1 0); auto; cbn; repeat split; auto; lia|].
  split; [now apply no_data_usable|]. split; [now apply no_data_usable|]. split.
  - intros par c Hq j x Hj Hx. apply (C64_ce_rows ex_rows _ _ c j x Hn) in Hx as (_ & _ & Hx). cbn in Hx.
    assert (Hd : exists b, 0 < b /\ x = fun d => INR d + b).
    { destruct Hx as [Hx|[Hx|[Hx|[Hx|[]]]]]; injection Hx as _ _ <-; eexists; (split; [|reflexivity]); lra. }
    destruct Hd as (b & Hb & ->). unfold size, ex_q. cbn [Rsum fold_right t_scale t_data t_par INR].
    assert (E1 := exp_pos (par 0%nat)). assert (E2 := exp_pos (par 1%nat)).
    assert (0 < 1 * (0 + b) * exp (par 0%nat)) by (apply Rmult_lt_0_compat; [lra|auto]).
    assert (0 < 2 * (1 + b) * exp (par 1%nat)) by (apply Rmult_lt_0_compat; [lra|auto]). lra.
  - intros [|[|p]]; cbn; lia.
Qed.
