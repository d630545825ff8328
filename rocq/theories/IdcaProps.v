(** C65: reading a table of cases and alternatives puts every row in its own cell. *)
From Verif Require Import IdcaCells IdcaShuffle.
From Coq Require Import Lqa Permutation.
Open Scope nat_scope.
Open Scope string_scope.

(** A table of two cases and three alternatives without rows for two of the six pairs. *)
Definition trips : table := {|
  t_cases := [7; 8]%Z; t_alts := AInt [1; 2; 3]%Z;
  t_codes := [(0, Some 0); (0, Some 1); (1, Some 2); (1, Some 0)];
  t_cols := [("time", (DInt, [CI 10; CI 12; CI 15; CI 9]));
             ("cost", (DFloat, [CF (1 # 2); CF 2; CF 3; CNaN]));
             ("income", (DInt, [CI 40; CI 40; CI 55; CI 55]));
             ("chosen", (DBool, [CB true; CB false; CB false; CB true]))] |}.
(** The same with text for the alternatives. *)
Definition named_trips : table := {|
  t_cases := [7; 8]%Z; t_alts := AOther [LName "bike"; LName "car"; LName "walk"];
  t_codes := t_codes trips; t_cols := t_cols trips |}.
Lemma trips_proper : proper trips.
Proof.
  constructor; cbn.
  - repeat constructor; cbn; intuition lia.
  - repeat constructor; cbn; intuition congruence.
  - intros c oa H. repeat destruct H as [H|H]; try contradiction; injection H as <- <-; split; try lia; eexists; (split; [reflexivity|lia]).
  - repeat constructor; cbn; intuition congruence.
  - intros k d vals H. repeat destruct H as [H|H]; try contradiction; injection H as <- <- <-; split; auto; repeat constructor.
Qed.
Lemma named_proper : proper named_trips.
Proof.
  destruct trips_proper as [A B C D E]. constructor; cbn in *; auto.
  repeat constructor; cbn; intuition congruence.
Qed.

(** *** Every row is found again in its own case and alternative, whatever the options: exactly, or within the
    tolerance of the crack for floats. *)
Theorem C65_each_row_in_its_cell : forall junk o t ds, proper t -> covered o t ->
  from_idca junk o t = Ok ds -> o_fill o = None \/ o_avail o = "_avail_" -> (Z.of_nat (length (d_alts ds)) < 10 ^ 18)%Z ->
  forall k d vals r case alt v, In (k, (d, vals)) (t_cols t) -> nth_error vals r = Some v -> row_is t r case alt ->
  (v = CNaN -> o_crack o = false \/ d <> DFloat) ->
  exists code v', stands_for t ds alt code /\ value_is ds k case code v' /\
    nearly d (length (d_alts ds)) v v' /\ (o_crack o = false -> same v v').
Proof.
  intros junk o t ds P C H FA BIG k d vals r case alt v IK V RI NN.
  destruct (reads junk o t ds P C H) as (alts & codes0 & R).
  destruct (place_row junk o t ds alts codes0 R r case alt RI) as (i & j & code & A & B & B2 & D).
  destruct (p_cols t P k d vals IK) as [LV FV].
  assert (Iat : In (i, j) (place codes0)) by (eapply nth_error_In; eauto).
  destruct (at_bound junk o t ds alts codes0 P R i j Iat) as [Hi Hj].
  destruct (column_cell junk (o_crack o) (length (d_cases ds)) (length (d_alts ds)) (place codes0) d vals r i j v)
    as (v1 & C1 & C2 & C3 & C4); auto.
  { eapply at_nodup; eauto. }
  { rewrite LV. symmetry. eapply at_len; eauto. }
  { destruct v; try (right; right; discriminate). destruct NN as [X|X]; auto. }
  exists code.
  set (x := column_var junk (o_crack o) (length (d_cases ds)) (length (d_alts ds)) (place codes0) d vals) in *.
  assert (Ib : In (k, x) (base junk (o_crack o) (length (d_cases ds)) (length (d_alts ds)) (place codes0) (t_cols t)))
    by (apply in_map_iff; exists (k, (d, vals)); auto).
  pose proof (r_vars _ _ _ _ _ _ R FA) as VARS. unfold final_vars in VARS.
  destruct (negb _ && _) eqn:SP in VARS.
  - destruct (o_fill o) as [f|] eqn:OF.
    + set (flag := computed_avail _ _ _) in VARS.
      assert (Ik : In (fillk (length (d_alts ds)) f flag (k, x)) (d_vars ds)).
      { rewrite VARS. apply in_map, in_or_app. auto. }
      assert (exists v', cell_at (snd (fillk (length (d_alts ds)) f flag (k, x))) i j = Some v' /\ same v1 v') as (v' & E1 & E2).
      { destruct x as [d0 rows|d0 xs] eqn:X; [|exists v1; split; auto; apply same_refl].
        cbn [fillk fst snd]. destruct (filler f k d0) as [c|]; [|exists v1; split; auto; apply same_refl].
        assert (exists g, x = Dense d0 (grid (length (d_cases ds)) (length (d_alts ds)) g) /\ d0 = d) as (g & G1 & ->).
        { subst x. unfold column_var in *. rewrite to_dense_grid in *. rewrite X.
          destruct (o_crack o).
          - unfold dissolve in X. destruct (if sparse _ _ _ then promote d else d) in X;
            try destruct (dissolves _) in X; cbn [retype] in X; try discriminate; rewrite grid_map in X; injection X as <- <-; eauto.
          - cbn [retype] in X. rewrite grid_map in X. injection X as <- <-. eauto. }
        assert (rows = grid (length (d_cases ds)) (length (d_alts ds)) g) as -> by congruence.
        unfold flag, computed_avail.
        match goal with |- context [Dense DInt8 ?gr] =>
          change gr with (grid (length (d_cases ds)) (length (d_alts ds)) (fun i j =>
            match last_written (place codes0) (repeat (CI 1) (length (place codes0))) i j with Some _ => CI 1 | None => CI 0 end)) end.
        rewrite where_grid, grid_cell by auto.
        assert (W : exists w, last_written (place codes0) (repeat (CI 1) (length (place codes0))) i j = Some w).
        { apply written_iff; auto. apply repeat_length. }
        destruct W as (w & ->). cbn [nonzero Z.eqb negb]. eexists. split; [reflexivity|].
        rewrite grid_cell in C1 by auto. injection C1 as ->. apply cast_up. auto. }
      exists v'. repeat split; auto.
      * eexists _, i, j. split; [exact Ik|]. auto.
      * unfold nearly in *. destruct d; try (eapply same_trans; eauto; fail). destruct C4 as [C4|(a & b & N1 & N2 & N3)].
        -- left. eapply same_trans; eauto.
        -- right. unfold same in E2. rewrite N2 in E2. destruct (num v') as [b'|] eqn:NV; [|contradiction].
           exists a, b'. repeat split; auto. now rewrite <- E2.
      * intros X. rewrite (C3 X) in E2. exact E2.
    + exists v1. repeat split; auto.
      * exists x, i, j. repeat split; auto. rewrite VARS. apply in_or_app. auto.
      * intros X. rewrite (C3 X). apply same_refl.
  - exists v1. repeat split; auto.
    + exists x, i, j. repeat split; auto. rewrite VARS. auto.
    + intros X. rewrite (C3 X). apply same_refl.
Qed.
Example C65_each_row_instance : exists ds, from_idca 0 defaults trips = Ok ds /\
  value_is ds "time" 8 3 (CI 15) /\ value_is ds "income" 8 3 (CI 55) /\ row_is trips 2 8 (LNum 3).
Proof.
  remember (from_idca 0 defaults trips) as u eqn:E. vm_compute in E. subst u. eexists. split; [reflexivity|].
  split; [|split].
  - eexists _, 1, 2. split; [cbn; auto|]. repeat split; reflexivity.
  - eexists _, 1, 2. split; [cbn; auto|]. repeat split; reflexivity.
  - exists 1, 2. repeat split; reflexivity.
Qed.
Example C65_each_row_named_instance : exists ds,
  from_idca 0 {| o_crack := true; o_altnames := Some (NList [LName "walk"; LName "bike"; LName "car"]); o_avail := "_avail_"; o_fill := Some (FScalar (CI 0)) |} named_trips = Ok ds /\
  d_alts ds = [1; 2; 3]%Z /\ stands_for named_trips ds (LName "walk") 1 /\ value_is ds "time" 8 1 (CI 15).
Proof.
  remember (from_idca 0 _ named_trips) as u eqn:E. vm_compute in E. subst u. eexists. split; [reflexivity|].
  split; [reflexivity|]. split.
  - eexists 0, _. repeat split; reflexivity.
  - eexists _, 1, 0. split; [cbn; auto|]. repeat split; reflexivity.
Qed.

(** *** The cases and alternatives of the dataset are those of the table's rows, each once. *)
Theorem C65_no_other_cases : forall junk o t ds, proper t -> covered o t -> from_idca junk o t = Ok ds ->
  NoDup (d_cases ds) /\ NoDup (d_alts ds) /\
  (forall case, In case (d_cases ds) <-> exists r alt, row_is t r case alt) /\
  (forall code, In code (d_alts ds) <-> exists r case alt, row_is t r case alt /\ stands_for t ds alt code /\ In code (d_alts ds)).
Proof.
  intros junk o t ds P C H. destruct (reads junk o t ds P C H) as (alts & codes0 & R).
  assert (K : forall c b, In (c, b) codes0 -> exists r, nth_error (place codes0) r = Some (new_code (map fst codes0) c, new_code (map snd codes0) b)).
  { intros c b I. apply In_nth_error in I as (r & E). exists r. now apply place_nth. }
  repeat split.
  - eapply cases_nodup; eauto.
  - eapply alts_nodup; eauto.
  - intros I. apply In_nth_error in I as (i & E). assert (E' := E). rewrite (r_cases _ _ _ _ _ _ R) in E.
    apply used_inv in E as (c & Ic & _ & _ & ->). apply in_map_iff in Ic as ([c' b] & X & Ic). cbn in X. subst c'.
    destruct (K _ _ Ic) as (r & Hr). destruct (row_of_place _ _ _ _ _ _ P R _ _ _ Hr) as (case' & alt & code & A & B & _).
    exists r, alt. congruence.
  - intros (r & alt & RI). destruct (place_row _ _ _ _ _ _ R r case alt RI) as (i & j & code & _ & B & _). eapply nth_error_In; eauto.
  - intros I. assert (I0 := I). apply In_nth_error in I as (j & E). assert (E' := E). rewrite (r_dalts _ _ _ _ _ _ R) in E.
    apply used_inv in E as (b & Ib & _ & _ & ->). apply in_map_iff in Ib as ([c b'] & X & Ib). cbn in X. subst b'.
    destruct (K _ _ Ib) as (r & Hr). destruct (row_of_place _ _ _ _ _ _ P R _ _ _ Hr) as (case' & alt & code' & A & _ & B & D).
    exists r, case', alt. assert (code' = code) by congruence. subst. auto.
  - intros (r & case & alt & _ & _ & I). auto.
Qed.

(** *** The availability that is computed says exactly which pairs have a row; it is left out exactly when
    every pair has one. *)
Theorem C65_availability : forall junk o t ds, proper t -> covered o t -> from_idca junk o t = Ok ds ->
  o_fill o = None -> ~ In (o_avail o) (map fst (t_cols t)) ->
  (In (o_avail o) (map fst (d_vars ds)) /\ forall case code, In case (d_cases ds) -> In code (d_alts ds) ->
     (paired t ds case code -> value_is ds (o_avail o) case code (CI 1)) /\
     (~ paired t ds case code -> value_is ds (o_avail o) case code (CI 0))) \/
  (~ In (o_avail o) (map fst (d_vars ds)) /\ forall case code, In case (d_cases ds) -> In code (d_alts ds) -> paired t ds case code).
Proof.
  intros junk o t ds P C H OF NA. destruct (reads junk o t ds P C H) as (alts & codes0 & R).
  pose proof (r_vars _ _ _ _ _ _ R (or_introl OF)) as VARS. unfold final_vars in VARS. rewrite OF in VARS.
  set (b := base _ _ _ _ _ _) in VARS.
  assert (NB : existsb (fun kv => String.eqb (o_avail o) (fst kv)) b = false)
    by (apply avail_notin; unfold b; now rewrite base_fst).
  rewrite NB in VARS. cbn [negb andb] in VARS. destruct (sparse _ _ _) eqn:SP.
  - left. split; [rewrite VARS, map_app; apply in_or_app; cbn; auto|].
    intros case code Ic Ia. apply In_nth_error in Ic as (i & Ei), Ia as (j & Ej).
    assert (Hi : i < length (d_cases ds)) by (apply nth_error_Some; congruence).
    assert (Hj : j < length (d_alts ds)) by (apply nth_error_Some; congruence).
    pose proof (paired_iff _ _ _ _ _ _ P R i j case code Ei Ej) as PI.
    pose proof (written_iff codes0 (repeat (CI 1) (length (place codes0))) i j (repeat_length _ _)) as WI.
    assert (VI : forall v, (match last_written (place codes0) (repeat (CI 1) (length (place codes0))) i j with Some _ => CI 1 | None => CI 0 end) = v ->
      value_is ds (o_avail o) case code v).
    { intros v E. eexists _, i, j. split; [rewrite VARS; apply in_or_app; cbn; auto|]. repeat split; auto.
      unfold computed_avail. match goal with |- context [Dense DInt8 ?gr] =>
          change gr with (grid (length (d_cases ds)) (length (d_alts ds)) (fun i j =>
            match last_written (place codes0) (repeat (CI 1) (length (place codes0))) i j with Some _ => CI 1 | None => CI 0 end)) end.
      rewrite grid_cell by auto. now rewrite E. }
    split; intros X; apply VI.
    + apply PI, WI in X as (v & ->). reflexivity.
    + destruct (last_written _ _ i j) eqn:E; auto. exfalso. apply X, PI, WI. eauto.
  - right. split; [rewrite VARS; now apply avail_notin|]. intros case code Ic Ia.
    apply In_nth_error in Ic as (i & Ei), Ia as (j & Ej).
    assert (Hi : i < length (d_cases ds)) by (apply nth_error_Some; congruence).
    assert (Hj : j < length (d_alts ds)) by (apply nth_error_Some; congruence).
    apply (paired_iff _ _ _ _ _ _ P R i j case code Ei Ej). eapply dense_all; eauto.
Qed.
Example C65_availability_instance : exists ds, from_idca 0 defaults trips = Ok ds /\
  value_is ds "_avail_" 7 2 (CI 1) /\ value_is ds "_avail_" 7 3 (CI 0).
Proof.
  remember (from_idca 0 defaults trips) as u eqn:E. vm_compute in E. subst u. eexists. split; [reflexivity|].
  split; [eexists _, 0, 1|eexists _, 0, 2]; (split; [cbn; auto 10|]; repeat split); reflexivity.
Qed.

(** *** A single fill value goes to every pair without a row, in every variable that differs by alternative ... *)
Lemma filled : forall junk o t ds c, proper t -> covered o t -> from_idca junk o t = Ok ds ->
  o_fill o = Some (FScalar c) -> o_avail o = "_avail_" -> ~ In "_avail_" (map fst (t_cols t)) ->
  forall k d rows case code, In (k, Dense d rows) (d_vars ds) -> In case (d_cases ds) -> In code (d_alts ds) ->
  ~ paired t ds case code -> exists v, value_is ds k case code v /\ same c v.
Proof.
  intros junk o t ds c P C H OF OA NA k d rows case code IK Ic Ia NP.
  destruct (reads junk o t ds P C H) as (alts & codes0 & R).
  pose proof (r_vars _ _ _ _ _ _ R (or_intror OA)) as VARS. unfold final_vars in VARS. rewrite OF, OA in VARS.
  set (b := base _ _ _ _ _ _) in VARS.
  assert (NB : existsb (fun kv => String.eqb "_avail_" (fst kv)) b = false)
    by (apply avail_notin; unfold b; now rewrite base_fst).
  rewrite NB in VARS. cbn [negb andb] in VARS.
  apply In_nth_error in Ic as (i & Ei), Ia as (j & Ej).
  assert (Hi : i < length (d_cases ds)) by (apply nth_error_Some; congruence).
  assert (Hj : j < length (d_alts ds)) by (apply nth_error_Some; congruence).
  pose proof (paired_iff _ _ _ _ _ _ P R i j case code Ei Ej) as PI.
  destruct (sparse _ _ _) eqn:SP.
  2: { exfalso. apply NP, PI. eapply dense_all; eauto. }
  pose proof (written_iff codes0 (repeat (CI 1) (length (place codes0))) i j (repeat_length _ _)) as WI.
  assert (LW : last_written (place codes0) (repeat (CI 1) (length (place codes0))) i j = None).
  { destruct (last_written _ _ i j) eqn:E; auto. exfalso. apply NP, PI, WI. eauto. }
  assert (IK0 := IK). rewrite VARS in IK. apply in_map_iff in IK as ([k' x] & E & I).
  set (flag := computed_avail _ _ _) in *.
  assert (G : exists d0 g, x = Dense d0 (grid (length (d_cases ds)) (length (d_alts ds)) g)).
  { destruct x as [d0 rows0|d0 xs]; [|cbn in E; discriminate].
    apply in_app_or in I as [I|[I|[]]].
    - apply in_map_iff in I as ([k2 [d2 vals]] & X & _). unfold column_var in X. rewrite to_dense_grid in X. cbn [fst snd] in X.
      injection X as _ X. destruct (o_crack o).
      + unfold dissolve in X. destruct (if sparse _ _ _ then promote d2 else d2) in X;
        try destruct (dissolves _) in X; cbn [retype] in X; try discriminate; rewrite grid_map in X; injection X as <- <-; eauto.
      + cbn [retype] in X. rewrite grid_map in X. injection X as <- <-. eauto.
    - unfold flag, computed_avail in I. injection I as _ <- <-. eexists _, _. reflexivity. }
  destruct G as (d0 & g & ->). rewrite fillk_dense in E. cbn [filler] in E.
  unfold flag, computed_avail in E.
  match type of E with context [Dense DInt8 ?gr] =>
          change gr with (grid (length (d_cases ds)) (length (d_alts ds)) (fun i j =>
            match last_written (place codes0) (repeat (CI 1) (length (place codes0))) i j with Some _ => CI 1 | None => CI 0 end)) in E end.
  rewrite where_grid in E. injection E as -> _ E.
  exists (cast 0 (common d0 (dtype_of c)) c). split; [|apply fill_up].
  eexists _, i, j. split; [exact IK0|]. repeat split; auto. cbn [cell_at]. rewrite <- E.
  change (cell_at (Dense d (grid (length (d_cases ds)) (length (d_alts ds)) (fun i j =>
    if nonzero match last_written (place codes0) (repeat (CI 1) (length (place codes0))) i j with Some _ => CI 1 | None => CI 0 end
    then cast 0 (common d0 (dtype_of c)) (g i j) else cast 0 (common d0 (dtype_of c)) c))) i j = Some (cast 0 (common d0 (dtype_of c)) c)).
  rewrite grid_cell by auto. now rewrite LW.
Qed.
Theorem C65_fill_value : forall junk o t ds c, proper t -> covered o t -> from_idca junk o t = Ok ds ->
  o_fill o = Some (FScalar c) -> o_avail o = "_avail_" -> ~ In "_avail_" (map fst (t_cols t)) ->
  forall k d rows case code, In k (map fst (t_cols t)) -> In (k, Dense d rows) (d_vars ds) -> In case (d_cases ds) -> In code (d_alts ds) ->
  ~ paired t ds case code -> exists v, value_is ds k case code v /\ same c v.
Proof. intros. eapply filled; eauto. Qed.
(** ... and, against its documentation, in the availability as well: with a fill value other than zero every
    pair without a row is then available. *)
Theorem C65_fill_makes_available_refuted : forall junk o t ds c, proper t -> covered o t -> from_idca junk o t = Ok ds ->
  o_fill o = Some (FScalar c) -> o_avail o = "_avail_" -> ~ In "_avail_" (map fst (t_cols t)) ->
  forall case code, In case (d_cases ds) -> In code (d_alts ds) -> ~ paired t ds case code ->
  exists v, value_is ds "_avail_" case code v /\ same c v.
Proof.
  intros junk o t ds c P C H OF OA NA case code Ic Ia NP.
  destruct (reads junk o t ds P C H) as (alts & codes0 & R).
  pose proof (r_vars _ _ _ _ _ _ R (or_intror OA)) as VARS. unfold final_vars in VARS. rewrite OF, OA in VARS.
  set (b := base _ _ _ _ _ _) in VARS.
  assert (NB : existsb (fun kv => String.eqb "_avail_" (fst kv)) b = false)
    by (apply avail_notin; unfold b; now rewrite base_fst).
  rewrite NB in VARS. cbn [negb andb] in VARS.
  assert (exists d rows, In ("_avail_", Dense d rows) (d_vars ds)) as (d & rows & I).
  { destruct (sparse _ _ _) eqn:SP.
    - rewrite VARS, map_app. eexists _, _. apply in_or_app. right. left. unfold fillk. cbn [fst snd filler computed_avail]. reflexivity.
    - exfalso. apply In_nth_error in Ic as (i & Ei), Ia as (j & Ej).
      assert (Hi : i < length (d_cases ds)) by (apply nth_error_Some; congruence).
      assert (Hj : j < length (d_alts ds)) by (apply nth_error_Some; congruence).
      apply NP, (paired_iff _ _ _ _ _ _ P R i j case code Ei Ej). eapply dense_all; eauto. }
  eapply filled; eauto.
Qed.
Definition filling_with (c : cell) : options := {| o_crack := true; o_altnames := None; o_avail := "_avail_"; o_fill := Some (FScalar c) |}.
Example C65_fill_makes_available_instance : exists ds, from_idca 0 (filling_with (CI 1)) trips = Ok ds /\
  value_is ds "_avail_" 7 3 (CI 1) /\ value_is ds "time" 7 3 (CI 1).
Proof.
  remember (from_idca 0 _ trips) as u eqn:E. vm_compute in E. subst u. eexists. split; [reflexivity|].
  split; (eexists _, 0, 2; split; [cbn; auto 10|]; repeat split); reflexivity.
Qed.
(** *** Reading with one fill value never fails where reading without would not. *)
Theorem C65_fill_never_fails : forall junk t c ds crack names, proper t ->
  from_idca junk {| o_crack := crack; o_altnames := names; o_avail := "_avail_"; o_fill := None |} t = Ok ds ->
  exists ds', from_idca junk {| o_crack := crack; o_altnames := names; o_avail := "_avail_"; o_fill := Some (FScalar c) |} t = Ok ds'.
Proof.
  intros junk t c ds crack names P H. unfold from_idca in *. cbn [o_altnames o_crack o_avail o_fill] in *.
  destruct (relabel t (listed names)) as [[[alts codes] nm]| |]; try discriminate. cbn [bind] in *.
  destruct (from_frame (t_cases t) alts codes (t_cols t)) as [d0| |] eqn:F; try discriminate. cbn [bind] in *.
  match type of H with bind ?m _ = _ => destruct m as [d3| |] eqn:M end; try discriminate. cbn [bind] in *.
  destruct (negb _ && _) eqn:B; [|eauto].
  assert (E : map fst (d_vars d3) = map fst (t_cols t)).
  { unfold from_frame in F. destruct (negb _) in F; [discriminate|]. injection F as <-. cbn [d_vars] in M.
    transitivity (map fst (set_dtypes junk (t_cols t)
      (if crack then map (fun kv => (fst kv, dissolve (snd kv))) (map (fun kc => (fst kc, to_dense (length (used_levels (t_cases t) (map fst codes))) (length (used_levels alts (some_codes codes))) (placed alts codes) (fst (snd kc)) (snd (snd kc)))) (t_cols t))
       else map (fun kc => (fst kc, to_dense (length (used_levels (t_cases t) (map fst codes))) (length (used_levels alts (some_codes codes))) (placed alts codes) (fst (snd kc)) (snd (snd kc)))) (t_cols t)))).
    - destruct (naming_of names nm) as [[l|m]|]; cbn [set_altnames] in M; try (destruct (Nat.eqb _ _) in M; [|discriminate]);
      injection M as <-; reflexivity.
    - unfold set_dtypes. destruct crack; rewrite ?map_map; reflexivity. }
  set (flag := computed_avail _ _ _). apply andb_prop in B as [B _]. apply negb_true_iff, avail_notin in B.
  destruct (fill_scalar_ok (length (d_alts d3)) c flag (d_vars d3) []) as (out & O).
  { cbn [app]. rewrite map_app.
    apply Permutation_NoDup with (l := "_avail_" :: map fst (d_vars d3)); [apply Permutation_cons_append|].
    constructor; auto. rewrite E. apply (p_names t P). }
  cbn [map app] in O. rewrite O. cbn [bind]. eauto.
Qed.
(** *** Filling is a second step: what is read without it, then filled. *)
Lemma fill_second : forall junk crack names avail f t ds, proper t -> ~ In avail (map fst (t_cols t)) ->
  from_idca junk {| o_crack := crack; o_altnames := names; o_avail := avail; o_fill := None |} t = Ok ds ->
  from_idca junk {| o_crack := crack; o_altnames := names; o_avail := avail; o_fill := Some f |} t =
  if existsb (fun kv => String.eqb avail (fst kv)) (d_vars ds) then
    bind (fill_all (length (d_alts ds)) f (map fst (d_vars ds)) (d_vars ds)) (fun vs => Ok (with_vars ds vs))
  else Ok ds.
Proof.
  intros junk crack names avail f t ds P NA H. unfold from_idca in *. cbn [o_altnames o_crack o_avail o_fill] in *.
  destruct (relabel t (listed names)) as [[[alts codes] nm]| |]; try discriminate. cbn [bind] in *.
  destruct (from_frame (t_cases t) alts codes (t_cols t)) as [d0| |] eqn:F; try discriminate. cbn [bind] in *.
  match type of H with bind ?m _ = _ => destruct m as [d3| |] eqn:M end; try discriminate. cbn [bind] in *.
  assert (E : map fst (d_vars d3) = map fst (t_cols t)).
  { unfold from_frame in F. destruct (negb _) in F; [discriminate|]. injection F as <-. cbn [d_vars] in M.
    transitivity (map fst (set_dtypes junk (t_cols t)
      (if crack then map (fun kv => (fst kv, dissolve (snd kv))) (map (fun kc => (fst kc, to_dense (length (used_levels (t_cases t) (map fst codes))) (length (used_levels alts (some_codes codes))) (placed alts codes) (fst (snd kc)) (snd (snd kc)))) (t_cols t))
       else map (fun kc => (fst kc, to_dense (length (used_levels (t_cases t) (map fst codes))) (length (used_levels alts (some_codes codes))) (placed alts codes) (fst (snd kc)) (snd (snd kc)))) (t_cols t)))).
    - destruct (naming_of names nm) as [[l|m]|]; cbn [set_altnames] in M; try (destruct (Nat.eqb _ _) in M; [|discriminate]);
      injection M as <-; reflexivity.
    - unfold set_dtypes. destruct crack; rewrite ?map_map; reflexivity. }
  rewrite <- E in NA. apply avail_notin in NA. rewrite NA in *. cbn [negb andb] in *.
  destruct (Nat.ltb _ _).
  - injection H as <-. cbn [d_vars with_vars d_alts].
    replace (existsb _ (_ ++ _)) with true; [reflexivity|]. symmetry. rewrite existsb_app. cbn. rewrite String.eqb_refl. apply orb_true_r.
  - injection H as <-. now rewrite NA.
Qed.
(** A mapping of variables to values, as documented, is refused as soon as it mentions a variable that differs by
    alternative. *)
Lemma by_name_stuck : forall na m vars, (forall d, fget (KType d) m = None) -> forall ks,
  fill_all na (FMap m) ks vars = Ok vars \/ fill_all na (FMap m) ks vars = KeyErr.
Proof.
  intros na m vars NT. induction ks as [|k ks IH]; [now left|]. cbn [fill_all]. unfold fill_one.
  destruct (look k vars) as [[d rows|]|]; [|cbn; auto|cbn; auto]. rewrite NT. destruct (fget (KVar k) m); cbn; auto.
Qed.
Theorem C65_fill_by_variable_refuted : forall junk crack names m t ds, proper t -> ~ In "_avail_" (map fst (t_cols t)) ->
  from_idca junk {| o_crack := crack; o_altnames := names; o_avail := "_avail_"; o_fill := None |} t = Ok ds ->
  In "_avail_" (map fst (d_vars ds)) ->
  (forall key c, In (key, c) m -> exists k, key = KVar k) ->
  forall k c d rows, In (KVar k, c) m -> In (k, Dense d rows) (d_vars ds) -> NoDup (map fst (d_vars ds)) ->
  from_idca junk {| o_crack := crack; o_altnames := names; o_avail := "_avail_"; o_fill := Some (FMap m) |} t = KeyErr.
Proof.
  intros junk crack names m t ds P NA H IA NAMES k c d rows Im Ik ND.
  rewrite (fill_second junk crack names "_avail_" (FMap m) t ds P NA H).
  assert (E : existsb (fun kv => String.eqb "_avail_" (fst kv)) (d_vars ds) = true).
  { destruct (existsb _ _) eqn:X; auto. apply avail_notin in X. contradiction. }
  rewrite E.
  assert (NT : forall d, fget (KType d) m = None).
  { intros d0. unfold fget. destruct (find _ m) as [[key c0]|] eqn:X; auto. apply find_some in X as [I X].
    apply NAMES in I as (k0 & ->). discriminate. }
  assert (SK : exists c0, fget (KVar k) m = Some c0).
  { unfold fget. destruct (find _ m) as [[key c0]|] eqn:X; [cbn; eauto|]. exfalso.
    apply (find_none _ _ X) in Im. cbn in Im. now rewrite String.eqb_refl in Im. }
  destruct SK as (c0 & SK).
  assert (G : forall ks, In k ks -> fill_all (length (d_alts ds)) (FMap m) ks (d_vars ds) = KeyErr).
  { induction ks as [|k0 ks IH]; intros I; [contradiction|]. cbn [fill_all].
    destruct (String.eqb k0 k) eqn:E0.
    - apply String.eqb_eq in E0. subst k0. unfold fill_one. rewrite (look_own _ _ k (Dense d rows) ND Ik), SK, NT. reflexivity.
    - destruct I as [->|I]; [rewrite String.eqb_refl in E0; discriminate|].
      unfold fill_one. destruct (look k0 (d_vars ds)) as [[d1 rows1|]|]; cbn [bind]; auto.
      rewrite NT. destruct (fget (KVar k0) m); cbn [bind]; auto. }
  rewrite G; auto. apply (in_map fst) in Ik. auto.
Qed.
Example C65_fill_by_variable_instance : from_idca 0 {| o_crack := true; o_altnames := None; o_avail := "_avail_"; o_fill := Some (FMap [(KVar "cost", CI 0)]) |} trips = KeyErr /\
  exists ds, from_idca 0 {| o_crack := true; o_altnames := None; o_avail := "_avail_"; o_fill := None |} trips = Ok ds /\
    In "_avail_" (map fst (d_vars ds)) /\ exists d rows, In ("cost", Dense d rows) (d_vars ds).
Proof.
  split; [vm_compute; reflexivity|]. remember (from_idca 0 _ trips) as u eqn:E. vm_compute in E. subst u. eexists. split; [reflexivity|].
  cbn. split; auto 10. eexists _, _. auto.
Qed.
(** A name of one's own for the availability cannot be combined with filling. *)
Theorem C65_own_availability_name_refuted : forall junk crack names avail c t ds, proper t -> ~ In avail (map fst (t_cols t)) ->
  avail <> "_avail_" -> ~ In "_avail_" (map fst (t_cols t)) ->
  from_idca junk {| o_crack := crack; o_altnames := names; o_avail := avail; o_fill := None |} t = Ok ds ->
  In avail (map fst (d_vars ds)) -> covered {| o_crack := crack; o_altnames := names; o_avail := avail; o_fill := None |} t ->
  from_idca junk {| o_crack := crack; o_altnames := names; o_avail := avail; o_fill := Some (FScalar c) |} t = KeyErr.
Proof.
  intros junk crack names avail c t ds P NA NE NA2 H IA C.
  rewrite (fill_second junk crack names avail (FScalar c) t ds P NA H).
  assert (E : existsb (fun kv => String.eqb avail (fst kv)) (d_vars ds) = true).
  { destruct (existsb _ _) eqn:X; auto. apply avail_notin in X. contradiction. }
  rewrite E. destruct (reads junk _ t ds P C H) as (alts & codes0 & R).
  pose proof (r_vars _ _ _ _ _ _ R (or_introl eq_refl)) as VARS. unfold final_vars in VARS. cbn [o_crack o_avail o_fill] in VARS.
  set (b := base _ _ _ _ _ _) in VARS.
  assert (Fb : map fst b = map fst (t_cols t)) by apply base_fst.
  assert (NB : existsb (fun kv => String.eqb avail (fst kv)) b = false) by (apply avail_notin; now rewrite Fb).
  rewrite NB in VARS. cbn [negb andb] in VARS. destruct (sparse _ _ _).
  2: { exfalso. rewrite VARS, Fb in IA. contradiction. }
  assert (LA : look "_avail_" (d_vars ds) = None).
  { destruct (look "_avail_" (d_vars ds)) eqn:L; auto. apply look_in, (in_map fst) in L. rewrite VARS, map_app, Fb in L.
    apply in_app_or in L as [L|[L|[]]]; cbn in L; congruence. }
  assert (ND : NoDup (map fst (d_vars ds))).
  { rewrite VARS, map_app, Fb. apply Permutation_NoDup with (l := avail :: map fst (t_cols t)); [apply Permutation_cons_append|].
    constructor; auto. apply (p_names t P). }
  assert (G : forall ks, In avail ks -> fill_all (length (d_alts ds)) (FScalar c) ks (d_vars ds) = KeyErr).
  { induction ks as [|k0 ks IH]; intros I; [contradiction|]. cbn [fill_all]. unfold fill_one.
    destruct (look k0 (d_vars ds)) as [[d1 rows1|]|] eqn:L0; rewrite ?LA; cbn [bind]; auto.
    - destruct I as [->|I]; auto. exfalso. rewrite (look_own _ (d_vars ds) avail (computed_avail (length (d_cases ds)) (length (d_alts ds)) (place codes0))) in L0; auto; [discriminate|].
      rewrite VARS. apply in_or_app. cbn; auto.
    - destruct I as [->|I]; auto. exfalso. rewrite (look_own _ (d_vars ds) avail (computed_avail (length (d_cases ds)) (length (d_alts ds)) (place codes0))) in L0; auto; [discriminate|].
      rewrite VARS. apply in_or_app. cbn; auto. }
  rewrite G; auto.
Qed.
Example C65_own_availability_name_instance :
  from_idca 0 {| o_crack := true; o_altnames := None; o_avail := "av"; o_fill := Some (FScalar (CI 0)) |} trips = KeyErr.
Proof. vm_compute. reflexivity. Qed.

(** *** Without a fill value a float variable that differs by alternative is missing where there is no row; a
    boolean one is true there. *)
Theorem C65_absent_pairs : forall junk o t ds k d vals, proper t -> covered o t -> from_idca junk o t = Ok ds ->
  o_fill o = None -> o_crack o = false -> In (k, (d, vals)) (t_cols t) ->
  forall case code, In case (d_cases ds) -> In code (d_alts ds) -> ~ paired t ds case code ->
  (d = DFloat -> value_is ds k case code CNaN) /\ (d = DBool -> value_is ds k case code (CB true)) /\
  (d = DInt -> value_is ds k case code (CI junk)).
Proof.
  intros junk o t ds k d vals P C H OF OC IK case code Ic Ia NP. destruct (reads junk o t ds P C H) as (alts & codes0 & R).
  pose proof (r_vars _ _ _ _ _ _ R (or_introl OF)) as VARS. unfold final_vars in VARS. rewrite OF, OC in VARS.
  set (b := base _ _ _ _ _ _) in VARS.
  apply In_nth_error in Ic as (i & Ei), Ia as (j & Ej).
  assert (Hi : i < length (d_cases ds)) by (apply nth_error_Some; congruence).
  assert (Hj : j < length (d_alts ds)) by (apply nth_error_Some; congruence).
  pose proof (paired_iff _ _ _ _ _ _ P R i j case code Ei Ej) as PI.
  destruct (sparse (length (d_cases ds)) (length (d_alts ds)) (place codes0)) eqn:SP.
  2: { exfalso. apply NP, PI. eapply dense_all; eauto. }
  assert (LV : length vals = length (place codes0)).
  { destruct (p_cols t P k d vals IK) as [-> _]. symmetry. eapply at_len; eauto. }
  assert (LW : last_written (place codes0) vals i j = None).
  { destruct (last_written _ _ i j) eqn:E; auto. exfalso. apply NP, PI, (written_iff codes0 vals i j LV). eauto. }
  assert (Ib : In (k, column_var junk false (length (d_cases ds)) (length (d_alts ds)) (place codes0) d vals) (d_vars ds)).
  { assert (In (k, column_var junk false (length (d_cases ds)) (length (d_alts ds)) (place codes0) d vals) b)
      by (apply in_map_iff; exists (k, (d, vals)); auto).
    rewrite VARS. destruct (negb _ && _); auto. apply in_or_app; auto. }
  assert (V : value_is ds k case code (cast junk d CNaN)).
  { eexists _, i, j. split; [exact Ib|]. repeat split; auto. unfold column_var. rewrite to_dense_grid. cbn [retype].
    rewrite grid_map, grid_cell by auto. unfold first_cell. now rewrite SP, LW. }
  repeat split; intros ->; exact V.
Qed.
(** So a boolean column saying what was chosen says that every alternative without a row was chosen too. *)
Theorem C65_absent_alternatives_chosen_refuted : exists t ds, proper t /\ from_idca 0 defaults t = Ok ds /\
  (forall r case alt, row_is t r case alt -> entry t "chosen" r (CB true) -> alt = LNum 1) /\
  ~ paired t ds 7 3 /\ value_is ds "chosen" 7 3 (CB true).
Proof.
  exists trips. remember (from_idca 0 defaults trips) as u eqn:E. vm_compute in E. subst u. eexists.
  split; [apply trips_proper|]. split; [reflexivity|]. split; [|split].
  - intros r case alt (c & a & H1 & H2 & H3) (d & vals & I & V). cbn in I. repeat destruct I as [I|I]; try discriminate; try contradiction.
    injection I as <- <-. destruct r as [|[|[|[|r]]]]; cbn in V; try discriminate; try (destruct r; discriminate);
    cbn in H1; injection H1 as <- <-; cbn in H3; congruence.
  - intros (r & alt & (c & a & H1 & H2 & H3) & S). cbn in S. subst alt. cbn in *.
    destruct r as [|[|[|[|r]]]]; cbn in H1; try (destruct r; discriminate); injection H1 as <- <-; cbn in *; congruence.
  - eexists _, 0, 2. split; [cbn; auto 10|]. repeat split; reflexivity.
Qed.

(** *** The order of the table's rows does not matter. *)
Theorem C65_row_order : forall junk o t t', proper t -> covered o t -> shuffled t t' ->
  from_idca junk o t' = from_idca junk o t.
Proof. intros. symmetry. now apply shuffle_same. Qed.
Definition trips_backwards : table := {|
  t_cases := [7; 8]%Z; t_alts := AInt [1; 2; 3]%Z;
  t_codes := [(1, Some 0); (1, Some 2); (0, Some 1); (0, Some 0)];
  t_cols := [("time", (DInt, [CI 9; CI 15; CI 12; CI 10]));
             ("cost", (DFloat, [CNaN; CF 3; CF 2; CF (1 # 2)]));
             ("income", (DInt, [CI 55; CI 55; CI 40; CI 40]));
             ("chosen", (DBool, [CB true; CB false; CB false; CB true]))] |}.
Example C65_row_order_instance : shuffled trips trips_backwards.
Proof.
  split; [reflexivity|]. split; [reflexivity|]. exists (fun i => if (i <? 4)%nat then 3 - i else i). split.
  - intros i j H. destruct (i <? 4)%nat eqn:A, (j <? 4)%nat eqn:B; rewrite ?Nat.ltb_lt, ?Nat.ltb_ge in *; lia.
  - assert (G : forall A (a b c d : A), reordered (fun i => if (i <? 4)%nat then 3 - i else i) [a; b; c; d] [d; c; b; a]).
    { intros A a b c d. split; auto. intros [|[|[|[|i]]]]; reflexivity. }
    split; [apply G|]. repeat constructor; apply G.
Qed.

(** *** A table with integer alternatives is read exactly when no case and alternative is repeated; a list of names
    must match the alternatives in the data. *)
Theorem C65_accepted_exactly : forall junk crack avail t, proper t -> (exists l, t_alts t = AInt l) ->
  ((exists ds, from_idca junk {| o_crack := crack; o_altnames := None; o_avail := avail; o_fill := None |} t = Ok ds) <->
   (forall r r' case alt, row_is t r case alt -> row_is t r' case alt -> r = r')).
Proof.
  intros junk crack avail t P (l & TA). unfold from_idca. cbn [o_altnames listed o_crack o_avail o_fill].
  unfold relabel. rewrite TA. cbn [bind naming_of option_map]. unfold from_frame.
  assert (U : NoDup (t_codes t) <-> (forall r r' case alt, row_is t r case alt -> row_is t r' case alt -> r = r')).
  { rewrite NoDup_nth_error. split.
    - intros N r r' case alt (c & a & A & B & D) (c' & a' & A' & B' & D'). apply N; [apply nth_error_Some; congruence|].
      assert (c = c') by (apply (proj1 (NoDup_nth_error _) (p_cases t P)); [apply nth_error_Some|]; congruence).
      assert (a = a') by (apply (proj1 (NoDup_nth_error _) (p_labels t P)); [apply nth_error_Some|]; congruence).
      congruence.
    - intros N r r' L E. destruct (nth_error (t_codes t) r) as [[c oa]|] eqn:Er; [|apply nth_error_None in Er; lia].
      destruct (p_codes t P c oa (nth_error_In _ _ Er)) as (Lc & a & -> & La).
      destruct (nth_error (t_cases t) c) as [case|] eqn:Ec; [|apply nth_error_None in Ec; lia].
      destruct (nth_error (labels t) a) as [alt|] eqn:Ea; [|apply nth_error_None in Ea; lia].
      apply (N r r' case alt); exists c, a; auto. }
  rewrite <- U. split.
  - intros (ds & H). destruct (distinctb pair_eqb (t_codes t)) eqn:D; [now apply distinctb_nodup|discriminate].
  - intros N. apply nodup_distinctb in N. rewrite N. cbn [negb bind]. destruct (negb _ && _); eauto.
Qed.
Theorem C65_names_must_match : forall junk o t ds given l, t_alts t = AInt l -> o_altnames o = Some (NList given) ->
  from_idca junk o t = Ok ds -> length given = length (d_alts ds) /\
  forall j code name, nth_error (d_alts ds) j = Some code -> nth_error given j = Some name ->
    exists names, d_altnames ds = Some names /\ nth_error names j = Some (Some name).
Proof.
  intros junk o t ds given l TA ON H. unfold from_idca in H. rewrite ON in H. cbn [listed] in H. unfold relabel in H. rewrite TA in H. cbn [bind naming_of] in H.
  destruct (from_frame _ _ _ _) as [d0| |]; try discriminate. cbn [bind set_altnames] in H.
  destruct (Nat.eqb _ _) eqn:E in H; [|discriminate]. apply Nat.eqb_eq in E. cbn [bind] in H.
  assert (G : d_alts ds = d_alts d0 /\ d_altnames ds = Some (map Some given)).
  { destruct (negb _ && _) in H; [|now injection H as <-]. destruct (o_fill o); [|now injection H as <-].
    destruct (fill_all _ _ _ _) in H; try discriminate. now injection H as <-. }
  destruct G as [-> G]. split; [exact E|]. intros j code name _ N. exists (map Some given). split; auto.
  now rewrite nth_error_map, N.
Qed.

(** *** Names: what can go wrong with alternatives that are not signed integers. *)
(** A label missing from the list of names is stored as the last alternative, over its own entry. *)
Theorem C65_unlisted_name_refuted : exists t o ds, proper t /\ from_idca 0 o t = Ok ds /\
  row_is t 1 7 (LName "walk") /\ row_is t 0 7 (LName "car") /\ entry t "time" 0 (CI 12) /\ entry t "time" 1 (CI 30) /\
  stands_for t ds (LName "car") 2 /\ value_is ds "time" 7 2 (CI 30).
Proof.
  exists {| t_cases := [7; 8]%Z; t_alts := AOther [LName "bike"; LName "car"; LName "walk"];
            t_codes := [(0, Some 1); (0, Some 2); (1, Some 0)]; t_cols := [("time", (DInt, [CI 12; CI 30; CI 9]))] |},
         {| o_crack := true; o_altnames := Some (NList [LName "bike"; LName "car"]); o_avail := "_avail_"; o_fill := None |}.
  remember (from_idca 0 _ _) as u eqn:E. vm_compute in E. subst u. eexists. split.
  { constructor; cbn.
    - repeat constructor; cbn; intuition lia.
    - repeat constructor; cbn; intuition congruence.
    - intros c oa H. repeat destruct H as [H|H]; try contradiction; injection H as <- <-; split; try lia; eexists; (split; [reflexivity|lia]).
    - repeat constructor; cbn; intuition.
    - intros k d vals H. repeat destruct H as [H|H]; try contradiction; injection H as <- <- <-; split; auto; repeat constructor. }
  split; [reflexivity|]. repeat split.
  - exists 0, 2. repeat split.
  - exists 0, 1. repeat split.
  - eexists _, _. split; [cbn; auto|]. reflexivity.
  - eexists _, _. split; [cbn; auto|]. reflexivity.
  - eexists 1, _. repeat split.
  - eexists _, 0, 1. split; [cbn; auto|]. repeat split.
Qed.
(** A name for an alternative nobody has in the data makes the table unreadable, and so do text labels left over
    in the index after rows were removed. *)
Definition no_walkers : table := {|
  t_cases := [7; 8]%Z; t_alts := AOther [LName "bike"; LName "car"; LName "walk"];
  t_codes := [(0, Some 0); (0, Some 1); (1, Some 0)]; t_cols := [("time", (DInt, [CI 12; CI 30; CI 9]))] |}.
Theorem C65_spare_name_refuted :
  from_idca 0 defaults no_walkers = ValueErr /\
  exists ds, from_idca 0 defaults {| t_cases := t_cases no_walkers; t_alts := AInt [1; 2; 3]%Z; t_codes := t_codes no_walkers; t_cols := t_cols no_walkers |} = Ok ds.
Proof.
  split; [vm_compute; reflexivity|]. remember (from_idca 0 _ _) as u eqn:E. vm_compute in E. subst u. eauto.
Qed.
(** Unsigned integer codes are replaced by one, two, three ... *)
Theorem C65_unsigned_codes_refuted : exists t ds, proper t /\ row_is t 0 7 (LNum 20) /\ from_idca 0 defaults t = Ok ds /\ d_alts ds = [1; 2]%Z.
Proof.
  exists {| t_cases := [7; 8]%Z; t_alts := AOther [LNum 20; LNum 30]; t_codes := [(0, Some 0); (0, Some 1); (1, Some 0)];
            t_cols := [("time", (DInt, [CI 12; CI 30; CI 9]))] |}.
  remember (from_idca 0 _ _) as u eqn:E. vm_compute in E. subst u. eexists. split.
  { constructor; cbn.
    - repeat constructor; cbn; intuition lia.
    - repeat constructor; cbn; intuition congruence.
    - intros c oa H. repeat destruct H as [H|H]; try contradiction; injection H as <- <-; split; try lia; eexists; (split; [reflexivity|lia]).
    - repeat constructor; cbn; intuition.
    - intros k d vals H. repeat destruct H as [H|H]; try contradiction; injection H as <- <- <-; split; auto; repeat constructor. }
  split; [exists 0, 0; repeat split|]. split; reflexivity.
Qed.
(** Reading the same table a second time loses the names: the first reading has changed the caller's index. *)
Theorem C65_second_reading_refuted : exists t ds ds', proper t /\ from_idca 0 defaults t = Ok ds /\
  from_idca 0 defaults (table_after defaults t) = Ok ds' /\ d_altnames ds <> None /\ d_altnames ds' = None.
Proof.
  exists named_trips.
  remember (from_idca 0 defaults named_trips) as u eqn:E. vm_compute in E.
  remember (from_idca 0 defaults (table_after defaults named_trips)) as w eqn:E'. vm_compute in E'. subst u w.
  eexists _, _. split; [apply named_proper|]. repeat split; discriminate.
Qed.
Theorem C65_integer_table_untouched : forall o t l, t_alts t = AInt l -> table_after o t = t.
Proof.
  intros o t l H. unfold table_after, relabel. rewrite H. reflexivity.
Qed.
(** The names [set_altnames] attaches are not those the alternatives mapping reports ... *)
Theorem C65_mapping_ignores_names_refuted : forall n ds ds', set_altnames n ds = Ok ds' -> alts_mapping ds' = alts_mapping ds.
Proof.
  intros n ds ds' H. unfold set_altnames in H. destruct n; [destruct (Nat.eqb _ _); [|discriminate]|]; injection H as <-; reflexivity.
Qed.
Example C65_mapping_ignores_names_instance : exists ds, from_idca 0 defaults named_trips = Ok ds /\
  alts_mapping ds = [(1%Z, LNum 1); (2%Z, LNum 2); (3%Z, LNum 3)] /\
  d_altnames ds = Some [Some (LName "bike"); Some (LName "car"); Some (LName "walk")].
Proof.
  remember (from_idca 0 defaults named_trips) as u eqn:E. vm_compute in E. subst u. eexists. repeat split.
Qed.
(** ... while those given to the constructor are, in either direction. *)
Theorem C65_mapping_of_constructor : forall l ds,
  (forall code name, In (code, name) l <-> In (code, LName name) (alts_mapping (attach (CodeToName l) ds))) /\
  alts_mapping (attach (CodeToName l) ds) = alts_mapping (attach (NameToCode (map (fun p => (snd p, fst p)) l)) ds).
Proof.
  intros l ds. unfold alts_mapping, attach. cbn [d_alt_names d_alts]. rewrite combine_maps, !map_map. cbn. rewrite combine_maps. split; auto.
  intros code name. rewrite in_map_iff. split.
  - intros I. now exists (code, name).
  - intros ([c s] & E & I). cbn in E. now injection E as -> ->.
Qed.
(** *** An availability given in the table and constant for each case is taken for a property of the case: the
    pairs without a row are then available. *)
Theorem C65_given_availability_refuted : exists t ds, proper t /\ from_idca 0 defaults t = Ok ds /\
  (forall r v, entry t "_avail_" r v -> v = CI 1) /\ ~ paired t ds 8 2 /\ value_is ds "_avail_" 8 2 (CI 1).
Proof.
  exists {| t_cases := [7; 8]%Z; t_alts := AInt [1; 2]%Z; t_codes := [(0, Some 0); (0, Some 1); (1, Some 0)];
            t_cols := [("time", (DInt, [CI 12; CI 30; CI 9])); ("_avail_", (DInt, [CI 1; CI 1; CI 1]))] |}.
  remember (from_idca 0 _ _) as u eqn:E. vm_compute in E. subst u. eexists. split.
  { constructor; cbn.
    - repeat constructor; cbn; intuition lia.
    - repeat constructor; cbn; intuition congruence.
    - intros c oa H. repeat destruct H as [H|H]; try contradiction; injection H as <- <-; split; try lia; eexists; (split; [reflexivity|lia]).
    - repeat constructor; cbn; intuition congruence.
    - intros k d vals H. repeat destruct H as [H|H]; try contradiction; injection H as <- <- <-; split; auto; repeat constructor. }
  split; [reflexivity|]. split; [|split].
  - intros r v (d & vals & I & V). cbn in I. repeat destruct I as [I|I]; try discriminate; try contradiction. injection I as <- <-.
    destruct r as [|[|[|r]]]; cbn in V; try congruence. destruct r; discriminate.
  - intros (r & alt & (c & a & H1 & H2 & H3) & S). cbn in S. subst alt. cbn in *.
    destruct r as [|[|[|r]]]; cbn in H1; try (destruct r; discriminate); injection H1 as <- <-; cbn in *; congruence.
  - eexists _, 1, 1. split; [cbn; auto|]. repeat split.
Qed.

(** *** A mapping of data types to values fills the variables of each type; a variable also mentioned by name takes
    the value given for its name. *)
Theorem C65_fill_by_type : forall junk o t ds m, proper t -> covered o t -> from_idca junk o t = Ok ds ->
  o_fill o = Some (FMap m) -> o_avail o = "_avail_" -> ~ In "_avail_" (map fst (t_cols t)) ->
  forall k d vals d' rows case code c, In (k, (d, vals)) (t_cols t) -> In (k, Dense d' rows) (d_vars ds) ->
  In case (d_cases ds) -> In code (d_alts ds) -> ~ paired t ds case code ->
  fget (KType d) m = Some c ->
  exists v, value_is ds k case code v /\
    match fget (KVar k) m with Some c' => same c' v | None => same c v end.
Proof.
  intros junk o t ds m P C H OF OA NA k d vals d' rows case code c IC IK Ic Ia NP KT.
  destruct (reads junk o t ds P C H) as (alts & codes0 & R).
  pose proof (r_vars _ _ _ _ _ _ R (or_intror OA)) as VARS. unfold final_vars in VARS. rewrite OF, OA in VARS.
  set (b := base _ _ _ _ _ _) in VARS.
  assert (Fb : map fst b = map fst (t_cols t)) by apply base_fst.
  assert (NB : existsb (fun kv => String.eqb "_avail_" (fst kv)) b = false) by (apply avail_notin; now rewrite Fb).
  rewrite NB in VARS. cbn [negb andb] in VARS.
  apply In_nth_error in Ic as (i & Ei), Ia as (j & Ej).
  assert (Hi : i < length (d_cases ds)) by (apply nth_error_Some; congruence).
  assert (Hj : j < length (d_alts ds)) by (apply nth_error_Some; congruence).
  pose proof (paired_iff _ _ _ _ _ _ P R i j case code Ei Ej) as PI.
  destruct (sparse _ _ _) eqn:SP.
  2: { exfalso. apply NP, PI. eapply dense_all; eauto. }
  pose proof (written_iff codes0 (repeat (CI 1) (length (place codes0))) i j (repeat_length _ _)) as WI.
  assert (LW : last_written (place codes0) (repeat (CI 1) (length (place codes0))) i j = None).
  { destruct (last_written _ _ i j) eqn:E; auto. exfalso. apply NP, PI, WI. eauto. }
  assert (IK0 := IK). rewrite VARS in IK. apply in_map_iff in IK as ([k' x] & E & I).
  set (flag := computed_avail _ _ _) in *.
  assert (k' = k) by (unfold fillk in E; cbn [fst snd] in E; congruence). subst k'.
  assert (G : exists g, x = Dense d (grid (length (d_cases ds)) (length (d_alts ds)) g)).
  { destruct x as [d0 rows0|d0 xs]; [|cbn in E; discriminate].
    apply in_app_or in I as [I|[I|[]]].
    - apply in_map_iff in I as ([k2 [d2 vals2]] & X & I2). cbn [fst snd] in X.
      assert (k2 = k) by congruence. subst k2.
      assert (Y : Some (d, vals) = Some (d2, vals2)) by (rewrite <- (look_own _ _ k (d, vals) (p_names t P) IC); now apply look_own; [apply (p_names t P)|]).
      assert (d2 = d) by congruence. subst d2. assert (X1 : column_var junk (o_crack o) (length (d_cases ds)) (length (d_alts ds)) (place codes0) d vals2 = Dense d0 rows0) by congruence.
      unfold column_var in X1. rewrite to_dense_grid in X1. destruct (o_crack o).
      + unfold dissolve in X1. destruct (if sparse _ _ _ then promote d else d) in X1;
        try destruct (dissolves _) in X1; cbn [retype] in X1; try discriminate; rewrite grid_map in X1; injection X1 as <- <-; eauto.
      + cbn [retype] in X1. rewrite grid_map in X1. injection X1 as <- <-. eauto.
    - exfalso. apply NA. assert (k = "_avail_") by congruence. subst k. apply (in_map fst) in IC. exact IC. }
  destruct G as (g & ->). rewrite fillk_dense in E. 
  assert (FF : filler (FMap m) k d = Some (match fget (KVar k) m with Some c' => c' | None => c end)).
  { cbn [filler]. rewrite KT. now destruct (fget (KVar k) m). }
  rewrite FF in E. set (cc := match fget (KVar k) m with Some c' => c' | None => c end) in *.
  unfold flag, computed_avail in E.
  match type of E with context [Dense DInt8 ?gr] =>
          change gr with (grid (length (d_cases ds)) (length (d_alts ds)) (fun i j =>
            match last_written (place codes0) (repeat (CI 1) (length (place codes0))) i j with Some _ => CI 1 | None => CI 0 end)) in E end.
  rewrite where_grid in E. injection E as _ E.
  exists (cast 0 (common d (dtype_of cc)) cc). split.
  - eexists _, i, j. split; [exact IK0|]. repeat split; auto. cbn [cell_at]. rewrite <- E.
    change (cell_at (Dense d' (grid (length (d_cases ds)) (length (d_alts ds)) (fun i j =>
      if nonzero match last_written (place codes0) (repeat (CI 1) (length (place codes0))) i j with Some _ => CI 1 | None => CI 0 end
      then cast 0 (common d (dtype_of cc)) (g i j) else cast 0 (common d (dtype_of cc)) cc))) i j = Some (cast 0 (common d (dtype_of cc)) cc)).
    rewrite grid_cell by auto. now rewrite LW.
  - pose proof (fill_up d cc) as S. unfold cc in *. destruct (fget (KVar k) m); exact S.
Qed.
Example C65_fill_by_type_instance : exists ds,
  from_idca 0 {| o_crack := true; o_altnames := None; o_avail := "_avail_"; o_fill := Some (FMap [(KType DInt, CI 99); (KType DBool, CB false)]) |} trips = Ok ds /\ value_is ds "time" 7 3 (CI 99) /\ value_is ds "chosen" 7 3 (CB false) /\ value_is ds "_avail_" 7 3 (CI 0).
Proof.
  remember (from_idca 0 _ trips) as u eqn:E. vm_compute in E. subst u. eexists. split; [reflexivity|].
  repeat split; (eexists _, 0, 2; split; [cbn; auto 10|]; repeat split); reflexivity.
Qed.
