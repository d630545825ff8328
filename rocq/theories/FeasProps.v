(** C69: feasibility is checked and enforced as stated. *)
From Verif Require Import ParamModel ConsModel ConsSpec ConsProofs CovModel FeasModel FeasSpec FeasProofs.
From Verif Require BhhhModel BhhhProofs BhhhStep BhhhMoreProps ConsProps BhhhProps.
Open Scope R_scope.
Open Scope string_scope.

(** The check says nothing is violated exactly at the feasible points. *)
Theorem C69_check_exact : forall on_violation intensity_check intensity f cs x,
  has_values f x -> numeric_bounds f -> ready f cs x ->
  intensity_check = false \/ intensity <> 0 ->
  (constraint_violation on_violation intensity_check intensity f cs = Said None <-> feasible f cs x).
Proof.
  intros o ic i f cs x Hv Hn Hr Hi. rewrite <- (violation_iff f cs x Hv Hn Hr). unfold constraint_violation.
  replace (ic && Reqb i 0)%bool with false.
  2:{ symmetry. destruct Hi as [->|Hi]; auto. unfold Reqb. destruct (Req_EM_T i 0); [contradiction|]. apply andb_false_r. }
  destruct (first_violation f cs) as [v|]; [|split; auto].
  destruct (String.eqb o "raise"); split; discriminate.
Qed.
(** Told to look at the intensity it stays silent when the model has no penalty. *)
Theorem C69_check_without_penalty : forall on_violation f cs,
  constraint_violation on_violation true 0 f cs = Said None.
Proof. intros. unfold constraint_violation, Reqb. destruct (Req_EM_T 0 0); [reflexivity|contradiction]. Qed.
(** What the message says is true: it names a parameter or a constraint that is violated, with the
    numbers, and nothing before it in the order maxima, minima, constraints is violated. *)
Theorem C69_message_true : forall f cs x v,
  has_values f x -> ready f cs x ->
  (constraint_violation "return" false 0 f cs = Said (Some v) <->
   constraint_violation "raise" false 0 f cs = RaisedError v) /\
  (constraint_violation "return" false 0 f cs = Said (Some v) ->
   match v with
   | VOver p value m => exists i r, nth_error (rows f) i = Some r /\ r_name r = p /\ r_max r = m /\
       value = Fin (nth i x 0) /\ nlt m value = true /\
       (forall j s, (j < i)%nat -> nth_error (rows f) j = Some s -> nlt (r_max s) (Fin (nth j x 0)) = false)
   | VUnder p value m => exists i r, nth_error (rows f) i = Some r /\ r_name r = p /\ r_min r = m /\
       value = Fin (nth i x 0) /\ nlt value m = true /\
       (forall j s, (j < i)%nat -> nth_error (rows f) j = Some s -> nlt (Fin (nth j x 0)) (r_min s) = false) /\
       (forall j s, nth_error (rows f) j = Some s -> nlt (r_max s) (Fin (nth j x 0)) = false)
   | VCons s => (exists before c after, cs = (before ++ c :: after)%list /\ c_spec c = s /\
         ~ holds s (value_of (names (rows f)) x) /\
         (forall d, In d before -> holds (c_spec d) (value_of (names (rows f)) x))) /\
       (forall j s, nth_error (rows f) j = Some s ->
          nlt (r_max s) (Fin (nth j x 0)) = false /\ nlt (Fin (nth j x 0)) (r_min s) = false)
   end).
Proof.
  intros f cs x v Hv Hr. unfold constraint_violation. cbn [andb]. split.
  { destruct (first_violation f cs) as [w|]; simpl; split; intros H; congruence. }
  intros H. assert (Hf : first_violation f cs = Some v).
  { destruct (first_violation f cs) as [w|]; simpl in H; congruence. }
  clear H. unfold first_violation in Hf.
  assert (F : forall (A : Type) (p : A -> bool) l a, find p l = Some a -> exists i, nth_error l i = Some a /\ p a = true /\
     forall j b, (j < i)%nat -> nth_error l j = Some b -> p b = false).
  { intros A p l a. induction l as [|b l IH]; simpl; [discriminate|]. destruct (p b) eqn:Ep.
    - intros [= ->]. exists 0%nat. split; [reflexivity|]. split; [auto|]. intros j c Hj. lia.
    - intros E. destruct (IH E) as (i & A1 & A2 & A3). exists (S i). split; [auto|]. split; [auto|].
      intros [|j] c Hj Hc; simpl in Hc; [congruence|]. apply (A3 j c); auto; lia. }
  assert (N : forall (p : row -> bool), find p (rows f) = None -> forall j s, nth_error (rows f) j = Some s -> p s = false).
  { intros p Hp j s Hs. apply (proj1 (FeasProofs.find_none p (rows f)) Hp). eapply nth_error_In; eauto. }
  assert (V : forall j s, nth_error (rows f) j = Some s -> r_value s = Fin (nth j x 0)).
  { intros j s Hs. apply (has_values_nth f); auto. }
  destruct (find is_over (rows f)) as [r|] eqn:E1.
  - injection Hf as <-. apply F in E1. destruct E1 as (i & A1 & A2 & A3). exists i, r. unfold is_over in *.
    rewrite (V _ _ A1) in *. repeat split; auto. intros j s Hj Hs. specialize (A3 j s Hj Hs). rewrite (V _ _ Hs) in A3. auto.
  - assert (O : forall j s, nth_error (rows f) j = Some s -> nlt (r_max s) (Fin (nth j x 0)) = false).
    { intros j s Hs. assert (G := N _ E1 j s Hs). unfold is_over in G. rewrite (V _ _ Hs) in G. auto. }
    destruct (find is_under (rows f)) as [r|] eqn:E2.
    + injection Hf as <-. apply F in E2. destruct E2 as (i & A1 & A2 & A3). exists i, r. unfold is_under in *.
      rewrite (V _ _ A1) in *. repeat split; auto. intros j s Hj Hs. specialize (A3 j s Hj Hs). rewrite (V _ _ Hs) in A3. auto.
    + assert (U : forall j s, nth_error (rows f) j = Some s -> nlt (Fin (nth j x 0)) (r_min s) = false).
      { intros j s Hs. assert (G := N _ E2 j s Hs). unfold is_under in G. rewrite (V _ _ Hs) in G. auto. }
      destruct (find (is_broken (pvals f)) cs) as [c|] eqn:E3; [|discriminate].
      injection Hf as <-. rewrite (has_values_pvals f x Hv) in E3. destruct Hr as [Hx Hr].
      split; [|auto]. revert E3 Hr. clear - Hx. intros E3 Hr.
      assert (G : exists before after, cs = (before ++ c :: after)%list /\ is_broken x c = true /\ (forall d, In d before -> is_broken x d = false)).
      { induction cs as [|b l IH]; simpl in E3; [discriminate|]. destruct (is_broken x b) eqn:Eb.
        - injection E3 as ->. exists [], l. split; [reflexivity|]. split; [auto|]. intros d [].
        - destruct IH as (bf & af & A1 & A2 & A3); auto. { intros d Hd. apply Hr. right; auto. }
          exists (b :: bf), af. split; [simpl; congruence|]. split; [auto|]. intros d [<-|Hd]; auto. }
      destruct G as (bf & af & A1 & A2 & A3). exists bf, c, af. split; [auto|]. split; [auto|].
      assert (Hin : forall d, In d bf \/ d = c -> In d cs). { intros d [Hd| ->]; rewrite A1; apply in_or_app; simpl; auto. }
      split.
      * intros Hh. destruct (Hr c (Hin c (or_intror eq_refl))) as [L M].
        apply (broken_iff f c x L Hx M) in Hh. congruence.
      * intros d Hd. destruct (Hr d (Hin d (or_introl Hd))) as [L M].
        apply (broken_iff f d x L Hx M). auto.
Qed.

(** ** What the optimizers are told. *)
(** For every method name: bounds are part of scipy's problem exactly for SLSQP, L-BFGS-B, TNC and
    trust-constr, constraints exactly for SLSQP, COBYLA and trust-constr (in any capitalization). *)
Definition lower := BhhhModel.lower.
Theorem C69_solver_problem : forall m f cs x,
  ready f cs x -> Forall two_names cs ->
  In (lower m) ["slsqp"; "l-bfgs-b"; "tnc"; "trust-constr"; "cobyla"; "nelder-mead"; "powell"; "cg"; "bfgs"; "newton-cg";
    "dogleg"; "trust-ncg"; "trust-exact"; "trust-krylov"] ->
  (admits (scipy_problem m f cs) x <->
    (In (lower m) ["slsqp"; "l-bfgs-b"; "tnc"; "trust-constr"] -> within_bounds f x) /\
    (In (lower m) ["slsqp"; "cobyla"; "trust-constr"] -> constraints_hold f cs x)).
Proof.
  intros m f cs x Hr H2 Hm. unfold admits, scipy_problem, bounded_method, get_constraints. fold lower.
  assert (B := bounds_admit f x). assert (Fn := functions_iff f cs x Hr). assert (L := linear_all f cs x Hr H2).
  simpl In in *.
  repeat (destruct Hm as [Hm|Hm]; [rewrite <- Hm in *; cbn [existsb String.eqb Ascii.eqb Bool.eqb orb]; cbn -[satisfies flat_map cfun nle nth_error];
    rewrite ?L, <- ?Fn, <- ?B; intuition congruence|]).
  destruct Hm.
Qed.
(** SLSQP and trust-constr search exactly the feasible points. *)
Theorem C69_solver_exact : forall m f cs x,
  ready f cs x -> Forall two_names cs -> lower m = "slsqp" \/ lower m = "trust-constr" ->
  (admits (scipy_problem m f cs) x <-> feasible f cs x).
Proof.
  intros m f cs x Hr H2 Hm. rewrite (C69_solver_problem m f cs x Hr H2).
  - unfold feasible. destruct Hm as [-> | ->]; simpl; intuition congruence.
  - destruct Hm as [-> | ->]; simpl; tauto.
Qed.
(** Whatever the method, no feasible point is excluded. *)
Theorem C69_solver_keeps_feasible : forall m f cs x,
  ready f cs x -> Forall two_names cs -> feasible f cs x -> admits (scipy_problem m f cs) x.
Proof.
  intros m f cs x Hr H2 [Hb Hc]. unfold admits, scipy_problem, get_constraints. cbn [pb_bounds pb_cons]. split.
  - destruct (bounded_method m); auto. apply bounds_admit. auto.
  - destruct (_ || _)%bool; [apply (functions_iff f cs x Hr); auto|].
    destruct (occurs _ _); auto. apply (linear_all f cs x Hr H2). apply (functions_iff f cs x Hr). auto.
Qed.
(** The default method keeps the estimates feasible: either it is SLSQP, told everything, or it is
    BHHH and every point is feasible. *)
Theorem C69_default_method : forall f cs x,
  ready f cs x -> Forall two_names cs -> numeric_bounds f ->
  ~ In PInf (map r_min (rows f)) -> ~ In NInf (map r_max (rows f)) ->
  let m := BhhhModel.choose_method 0 None (match cs with [] => false | _ => true end) (map r_min (rows f)) (map r_max (rows f)) in
  (m = "slsqp" /\ (admits (scipy_problem m f cs) x <-> feasible f cs x)) \/ (m = "bhhh" /\ feasible f cs x).
Proof.
  intros f cs x Hr H2 Hn H3 H4 m.
  destruct (BhhhMoreProps.C35_default_method (match cs with [] => false | _ => true end) _ _ H3 H4) as [D1 D2].
  assert (E : m = "slsqp" \/ m = "bhhh").
  { unfold m, BhhhModel.choose_method. simpl. destruct (_ || _)%bool; auto. }
  destruct E as [E|E]; [left|right]; (split; [auto|]).
  - apply C69_solver_exact; auto. left. unfold lower. rewrite E. reflexivity.
  - apply D2 in E. destruct E as (E1 & E2 & E3). destruct cs as [|c cs]; [|discriminate]. split.
    + intros i r Hi. assert (Hin : In r (rows f)) by (eapply nth_error_In; eauto).
      unfold numeric_bounds in Hn. rewrite Forall_forall in Hn. destruct (Hn r Hin) as [N1 N2].
      assert (M1 : In (r_min r) (map r_min (rows f))) by (apply in_map; auto).
      assert (M2 : In (r_max r) (map r_max (rows f))) by (apply in_map; auto).
      destruct (r_min r) as [| |a|] eqn:Ea; [congruence| |exfalso; eapply E2; eauto|contradiction].
      destruct (r_max r) as [| |b|] eqn:Eb; [congruence|contradiction|exfalso; eapply E3; eauto|].
      split; reflexivity.
    + intros c [].
Qed.

(** ** The numba BHHH optimizer. *)
(** A fit that reports success (or stopped at the soft maximum) did so at a feasible point, or without a penalty; a fit that
    reports constrained success did so at a feasible point. *)
Theorem C69_success_is_feasible : forall jdir direction held eval cct ncases fuel maxiter s a i0 s0 steplen jumps chunks f cs st ll tol iters steps msg st',
  numeric_bounds f -> length (BhhhModel.vals st) = length (rows f) -> Forall (linked_to f) cs ->
  BhhhModel.fit_numba held eval direction (violated_at f cs) cct ncases jdir fuel maxiter s a i0 s0 steplen jumps chunks st
    = Some (BhhhModel.Fit ll tol iters steps msg st') ->
  (forall c, In c cs -> meaningful f (c_spec c) (value_of (names (rows f)) (BhhhModel.vals st'))) ->
  match msg with
  | BhhhModel.Success | BhhhModel.SoftMaxIter => BhhhModel.intens st' = 0 \/ feasible f cs (BhhhModel.vals st')
  | BhhhModel.ConstrainedSuccess => feasible f cs (BhhhModel.vals st')
  | BhhhModel.MaxIter => True
  end.
Proof.
  intros * Hn Hx HL E HM. unfold BhhhModel.fit_numba in E.
  assert (Hl := numba_loop_length _ _ _ _ _ _ _ _ _ _ _ _ _ _ _ _ _ _ E). cbn [BhhhModel.end_state] in Hl.
  rewrite jumpstart_length in Hl.
  assert (Hl' : length (BhhhModel.vals st') = length (BhhhModel.vals st)) by (rewrite Hl; destruct i0, s0; reflexivity).
  assert (R := violated_at_iff f cs (BhhhModel.vals st') Hn).
  assert (RR : ready f cs (BhhhModel.vals st')).
  { split; [congruence|]. intros c Hc. rewrite Forall_forall in HL. auto. }
  specialize (R RR).
  apply numba_loop_verdict in E. destruct msg; rewrite <- ?R; auto.
Qed.

(** ** Refuted. *)
(** One parameter between 0 and 1. *)
Definition box : frame := mkFrame [ mkRow "a" (Fin 0) (Fin 0) (Fin 0) (Fin 0) (Fin 1) (Some 0%Z) NaN ] false.
(** An objective with its maximum at 2: at 0 the gradient is 2. *)
Definition hill (s : ParamModel.sample) (p : list R) (i k : R) : BhhhModel.point :=
  if Req_EM_T (nth 0 p 0) 0 then BhhhModel.mkPt (Fin (-10)) [2] [[1]] 0 else BhhhModel.mkPt (Fin (-5)) [0] [[1]] 0.
Definition fit_hill (st : BhhhModel.mst) :=
  BhhhModel.fit_numba [false] hill (BhhhModel.propose_direction (fun m g => g) [false])
      (violated_at box []) (fun _ _ _ => 0) 5 (fun _ g => g) 20 100 numba_full BhhhProps.numba_defaults
      None None 1 0 [] st.

Lemma hill_run : exists tol steps st, fit_hill (BhhhModel.mkSt [0] 0 0 []) = Some (BhhhModel.Fit (Fin (-5)) tol 1 steps BhhhModel.Success st) /\
  BhhhModel.vals st = [2] /\ BhhhModel.intens st = 0.
Proof.
  set (D := BhhhModel.propose_direction (fun m g => g) [false]).
  assert (E0 : hill numba_full [0] 0 0 = BhhhModel.mkPt (Fin (-10)) [2] [[1]] 0).
  { unfold hill; simpl. destruct (Req_EM_T 0 0); [auto|congruence]. }
  set (A := BhhhModel.mkPt (Fin (-10)) [2] [[1]] 0) in *. set (B := BhhhModel.mkPt (Fin (-5)) [0] [[1]] 0).
  set (st0 := BhhhModel.mkSt [0] 0 0 []).
  assert (Hd : BhhhModel.dir_of D A = [2]) by reflexivity.
  assert (Ht : BhhhModel.tol_of D A = 4) by (unfold BhhhModel.tol_of; rewrite Hd; simpl; ring).
  assert (Ht2 : BhhhModel.tol_of D B = 0) by (unfold BhhhModel.tol_of; simpl; ring).
  set (st1 := BhhhModel.set_vals [false] (BhhhModel.axpy [0] [2] 1) st0).
  assert (V1 : BhhhModel.vals st1 = [2]) by (simpl; f_equal; ring).
  assert (E1 : BhhhModel.eval_at hill numba_full st1 = B).
  { unfold BhhhModel.eval_at. rewrite V1. unfold hill; simpl. destruct (Req_EM_T 2 0); [lra|auto]. }
  exists 0, [1], st1. split; [|split; [exact V1|reflexivity]].
  unfold fit_hill, BhhhModel.fit_numba. fold st0. fold D. cbn [BhhhModel.jumpstart_numba BhhhModel.init_penalty]. change (100 - 0)%nat with (S 99).
  change (BhhhModel.eval_at hill numba_full st0) with (hill numba_full [0] 0 0). rewrite E0.
  assert (Hs : BhhhModel.search [false] hill 20 numba_full [0] [2] (Fin (-10)) (1/10000) 1 st0 = Some (B, 1, st1)).
  { rewrite (BhhhStep.search_hit [false] hill 19 numba_full [0] [2] (Fin (-10)) (1/10000) 1 st0 st1 eq_refl).
    - rewrite E1. reflexivity.
    - rewrite E1. apply nlt_fin. lra. }
  rewrite (BhhhStep.numba_loop_step [false] hill D (violated_at box []) (fun _ _ _ => 0) 5 99 20 numba_full BhhhProps.numba_defaults
    0 1 [] (BhhhModel.vals st0) A (BhhhModel.e_pen A) st0 B 1 st1); auto.
  - rewrite BhhhStep.numba_loop_done; [rewrite Ht2; reflexivity|rewrite Ht2, Rabs_R0; simpl; lra|reflexivity].
  - rewrite Ht, Rabs_pos_eq by lra. simpl. lra.
  - simpl. destruct (Rle_dec (-5) (-10)); auto; lra.
Qed.
(** BHHH with the model's default penalty (none) walks from a feasible start to an infeasible point and reports success; the
    check made with intensity_check says nothing, the check made without says what is wrong. *)
Theorem C69_success_infeasible_refuted : exists ll tol iters steps st,
  feasible box [] [0] /\
  fit_hill (BhhhModel.mkSt [0] 0 0 []) = Some (BhhhModel.Fit ll tol iters steps BhhhModel.Success st) /\
  ~ feasible box [] (BhhhModel.vals st) /\
  constraint_violation "return" true (BhhhModel.intens st) (with_values box (BhhhModel.vals st)) [] = Said None /\
  constraint_violation "return" false (BhhhModel.intens st) (with_values box (BhhhModel.vals st)) [] =
    Said (Some (VOver "a" (Fin 2) (Fin 1))).
Proof.
  destruct hill_run as (tol & steps & st & E & V & I). exists (Fin (-5)), tol, 1%nat, steps, st.
  assert (G : first_violation (with_values box [2]) [] = Some (VOver "a" (Fin 2) (Fin 1))).
  { unfold first_violation, with_values, box, is_over, with_value; cbn [rows combine map find fst snd r_max r_value r_name r_min r_init r_null r_hold r_best].
    replace (nlt (Fin 1) (Fin 2)) with true by (symmetry; apply nlt_fin; lra). reflexivity. }
  rewrite V, I. split.
  - split; [|intros c []]. intros [|[|i]] r Hi; simpl in Hi; try discriminate. injection Hi as <-. cbn [r_min r_max nth].
    split; apply nle_fin; lra.
  - split; [exact E|]. split.
    + intros [H _]. destruct (H 0%nat _ eq_refl) as [_ H2]. cbn [r_max nth] in H2. apply nle_fin in H2. lra.
    + split; [apply C69_check_without_penalty|]. unfold constraint_violation. rewrite G. reflexivity.
Qed.
(** COBYLA is not told the bounds: it may go anywhere. *)
Theorem C69_cobyla_ignores_bounds_refuted : forall x, length x = 1%nat -> admits (scipy_problem "COBYLA" box []) x /\
  (x = [2] -> ~ feasible box [] x).
Proof.
  intros x Hx. split; [split; [exact I|intros c []]|]. intros -> [H _].
  destruct (H 0%nat _ eq_refl) as [_ H2]. cbn [r_max nth] in H2. apply nle_fin in H2. lra.
Qed.
(** L-BFGS-B and TNC are not told the constraints, and most methods are told nothing. *)
Theorem C69_constraints_not_passed_refuted : forall m f cs, In m ["L-BFGS-B"; "TNC"; "Nelder-Mead"; "Powell"; "BFGS"; "Newton-CG"] ->
  pb_cons (scipy_problem m f cs) = NoConstraints /\
  (In m ["Nelder-Mead"; "Powell"; "BFGS"; "Newton-CG"] -> pb_bounds (scipy_problem m f cs) = None).
Proof.
  intros m f cs H. simpl in H. repeat (destruct H as [<-|H]; [split; [reflexivity|simpl; intuition (try discriminate; reflexivity)]|]).
  destruct H.
Qed.
(** A value or a bound that is not a number is not reported. *)
Theorem C69_nan_passes_refuted : exists f, ~ numeric_bounds f /\ first_violation f [] = None /\
  (exists x, has_values f x /\ ~ feasible f [] x).
Proof.
  exists (mkFrame [ mkRow "a" (Fin 0) (Fin 0) (Fin 0) NaN (Fin 1) (Some 0%Z) NaN ] false).
  split; [|split].
  - intros H. inversion H as [|r l [H1 _] _]; subst. apply H1. reflexivity.
  - unfold first_violation, is_over, is_under; cbn [rows find r_max r_value r_min].
    replace (nlt (Fin 1) (Fin 0)) with false.
    2:{ symmetry. apply not_true_is_false. rewrite nlt_fin. lra. }
    reflexivity.
  - exists [0]. split; [reflexivity|]. intros [H _]. destruct (H 0%nat _ eq_refl) as [H1 _]. discriminate H1.
Qed.
(** A constraint linked before the parameters changed is checked against other parameters. *)
Theorem C69_stale_constraint_refuted : exists c' f,
  link_model ConsProps.fr2 None (new_cons (1/10000) (Order "a" "c")) = Some c' /\
  has_values f [0; 1; -1] /\ names (rows f) = ["a"; "b"; "c"] /\
  first_violation f [c'] = None /\ ~ feasible f [c'] [0; 1; -1].
Proof.
  eexists. exists (with_values ConsProps.fr3 [0; 1; -1]).
  split; [reflexivity|]. split; [reflexivity|]. split; [reflexivity|]. split.
  - change (rows (with_values ConsProps.fr3 [0; 1; -1])) with
      [with_value (Fin 0) (new_row plain_defaults "a"); with_value (Fin 1) (new_row plain_defaults "b"); with_value (Fin (-1)) (new_row plain_defaults "c")].
    unfold first_violation. change (rows (with_values ConsProps.fr3 [0; 1; -1])) with
      [with_value (Fin 0) (new_row plain_defaults "a"); with_value (Fin 1) (new_row plain_defaults "b"); with_value (Fin (-1)) (new_row plain_defaults "c")].
    cbn [find is_over is_under with_value new_row plain_defaults r_max r_min r_value d_init d_min d_max nlt nle negb].
    unfold is_broken, cfun, new_cons; cbn [find c_spec c_i c_j c_scale]. unfold get; cbn [pvals rows map nth].
    unfold pvals. change (rows (with_values ConsProps.fr3 [0; 1; -1])) with
      [with_value (Fin 0) (new_row plain_defaults "a"); with_value (Fin 1) (new_row plain_defaults "b"); with_value (Fin (-1)) (new_row plain_defaults "c")].
    cbn [map with_value r_value nth].
    replace (nlt (Fin ((1 - 0) * 1)) (Fin 0)) with false; [reflexivity|].
    symmetry. apply not_true_is_false. rewrite nlt_fin. lra.
  - intros [_ H]. specialize (H _ (or_introl eq_refl)). cbn in H. lra.
Qed.

(** ** Concrete cases. *)
Definition pair : frame := mkFrame [ mkRow "a" (Fin 1) (Fin 0) (Fin 0) (Fin 0) (Fin 3) (Some 0%Z) NaN;
  mkRow "b" (Fin 2) (Fin 0) (Fin 0) NInf PInf (Some 0%Z) NaN ] false.
Definition a_le_b : cons := mkCons (Order "a" "b") (1/10000) 1 0 1 2 0 0 0 0.
Lemma a_le_b_ready x : length x = 2%nat -> ready pair [a_le_b] x.
Proof.
  intros Hx. split; [auto|]. intros c [<-|[]]. split; [|exact I].
  exists None, (new_cons (1/10000) (Order "a" "b")). split; [reflexivity|]. split; [reflexivity|]. simpl. lra.
Qed.
Lemma pair_numeric : numeric_bounds pair.
Proof. repeat constructor; discriminate. Qed.
Example C69_example : has_values pair [1; 2] /\ numeric_bounds pair /\ ready pair [a_le_b] [1; 2] /\ Forall two_names [a_le_b] /\
  feasible pair [a_le_b] [1; 2] /\ ~ feasible pair [a_le_b] [1; 0] /\
  constraint_violation "raise" false 0 pair [a_le_b] = Said None /\
  constraint_violation "raise" false 0 (with_values pair [1; 0]) [a_le_b] = RaisedError (VCons (Order "a" "b")) /\
  admits (scipy_problem "SLSQP" pair [a_le_b]) [1; 2] /\ ~ admits (scipy_problem "Trust-Constr" pair [a_le_b]) [1; 0].
Proof.
  assert (N := pair_numeric).
  assert (T : Forall two_names [a_le_b]). { constructor; [|constructor]. simpl. discriminate. }
  assert (F1 : feasible pair [a_le_b] [1; 2]).
  { split.
    - intros [|[|[|i]]] r Hi; simpl in Hi; try discriminate; injection Hi as <-; cbn [r_min r_max nth]; split; try reflexivity; apply nle_fin; lra.
    - intros c [<-|[]]. cbn. lra. }
  assert (F2 : ~ feasible pair [a_le_b] [1; 0]).
  { intros [_ H]. specialize (H _ (or_introl eq_refl)). cbn in H. lra. }
  split; [reflexivity|]. split; [auto|]. split; [apply a_le_b_ready; auto|]. split; [auto|]. split; [auto|]. split; [auto|].
  split; [apply (C69_check_exact "raise" false 0 pair [a_le_b] [1; 2]); auto; [reflexivity|apply a_le_b_ready; auto]|].
  split.
  - destruct (with_values_spec pair [1; 0] eq_refl) as (A & _).
    assert (V : violated_at pair [a_le_b] [1; 0] = true).
    { apply not_false_is_true. rewrite (violated_at_iff pair [a_le_b] [1; 0] N (a_le_b_ready [1; 0] eq_refl)). auto. }
    unfold constraint_violation. unfold violated_at in V. cbn [andb].
    assert (O : find is_over (rows (with_values pair [1; 0])) = None /\ find is_under (rows (with_values pair [1; 0])) = None).
    { apply (bounds_iff _ [1; 0] A).
      - repeat constructor; discriminate.
      - intros [|[|[|i]]] r Hi; simpl in Hi; try discriminate; injection Hi as <-; cbn [r_min r_max with_value nth]; split; try reflexivity; apply nle_fin; lra. }
    destruct O as [O1 O2].
    assert (Q : first_violation (with_values pair [1; 0]) [a_le_b] = Some (VCons (Order "a" "b"))).
    { destruct (first_violation (with_values pair [1; 0]) [a_le_b]) as [v|] eqn:Ev; [|discriminate].
      unfold first_violation in Ev. rewrite O1, O2 in Ev.
      destruct (find (is_broken (pvals (with_values pair [1; 0]))) [a_le_b]) as [c|] eqn:Ef; [|discriminate].
      injection Ev as <-. apply find_some in Ef. destruct Ef as [[<-|[]] _]. reflexivity. }
    rewrite Q. reflexivity.
  - split.
    + exact (proj2 (C69_solver_exact "SLSQP" pair [a_le_b] [1; 2] (a_le_b_ready [1; 2] eq_refl) T (or_introl eq_refl)) F1).
    + assert (L : lower "Trust-Constr" = "trust-constr") by reflexivity.
      intros H. exact (F2 (proj1 (C69_solver_exact "Trust-Constr" pair [a_le_b] [1; 0] (a_le_b_ready [1; 0] eq_refl) T (or_intror L)) H)).
Qed.
Example C69_success_example : exists ll tol n steps st,
  fit_hill (BhhhModel.mkSt [0] 0 0 []) = Some (BhhhModel.Fit ll tol n steps BhhhModel.Success st) /\
  numeric_bounds box /\ length [0] = length (rows box).
Proof.
  destruct hill_run as (tol & steps & st & E & _). exists (Fin (-5)), tol, 1%nat, steps, st.
  split; [exact E|]. split; [|reflexivity].
  repeat constructor; discriminate.
Qed.
