(** C36: parametric constraints. *)
From Verif Require Import ParamModel ConsModel ConsSpec ConsProofs.
Local Open Scope R_scope.
Local Open Scope string_scope.

(** *** C36: the function is non-negative exactly where the documented inequality holds. *)
Theorem C36_function_sign_is_the_inequality_partial : forall f scale c c' x,
  link_model f scale c = Some c' -> 0 < c_scale c' -> length x = length (rows f) ->
  meaningful f (c_spec c) (value_of (names (rows f)) x) ->
  (nonneg (cfun c' x) <-> holds (c_spec c) (value_of (names (rows f)) x)).
Proof. exact cfun_sign. Qed.

(** A frame of three parameters for the examples: "cost" and "time" at most 0, "z" unbounded. *)
Definition fr : frame := mkFrame
  [ mkRow "cost" (Fin (-1)) (Fin 0) (Fin 0) NInf (Fin 0) (Some 0%Z) NaN;
    mkRow "time" (Fin (-2)) (Fin 0) (Fin 0) NInf (Fin 0) (Some 0%Z) NaN;
    mkRow "z" (Fin 3) (Fin 0) (Fin 0) NInf PInf (Some 0%Z) NaN ] false.
Definition rb (lo hi : option R) : cons := new_cons (1/10000) (Ratio "time" "cost" lo hi).
Lemma fr_nonneg : nle (Fin 0) (bound_of r_min "cost" fr) = false.
Proof. reflexivity. Qed.
Lemma fr_nonpos : nle (bound_of r_max "cost" fr) (Fin 0) = true.
Proof. cbn. destruct (Rle_dec 0 0); auto; lra. Qed.
Lemma coef_fr sgn r k : r <> 0 ->
  ratio_coef sgn (Some r) k "cost" fr = Some (- sgn * (Rmax r (1 / r) * k), sgn * (r * (Rmax r (1 / r) * k))).
Proof.
  intros Hr. unfold ratio_coef. destruct (Req_EM_T r 0); [contradiction|].
  rewrite fr_nonneg, fr_nonpos. auto.
Qed.
Definition linked_rb (tol : R) (lo hi : option R) (u v w z : R) : cons :=
  mkCons (Ratio "time" "cost" lo hi) tol 10 1 0 3 u v w z.
Lemma link_rb lo hi u v w z :
  ratio_coef 1 lo 10 "cost" fr = Some (u, v) -> ratio_coef (-1) hi 10 "cost" fr = Some (w, z) ->
  link_model fr None (rb lo hi) = Some (linked_rb (1/10000) lo hi u v w z).
Proof.
  intros H1 H2. unfold link_model, rb, new_cons. cbn [c_spec c_scale c_tol].
  replace (get_loc "time" (names (rows fr))) with (Some 1%nat) by reflexivity.
  replace (get_loc "cost" (names (rows fr))) with (Some 0%nat) by reflexivity.
  rewrite H1, H2. reflexivity.
Qed.
Lemma rmax_ge1 r : 1 <= r -> Rmax r (1 / r) = r.
Proof.
  intros H. apply Rmax_left. apply Rmult_le_reg_r with r; [lra|]. unfold Rdiv.
  rewrite Rmult_assoc, Rinv_l by lra. nra.
Qed.
(** Value of time between 1 and 3: time / cost = 2 is inside. *)
Example C36_example : exists c',
  link_model fr None (rb (Some 1) (Some 3)) = Some c' /\ 0 < c_scale c' /\
  meaningful fr (c_spec (rb (Some 1) (Some 3))) (value_of (names (rows fr)) [-1; -2; 3]) /\
  nonneg (cfun c' [-1; -2; 3]) /\ ~ nonneg (cfun c' [-1; -4; 3]).
Proof.
  eexists. split; [apply link_rb; apply coef_fr; lra|]. rewrite !rmax_ge1 by lra.
  split; [cbn; lra|]. split; [|split].
  - split; [intros r [= <-]; lra|]. split; [intros r [= <-]; lra|]. unfold den_ok. rewrite fr_nonneg.
    split; [discriminate|]. intros _. cbn. lra.
  - unfold cfun, min_fun, max_fun, get; cbn [linked_rb c_spec c_i c_j c_minn c_mind c_maxn c_maxd nth].
    rewrite nonneg_pymin, !nonneg_fin by discriminate. lra.
  - unfold cfun, min_fun, max_fun, get; cbn [linked_rb c_spec c_i c_j c_minn c_mind c_maxn c_maxd nth].
    rewrite nonneg_pymin, !nonneg_fin by discriminate. lra.
Qed.

(** *** The linear form given to trust-constr says the same as the function given to SLSQP. *)
Theorem C36_linear_form_agrees : forall f scale c c' x,
  link_model f scale c = Some c' -> 0 < c_scale c' -> length x = length (rows f) ->
  match c_spec c with
  | Ratio a b _ _ | Order a b => a <> b
  | Fixed _ lo hi => lo <> Some NaN /\ hi <> Some NaN
  end ->
  (satisfies (linear_form c') x <-> nonneg (cfun c' x)).
Proof. exact linear_iff. Qed.
(** Refuted when both parameters are the same: the second coefficient overwrites the first.
    "z <= z" always holds, but the linear form says 0 <= -z. *)
Theorem C36_linear_form_same_parameter_refuted : exists c',
  link_model fr None (new_cons (1/10000) (Order "z" "z")) = Some c' /\
  nonneg (cfun c' [-1; -2; 3]) /\ ~ satisfies (linear_form c') [-1; -2; 3].
Proof.
  eexists. split; [reflexivity|]. split.
  - unfold cfun, new_cons; cbn [c_spec c_i c_j c_scale]. rewrite nonneg_fin. unfold get; cbn. lra.
  - intros H. apply Forall_inv in H. destruct H as [H _]. rewrite nle_fin in H. cbn in H. lra.
Qed.

(** *** The reported gradient is the gradient, away from the kink where the two sides meet. *)
Theorem C36_jacobian_is_exact : forall f scale c c' x v r,
  link_model f scale c = Some c' -> length x = length (rows f) -> length v = length x ->
  match c_spec c with
  | Ratio a b _ _ | Order a b => a <> b
  | Fixed _ lo hi => lo <> Some NaN /\ hi <> Some NaN
  end ->
  c_scale c' <> 0 -> cfun c' x = Fin r -> sides_differ c' x ->
  exists d, 0 < d /\ forall t, Rabs t < d -> cfun c' (shift x v t) = Fin (r + t * ip (cjac c' x) v).
Proof. exact jac_local. Qed.

(** *** Binding: at a feasible point, exactly when the scaled slack is under the tolerance. *)
Theorem C36_binding_order : forall f scale c c' a b x,
  c_spec c = Order a b -> link_model f scale c = Some c' -> 0 < c_scale c' -> length x = length (rows f) ->
  holds (c_spec c) (value_of (names (rows f)) x) ->
  (is_binding c' x = true <->
   (value_of (names (rows f)) x b - value_of (names (rows f)) x a) * c_scale c' < c_tol c).
Proof.
  intros f scale c c' a b x E Hl Hk Hx Hh. apply link_spec in Hl. destruct Hl as (Hs & Ht & _ & _ & Hl).
  rewrite E in *. destruct Hl as (Hi & Hj). rewrite <- names_length in Hx.
  unfold is_binding, cfun. rewrite Hs, Ht.
  rewrite (get_loc_value _ _ _ _ Hi Hx), (get_loc_value _ _ _ _ Hj Hx). cbn [nabs].
  simpl in Hh. rewrite Rabs_pos_eq, nlt_fin; [tauto|]. apply Rmult_le_pos; lra.
Qed.
Theorem C36_binding_fixed : forall f scale c c' a lo hi x,
  c_spec c = Fixed a lo hi -> link_model f scale c = Some c' -> 0 < c_scale c' -> length x = length (rows f) ->
  lo <> Some NaN -> hi <> Some NaN ->
  holds (c_spec c) (value_of (names (rows f)) x) ->
  (is_binding c' x = true <->
   (exists m, lo = Some (Fin m) /\ (value_of (names (rows f)) x a - m) * c_scale c' < c_tol c) \/
   (exists m, hi = Some (Fin m) /\ (m - value_of (names (rows f)) x a) * c_scale c' < c_tol c)).
Proof.
  intros f scale c c' a lo hi x E Hl Hk Hx H1 H2 Hh. apply link_spec in Hl.
  destruct Hl as (Hs & Ht & _ & _ & Hl).
  rewrite E in *. rewrite <- names_length in Hx.
  unfold is_binding, cfun, min_fun, max_fun. rewrite Hs, Ht, (get_loc_value _ _ _ _ Hl Hx).
  destruct Hh as [Hlo Hhi]. set (v := value_of (names (rows f)) x a) in *.
  assert (Hinf : forall s, s = PInf \/ s = NInf \/ (exists m, s = Fin m) \/ s = NaN).
  { intros [| |m|]; eauto. }
  assert (Kz : forall P Q : Prop, (if Req_EM_T (c_scale c') 0 then NaN else if Rlt_dec 0 (c_scale c') then PInf else NInf) = PInf).
  { intros _ _. destruct (Req_EM_T _ _); [lra|]. destruct (Rlt_dec _ _); [auto|lra]. }
  destruct lo as [[| |lo|]|]; try congruence; destruct hi as [[| |hi|]|]; try congruence;
    cbn [at_least at_most nle] in Hlo, Hhi; try discriminate;
    cbn [nsub nscale]; rewrite ?(Kz True True).
  all: repeat match goal with H : context [Rle_dec ?p ?q] |- _ => destruct (Rle_dec p q); [clear H|discriminate] end.
  all: try (replace (pymin PInf PInf) with PInf by reflexivity; cbn; split; [discriminate|];
            intros [[m [[=] ?]]|[m [[=] ?]]]).
  all: try (rewrite pymin_left by reflexivity); try (rewrite pymin_right by reflexivity).
  all: try (assert (0 <= (v - lo) * c_scale c') by (apply Rmult_le_pos; lra)).
  all: try (assert (0 <= (hi - v) * c_scale c') by (apply Rmult_le_pos; lra)).
  all: try (cbn [nabs]; rewrite Rabs_pos_eq, nlt_fin by auto; split;
     [intros; first [left; eexists; split; [reflexivity|lra] | right; eexists; split; [reflexivity|lra]]
     |intros [[m [[=] ?]]|[m [[=] ?]]]; subst; lra]).
  unfold pymin. destruct (nlt (Fin ((hi - v) * c_scale c')) (Fin ((v - lo) * c_scale c'))) eqn:En.
  - apply nlt_fin in En. cbn [nabs]. rewrite Rabs_pos_eq, nlt_fin by auto. split.
    + intros; right; eauto.
    + intros [[m [[= ->] ?]]|[m [[= ->] ?]]]; lra.
  - assert (~ (hi - v) * c_scale c' < (v - lo) * c_scale c') by (rewrite <- nlt_fin; congruence).
    cbn [nabs]. rewrite Rabs_pos_eq, nlt_fin by auto. split.
    + intros; left; eauto.
    + intros [[m [[= ->] ?]]|[m [[= ->] ?]]]; lra.
Qed.
(** With both ratios given, and a denominator on its declared side. *)
Theorem C36_binding_ratio : forall f scale c c' a b lo hi x,
  c_spec c = Ratio a b (Some lo) (Some hi) -> link_model f scale c = Some c' -> 0 < c_scale c' ->
  length x = length (rows f) ->
  meaningful f (c_spec c) (value_of (names (rows f)) x) ->
  holds (c_spec c) (value_of (names (rows f)) x) ->
  let va := value_of (names (rows f)) x a in
  let vb := value_of (names (rows f)) x b in
  (is_binding c' x = true <->
   (va / vb - lo) * Rabs vb * (Rmax lo (1 / lo) * c_scale c') < c_tol c \/
   (hi - va / vb) * Rabs vb * (Rmax hi (1 / hi) * c_scale c') < c_tol c).
Proof.
  intros f scale c c' a b lo hi x E Hl Hk Hx Hm Hh va vb. pose proof Hl as Hl0. apply link_spec in Hl.
  destruct Hl as (Hs & Ht & _ & _ & Hl). pose proof (cfun_sign _ _ _ _ _ Hl0 Hk Hx Hm) as Hsign.
  apply Hsign in Hh. clear Hsign Hl0.
  rewrite E in *. destruct Hl as (Hi & Hj & C1 & C2). rewrite <- names_length in Hx.
  destruct Hm as (R1 & R2 & Dp & Dn). specialize (R1 _ eq_refl). specialize (R2 _ eq_refl).
  unfold is_binding. rewrite Ht. unfold cfun in *. rewrite Hs in *. unfold min_fun, max_fun in *. rewrite Hs in *.
  rewrite (get_loc_value _ _ _ _ Hi Hx), (get_loc_value _ _ _ _ Hj Hx) in *. fold va vb in Hh |- *. fold vb in Dp, Dn.
  assert (A1 : va * c_minn c' + vb * c_mind c' = (va / vb - lo) * Rabs vb * (Rmax lo (1 / lo) * c_scale c')).
  { unfold ratio_coef in C1. destruct (Req_EM_T lo 0); [lra|]. destruct (nle (Fin 0) _) eqn:Eb.
    - specialize (Dp eq_refl). injection C1 as <- <-. rewrite Rabs_pos_eq by lra. field; lra.
    - specialize (Dn eq_refl). destruct (nle _ (Fin 0)); [|discriminate]. injection C1 as <- <-.
      rewrite Rabs_left by lra. field; lra. }
  assert (A2 : va * c_maxn c' + vb * c_maxd c' = (hi - va / vb) * Rabs vb * (Rmax hi (1 / hi) * c_scale c')).
  { unfold ratio_coef in C2. destruct (Req_EM_T hi 0); [lra|]. destruct (nle (Fin 0) _) eqn:Eb.
    - specialize (Dp eq_refl). injection C2 as <- <-. rewrite Rabs_pos_eq by lra. field; lra.
    - specialize (Dn eq_refl). destruct (nle _ (Fin 0)); [|discriminate]. injection C2 as <- <-.
      rewrite Rabs_left by lra. field; lra. }
  rewrite A1, A2 in *. apply nonneg_pymin in Hh; try discriminate. rewrite !nonneg_fin in Hh. destruct Hh as [P1 P2].
  unfold pymin. match goal with |- context [if nlt ?a ?b then _ else _] => destruct (nlt a b) eqn:En end.
  - apply nlt_fin in En. cbn [nabs]. rewrite Rabs_pos_eq, nlt_fin by auto. split; [auto|]. intros [?|?]; lra.
  - rewrite <- not_true_iff_false, nlt_fin in En. cbn [nabs]. rewrite Rabs_pos_eq, nlt_fin by auto.
    split; [auto|]. intros [?|?]; lra.
Qed.

Example C36_binding_example : exists c',
  link_model fr None (rb (Some 1) (Some 3)) = Some c' /\
  is_binding c' [-1; -3; 3] = true /\ is_binding c' [-1; -2; 3] = false.
Proof.
  eexists. split; [apply link_rb; apply coef_fr; lra|]. rewrite !rmax_ge1 by lra.
  unfold is_binding, cfun, min_fun, max_fun, get; cbn [linked_rb c_spec c_i c_j c_minn c_mind c_maxn c_maxd nth c_tol].
  split.
  - rewrite pymin_right by (apply nlt_fin; lra). cbn [nabs]. apply nlt_fin.
    match goal with |- Rabs ?e < _ => replace e with 0 by lra end. rewrite Rabs_R0; lra.
  - rewrite pymin_left. 2:{ apply not_true_iff_false. rewrite nlt_fin. lra. }
    cbn [nabs]. apply not_true_iff_false. rewrite nlt_fin.
    match goal with |- ~ Rabs ?e < _ => replace e with 10 by lra end. rewrite Rabs_pos_eq; lra.
Qed.

(** *** What fails *)
(** A one-sided RatioBound is reported binding at every point that satisfies it, however far from
    the limit: the missing side contributes the constant 0 to the minimum. *)
Theorem C36_one_sided_ratio_always_binding_refuted : forall f scale c c' a b lo hi x,
  c_spec c = Ratio a b lo hi -> lo = None \/ hi = None -> 0 < c_tol c ->
  link_model f scale c = Some c' -> nonneg (cfun c' x) -> is_binding c' x = true.
Proof.
  intros f scale c c' a b lo hi x E Ho Htol Hl Hn. apply link_spec in Hl. destruct Hl as (Hs & Ht & _ & _ & Hl).
  rewrite E in *. destruct Hl as (_ & _ & C1 & C2).
  unfold is_binding. rewrite Ht. unfold cfun in *. rewrite Hs in *. unfold min_fun, max_fun in *. rewrite Hs in *.
  enough (Hz : pymin (Fin (get x (c_i c') * c_minn c' + get x (c_j c') * c_mind c'))
                (Fin (get x (c_i c') * c_maxn c' + get x (c_j c') * c_maxd c')) = Fin 0).
  { rewrite Hz. cbn [nabs]. rewrite Rabs_R0. apply nlt_fin; auto. }
  apply nonneg_pymin in Hn; try discriminate. rewrite !nonneg_fin in Hn. destruct Hn as [P1 P2].
  destruct Ho as [ -> | -> ].
  - injection C1 as <- <-. match goal with |- pymin (Fin ?e) _ = _ => replace e with 0 in * by ring end.
    apply pymin_left, not_true_iff_false. rewrite nlt_fin. lra.
  - injection C2 as <- <-. match goal with |- pymin _ (Fin ?e) = _ => replace e with 0 in * by ring end.
    unfold pymin. match goal with |- context [if nlt ?a ?b then _ else _] => destruct (nlt a b) eqn:En end; auto.
    rewrite <- not_true_iff_false, nlt_fin in En. f_equal. lra.
Qed.
(** So "time/cost >= 1" at time/cost = 2 is reported binding; and the note names the other side
    ("time / cost <= None") with a zero gradient. *)
Theorem C36_one_sided_ratio_note_and_gradient_refuted : exists c',
  link_model fr None (rb (Some 1) None) = Some c' /\
  holds (c_spec c') (value_of (names (rows fr)) [-1; -2; 3]) /\
  is_binding c' [-1; -2; 3] = true /\ note_minimum c' [-1; -2; 3] = false /\
  cjac c' [-1; -2; 3] = [0; 0; 0].
Proof.
  eexists. split; [apply link_rb; [apply coef_fr; lra|reflexivity]|]. rewrite !rmax_ge1 by lra.
  assert (En : nlt (min_fun (linked_rb (1 / 10000) (Some 1) None (- (1) * (1 * 10)) (1 * (1 * (1 * 10))) 0 0) [-1; -2; 3])
                  (max_fun (linked_rb (1 / 10000) (Some 1) None (- (1) * (1 * 10)) (1 * (1 * (1 * 10))) 0 0) [-1; -2; 3]) = false).
  { unfold min_fun, max_fun, get; cbn [linked_rb c_spec c_i c_j c_minn c_mind c_maxn c_maxd nth].
    apply not_true_iff_false. rewrite nlt_fin. lra. }
  split; [|split; [|split]].
  - split; [intros r [= <-]|discriminate]. cbn. lra.
  - eapply C36_one_sided_ratio_always_binding_refuted with (f := fr) (scale := None) (c := rb (Some 1) None);
      [reflexivity|auto|cbn; lra|apply link_rb; [rewrite coef_fr by lra; rewrite rmax_ge1 by lra; reflexivity|reflexivity]|].
    unfold cfun, min_fun, max_fun, get; cbn [linked_rb c_spec c_i c_j c_minn c_mind c_maxn c_maxd nth].
    rewrite nonneg_pymin, !nonneg_fin by discriminate. lra.
  - exact En.
  - unfold cjac, linked_rb in *. cbn [c_spec]. rewrite En. reflexivity.
Qed.
(** A negative ratio: max(r, 1/r) is negative, which turns the inequality around. *)
Theorem C36_negative_ratio_inverted_refuted : exists c',
  link_model fr None (rb (Some (-2)) None) = Some c' /\
  holds (c_spec c') (value_of (names (rows fr)) [-1; -1; 0]) /\ ~ nonneg (cfun c' [-1; -1; 0]) /\
  ~ holds (c_spec c') (value_of (names (rows fr)) [-1; 3; 0]) /\ nonneg (cfun c' [-1; 3; 0]).
Proof.
  eexists. split; [apply link_rb; [apply coef_fr; lra|reflexivity]|].
  replace (Rmax (-2) (1 / -2)) with (-1/2) by (rewrite Rmax_right; lra).
  repeat split.
  - intros r [= <-]. cbn. lra.
  - discriminate.
  - unfold cfun, min_fun, max_fun, get; cbn [linked_rb c_spec c_i c_j c_minn c_mind c_maxn c_maxd nth].
    rewrite nonneg_pymin, !nonneg_fin by discriminate. lra.
  - intros [H _]. specialize (H _ eq_refl). cbn in H. lra.
  - unfold cfun, min_fun, max_fun, get; cbn [linked_rb c_spec c_i c_j c_minn c_mind c_maxn c_maxd nth].
    rewrite nonneg_pymin, !nonneg_fin by discriminate. lra.
Qed.
(** A ratio of zero cannot be linked (1/0 raises). *)
Theorem C36_zero_ratio_raises_refuted : forall f scale c a b lo hi,
  c_spec c = Ratio a b lo hi -> lo = Some 0 \/ hi = Some 0 -> link_model f scale c = None.
Proof.
  intros f scale c a b lo hi E Ho. unfold link_model. rewrite E.
  destruct (get_loc a _); auto. destruct (get_loc b _); auto.
  destruct Ho as [ -> | -> ]; unfold ratio_coef; destruct (Req_EM_T 0 0); try lra; auto.
  destruct (match lo with Some _ => _ | None => _ end) as [[? ?]|]; auto.
Qed.
(** Linking stores positions, and nothing links again when the frame grows: after a new parameter
    sorts in between, "a <= c" constrains a and the newcomer. *)
Definition fr2 : frame := mkFrame [new_row plain_defaults "a"; new_row plain_defaults "c"] false.
Definition fr3 : frame :=
  match ensure_names ["b"] plain_defaults fr2 with
  | Some f => mkFrame (sort_rows (rows f)) (has_best f) | None => fr2 end.
Theorem C36_stale_link_refuted : exists c',
  link_model fr2 None (new_cons (1/10000) (Order "a" "c")) = Some c' /\
  names (rows fr3) = ["a"; "b"; "c"] /\
  ~ holds (c_spec c') (value_of (names (rows fr3)) [0; 1; -1]) /\ nonneg (cfun c' [0; 1; -1]).
Proof.
  eexists. split; [reflexivity|]. split; [reflexivity|]. split.
  - cbn. lra.
  - unfold cfun, new_cons; cbn [c_spec c_i c_j c_scale]. rewrite nonneg_fin. unfold get; cbn. lra.
Qed.
