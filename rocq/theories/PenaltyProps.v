(** C40: the soft penalties. *)
From Coquelicot Require Import Coquelicot.
From Verif Require Import ParamModel ConsModel ConsSpec ConsProofs ConsProps PenaltyProofs.
Local Open Scope R_scope.

(** *** The penalty measures the violation: the softplus of a violation [i] (negative when the
    constraint holds) is between max(0,i) and max(0,i) + ln 2 / sharpness, for every sharpness. *)
Theorem C40_softplus_tracks_violation : forall k i, 0 < k ->
  Rmax 0 i <= softplus k i <= Rmax 0 i + ln 2 / k.
Proof. exact softplus_bounds. Qed.
(** Inside, at distance [d] from the limit, it is exponentially small. *)
Theorem C40_softplus_small_inside : forall k d, 0 < k -> 0 <= d -> softplus k (- d) <= exp (- d * k) / k.
Proof. exact softplus_inside. Qed.
(** It grows with the violation on either side of the switch to the linear form. *)
Theorem C40_softplus_increasing_partial : forall k i j, 0 < k -> i < j -> j <= 10 / k \/ 10 / k < i ->
  softplus k i < softplus k j.
Proof. exact softplus_incr. Qed.
(** Refuted across the switch: for every sharpness, the penalty drops when the violation grows
    past 10/sharpness, so it is neither monotone nor continuous. *)
Theorem C40_not_monotone_at_switch_refuted : forall k, 0 < k ->
  exists i j, i < j /\ softplus k j < softplus k i.
Proof.
  intros k Hk. pose proof (cut_value k Hk) as H. set (c := 10 / k) in *.
  exists c, ((c + softplus k c) / 2). split; [lra|].
  unfold softplus at 1. destruct (Rlt_dec (10 / k) ((c + softplus k c) / 2)); fold c in n || lra; lra.
Qed.
Theorem C40_discontinuous_at_switch_refuted : forall k, 0 < k -> ~ continuous (softplus k) (10 / k).
Proof.
  intros k Hk Hc. pose proof (cut_value k Hk) as H. set (c := 10 / k) in *.
  assert (He : 0 < (softplus k c - c) / 2) by lra.
  destruct (Hc _ (ex_intro _ (mkposreal _ He) (fun y Hy => Hy))) as [d Hd].
  set (y := c + Rmin (d / 2) ((softplus k c - c) / 4)).
  assert (Hm : 0 < Rmin (d / 2) ((softplus k c - c) / 4)).
  { apply Rmin_glb_lt; [destruct d as [d Hd0]; simpl; lra|lra]. }
  assert (Hy : softplus k y = y).
  { unfold softplus. fold c. destruct (Rlt_dec c y); auto. unfold y in *; lra. }
  specialize (Hd y). assert (B : ball c d y).
  { change (Rabs (y - c) < d). unfold y. replace (c + Rmin (d / 2) ((softplus k c - c) / 4) - c) with (Rmin (d / 2) ((softplus k c - c) / 4)) by ring.
    rewrite Rabs_pos_eq by lra. pose proof (Rmin_l (d / 2) ((softplus k c - c) / 4)). destruct d as [d Hd0]; simpl in *; lra. }
  specialize (Hd B). change (Rabs (softplus k y - softplus k c) < (softplus k c - c) / 2) in Hd.
  rewrite Hy in Hd. apply Rabs_def2 in Hd. pose proof (Rmin_r (d / 2) ((softplus k c - c) / 4)). unfold y in *. lra.
Qed.

(** *** Bounds: the reported gradient entry of each parameter is the derivative of the penalty with
    respect to that parameter while no violation reaches 10/sharpness ... *)
Theorem C40_bounds_gradient_exact_partial : forall k intensity ps los his i, 0 < k ->
  length los = length ps -> length his = length ps -> (i < length ps)%nat ->
  under_cut k (nth i ps 0) (nth i los NaN) (nth i his NaN) ->
  is_derive (fun p => bounds_penalty k intensity (put ps i p) los his) (nth i ps 0)
            (nth i (d_bounds_penalty k intensity ps los his) 0).
Proof.
  intros k I ps los his i Hk Hl Hh Hi Hu.
  destruct (bounds_penalty_derive k I ps los his i Hk Hl Hh Hi) as (g & G1 & _ & G3).
  - destruct Hu as [U1 U2]. split; [destruct (nth i los NaN)|destruct (nth i his NaN)]; auto; lra.
  - rewrite <- (G3 Hu). auto.
Qed.
(** ... in particular wherever every bound holds. *)
Theorem C40_bounds_gradient_exact_when_feasible : forall k intensity ps los his i, 0 < k ->
  length los = length ps -> length his = length ps -> (i < length ps)%nat ->
  at_least (nth i ps 0) (Some (nth i los NaN)) -> at_most (nth i ps 0) (Some (nth i his NaN)) ->
  is_derive (fun p => bounds_penalty k intensity (put ps i p) los his) (nth i ps 0)
            (nth i (d_bounds_penalty k intensity ps los his) 0).
Proof.
  intros k I ps los his i Hk Hl Hh Hi H1 H2. apply C40_bounds_gradient_exact_partial; auto.
  assert (0 < 10 / k) by (apply Rdiv_lt_0_compat; lra).
  split.
  - destruct (nth i los NaN) as [| |b|]; simpl in *; try discriminate; auto. destruct (Rle_dec b (nth i ps 0)); [lra|discriminate].
  - destruct (nth i his NaN) as [| |b|]; simpl in *; try discriminate; auto. destruct (Rle_dec (nth i ps 0) b); [lra|discriminate].
Qed.
Example C40_feasible_example :
  at_least (nth 0 [1/2; 7] 0) (Some (nth 0 [Fin 0; NInf] NaN)) /\ at_most (nth 0 [1/2; 7] 0) (Some (nth 0 [Fin 1; PInf] NaN)).
Proof. simpl. destruct (Rle_dec 0 (1/2)); [|lra]. destruct (Rle_dec (1/2) 1); [auto|lra]. Qed.
(** Further out the true derivative is within 2*e^-10 of what is reported, per unit of intensity. *)
Theorem C40_bounds_gradient_error : forall k intensity ps los his i, 0 < k ->
  length los = length ps -> length his = length ps -> (i < length ps)%nat ->
  off_cut k (nth i ps 0) (nth i los NaN) (nth i his NaN) ->
  exists g, is_derive (fun p => bounds_penalty k intensity (put ps i p) los his) (nth i ps 0) g /\
    Rabs (g - nth i (d_bounds_penalty k intensity ps los his) 0) <= 2 * Rabs intensity * exp (-10).
Proof.
  intros k I ps los his i Hk Hl Hh Hi Hu.
  destruct (bounds_penalty_derive k I ps los his i Hk Hl Hh Hi Hu) as (g & G1 & G2 & _). eauto.
Qed.
(** The penalty is never positive, and inside all bounds it costs at most ln 2 / sharpness per bound. *)
Theorem C40_penalty_not_positive : forall k intensity ps los his, 0 < k -> 0 <= intensity ->
  bounds_penalty k intensity ps los his <= 0.
Proof. exact bounds_penalty_sign. Qed.
Theorem C40_penalty_small_when_feasible : forall k intensity ps los his, 0 < k -> 0 <= intensity ->
  length los = length ps -> length his = length ps ->
  (forall i, (i < length ps)%nat ->
     at_least (nth i ps 0) (Some (nth i los NaN)) /\ at_most (nth i ps 0) (Some (nth i his NaN))) ->
  - (2 * INR (length ps) * (ln 2 / k) * intensity) <= bounds_penalty k intensity ps los his.
Proof. exact feasible_penalty. Qed.

(** *** Ordering and ratio constraints: along every direction the reported gradient gives the
    derivative of the penalty, off the kink where the two ratios are equally violated and below the
    switch. *)
Theorem C40_constraint_gradient_exact_partial : forall c intensity k x v p d, length v = length x ->
  (c_i c < length x)%nat -> (c_j c < length x)%nat -> c_i c <> c_j c ->
  0 < k -> 0 < c_scale c * intensity ->
  soft_penalty c intensity k x = Some p -> d_soft_penalty c intensity k x = Some d ->
  match c_spec c with Ratio _ _ _ _ => rmin_fun c x <> rmax_fun c x | _ => True end ->
  - gap c x * c_scale c * intensity < 10 / k ->
  is_derive (fun t => match soft_penalty c intensity k (shift x v t) with Some p => p | None => 0 end) 0 (ip d v).
Proof. exact soft_penalty_derive. Qed.
Example C40_constraint_example : forall v, length v = 3%nat ->
  exists c d, link_model fr None (new_cons (1/10000) (Order "cost" "z")) = Some c /\
    d_soft_penalty c 1 1 [-1; -2; 3] = Some d /\
    is_derive (fun t => match soft_penalty c 1 1 (shift [-1; -2; 3] v t) with Some p => p | None => 0 end) 0 (ip d v).
Proof.
  intros v Hv. eexists. eexists. split; [reflexivity|]. split; [reflexivity|].
  eapply soft_penalty_derive; try reflexivity; simpl; auto; try lia; try lra.
  unfold gap, get; simpl. lra.
Qed.
(** An absolute limit ("a <= 3" as a constraint) has no soft penalty at all: numba models holding
    one raise. *)
Theorem C40_fixed_bound_unsupported_refuted : forall c p lo hi k intensity x,
  c_spec c = Fixed p lo hi -> soft_penalty c intensity k x = None.
Proof. intros c p lo hi k I x E. unfold soft_penalty. rewrite E. auto. Qed.
