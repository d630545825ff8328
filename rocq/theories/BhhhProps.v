(** Theorems about estimation: C32-C35, C55. *)
From Verif Require Import ParamModel BhhhModel BhhhSpec BhhhProofs BhhhStep.
Open Scope R_scope.

(** ** C32: the simple BHHH optimizers climb. *)

(** [simple_fit_bhhh] without a jumpstart, for every objective without NaN, every matrix
    inversion routine, holdfast pattern and setting: it is a climb along BHHH directions in which
    each accepted step strictly improves; it returns the log likelihood and tolerance of the
    values left in the model; on failure the values are those of the last accepted step. *)
Theorem C32_simple_fit_climbs inverse held eval fuel maxiter s ctol minlen steplen chunks st out :
  let at_ p := eval s p (intens st) (sharp st) in
  let direction := simple_direction inverse held in
  let move p t := upd held p (axpy p (direction (e_bhhh (at_ p)) (e_dll (at_ p))) t) in
  length held = length (vals st) ->
  (forall p, e_ll (at_ p) <> NaN) ->
  simple_fit held eval direction fuel maxiter s ctol minlen steplen 0 chunks st = Some out ->
  exists steps,
    ascent (fun p => e_ll (at_ p)) move (vals st) steps (vals (end_state out)) /\
    nle (e_ll (at_ (vals st))) (e_ll (at_ (vals (end_state out)))) = true /\
    (length steps <= maxiter)%nat /\
    match out with
    | StepFailure _ => True
    | Fit ll tol iters st' msg st1 =>
        st' = steps /\ iters = length steps /\ ll = e_ll (at_ (vals st1)) /\
        tol = dot (direction (e_bhhh (at_ (vals st1))) (e_dll (at_ (vals st1)))) (e_dll (at_ (vals st1))) /\
        (msg = Success <-> Rabs tol <= ctol)
    end.
Proof.
  intros at_ direction move Lh Hn E.
  unfold simple_fit in E; simpl in E. rewrite Nat.sub_0_r in E.
  destruct (simple_loop_spec held eval direction (fun m g => simple_length inverse held m g) s
              (intens st) (sharp st) _ _ _ _ _ _ _ _ _ _ (vals st) _ E)
    as (steps & Ha & _ & _ & Hl & Hr); auto.
  { constructor. }
  exists steps. split; [exact Ha|]. split; [|split; [exact Hl|]].
  - exact (ascent_monotone _ _ _ _ _ Hn Ha).
  - destruct out; auto. destruct Hr as (? & ? & ? & ? & Hm).
    repeat (split; auto). intros ->. 2: intros Hle.
    + destruct Hm as [[_ ?]|[? _]]; [auto|discriminate].
    + destruct Hm as [[? _]|[_ [? _]]]; [auto|lra].
Qed.

(** [move] leaves held coordinates alone and moves the others along the direction. *)
Theorem C32_move_meaning inverse held m g p t :
  length held = length p ->
  moved held p (simple_direction inverse held m g) t
    (upd held p (axpy p (simple_direction inverse held m g) t)).
Proof. intros; apply upd_moved; auto. rewrite simple_length; auto. Qed.

(** [fit_bhhh] of larch/model/optimization.py when no penalty is active: same statement. The
    step length restarts from twice the recent average, capped. *)
Theorem C32_fit_bhhh_climbs solve held eval fuel maxiter s ctol minlen maxlen momentum stepI stepS
  i0 s0 steplen st out :
  let at_ p := eval s p 0 0 in
  let direction := propose_direction solve held in
  let move p t := upd held p (axpy p (direction (e_bhhh (at_ p)) (e_dll (at_ p))) t) in
  length held = length (vals st) ->
  (forall p k, eval s p 0 k = at_ p) ->
  intens (init_penalty i0 s0 st) = 0 ->
  (forall p, e_ll (at_ p) <> NaN) ->
  fit_model held eval direction fuel maxiter s ctol minlen maxlen momentum stepI stepS i0 s0 steplen st
    = Some out ->
  exists steps,
    ascent (fun p => e_ll (at_ p)) move (vals st) steps (vals (end_state out)) /\
    nle (e_ll (at_ (vals st))) (e_ll (at_ (vals (end_state out)))) = true /\
    (length steps <= maxiter)%nat /\
    match out with
    | StepFailure _ => True
    | Fit ll tol iters st' msg st1 =>
        st' = steps /\ iters = length steps /\ ll = e_ll (at_ (vals st1)) /\
        tol = dot (direction (e_bhhh (at_ (vals st1))) (e_dll (at_ (vals st1)))) (e_dll (at_ (vals st1))) /\
        (msg = Success <-> Rabs tol <= ctol)
    end.
Proof.
  intros at_ direction move Lh H0 Hi Hn E.
  unfold fit_model in E.
  assert (Hv : vals (init_penalty i0 s0 st) = vals st) by (destruct i0, s0; auto).
  destruct (fit_loop_spec held eval direction (fun m g => propose_length solve held m g)
              _ _ _ _ _ _ _ _ _ _ _ _ _ _ _ (vals st) _ 0 E)
    as (steps & Ha & _ & Hl & Hr); auto.
  { rewrite Hv; auto. }
  { unfold eval_at. rewrite Hi, Hv, H0. auto. }
  { rewrite Hv. constructor. }
  exists steps. split; [exact Ha|]. split; [|split; [exact Hl|]].
  - exact (ascent_monotone _ _ _ _ _ Hn Ha).
  - destruct out; auto. destruct Hr as (? & ? & ? & ? & Hm).
    repeat (split; auto). intros ->. 2: intros Hle.
    + destruct Hm as [[_ ?]|[? _]]; [auto|discriminate].
    + destruct Hm as [[? _]|[_ [? _]]]; [auto|lra].
Qed.

(** [simple_step_bhhh] on the full sample: a strict improvement, or the values are restored and
    an exception raised. *)
Theorem C32_simple_step inverse held eval fuel full steplen st r st' :
  let at_ p := eval full p (intens st) (sharp st) in
  let direction := simple_direction inverse held in
  length held = length (vals st) ->
  (forall p, e_ll (at_ p) <> NaN) ->
  simple_step held eval direction fuel full full steplen st = Some (r, st') ->
  match r with
  | None => vals st' = vals st
  | Some (ll, _) =>
      ll = e_ll (at_ (vals st')) /\ nlt (e_ll (at_ (vals st))) ll = true /\
      exists t, moved held (vals st)
        (direction (e_bhhh (at_ (vals st))) (e_dll (at_ (vals st)))) t (vals st')
  end.
Proof.
  intros at_ direction Lh Hn E. unfold simple_step in E.
  destruct (search _ _ _ _ _ _ _ _ _ _) as [[[p t] st1]|] eqn:Es; [|discriminate].
  destruct (search_spec held eval _ _ _ _ _ _ _ _ _ _ _ Es Lh (simple_length _ _ _ _)
     (same_refl _ _)) as (Hp & Hi1 & Hk1 & Hs1 & Ht & Hcase).
  assert (L1 : length held = length (vals st1)) by (destruct Hs1; congruence).
  rewrite Hi1, Hk1 in Hp. fold (at_ (vals st1)) in Hp.
  destruct (nle _ _) eqn:En; inversion E; subst r st'; clear E.
  - simpl. apply upd_restore; auto.
  - destruct Hcase as [[Hnlt Hmv]|[Hnlt _]].
    + rewrite <- Hp. split; [auto|split; [exact Hnlt|]].
      exists t. rewrite Hmv. apply upd_moved; auto. etransitivity; [apply simple_length|auto].
    + exfalso. rewrite nlt_total in Hnlt; [rewrite En in Hnlt; discriminate| |].
      * apply Hn.
      * rewrite Hp; apply Hn.
Qed.

(** Example: a one-parameter objective meeting the hypotheses (quadratic, maximum at 1; BHHH
    matrix 2, so the first full step reaches the maximum) and its fit. *)
Definition quad (s : sample) (p : list R) (i k : R) : point :=
  let x := nth 0 p 0 in mkPt (Fin (- (x - 1) * (x - 1))) [- 2 * (x - 1)] [[2]] 0.
Definition halfinv (m : list (list R)) : list (list R) := map (map (fun x => / x)) m.
Definition st0 : mst := mkSt [0] 0 0 [].
Example C32_hypotheses_met :
  length [false] = length (vals st0) /\
  (forall p, e_ll (quad cython_full p 0 0) <> NaN) /\
  simple_fit [false] quad (simple_direction halfinv [false]) 20 100 cython_full (1/10000) (1/10000) 1 0 [] st0
   = Some (Fit (Fin (- (0 + 1 * 1 - 1) * (0 + 1 * 1 - 1)))
             (tol_of (simple_direction halfinv [false]) (quad cython_full [0 + 1 * 1] 0 0))
             1 [1] Success (mkSt [0 + 1 * 1] 0 0 [[0 + 1 * 1]])).
Proof.
  assert (Ht : tol_of (simple_direction halfinv [false]) (quad cython_full [0] 0 0) = 2).
  { unfold tol_of, dir_of, simple_direction, vecmat, free_slots_inverse; simpl. field. }
  assert (Hd : dir_of (simple_direction halfinv [false]) (quad cython_full [0] 0 0) = [1]).
  { unfold dir_of, simple_direction, vecmat, free_slots_inverse; simpl. f_equal. field. }
  assert (Ht2 : tol_of (simple_direction halfinv [false]) (quad cython_full [0 + 1 * 1] 0 0) = 0).
  { unfold tol_of, dir_of, simple_direction, vecmat, free_slots_inverse; simpl. field. }
  split; [auto|split; [discriminate|]].
  unfold simple_fit. cbn [jumpstart_cython]. change (100 - 0)%nat with (S 99).
  set (p1 := [0 + 1 * 1]) in *.
  assert (Hs : search [false] quad 20 cython_full [0] [1] (e_ll (quad cython_full [0] 0 0)) (1/10000) 1 st0
     = Some (quad cython_full p1 0 0, 1, mkSt p1 0 0 [p1])).
  { apply (search_hit [false] quad 19 cython_full [0] [1] _ _ _ _ (mkSt p1 0 0 [p1])); [reflexivity|].
    unfold p1; simpl. destruct (Rle_dec _ _); [lra|auto]. }
  rewrite (simple_loop_step _ _ _ _ _ _ _ _ _ _ _ _ _ _ (quad cython_full p1 0 0) 1 (mkSt p1 0 0 [p1])).
  - rewrite simple_loop_done; [reflexivity|]. rewrite Ht2, Rabs_R0; lra.
  - unfold eval_at; simpl vals; simpl intens; simpl sharp. rewrite Ht, Rabs_pos_eq; lra.
  - unfold eval_at. simpl vals; simpl intens; simpl sharp. rewrite Hd. exact Hs.
  - unfold p1; simpl. destruct (Rle_dec _ _); [lra|auto].
Qed.

Lemma single_pow : 1 * (1/2)^20 < 1/10000.
Proof. lra. Qed.

(** C32 fails when the log likelihood can be NaN: [nan <= current] is false, so after the line
    search has run out a NaN proposal is accepted as if it were an improvement. *)
Definition nan_away (s : sample) (p : list R) (i k : R) : point :=
  if Req_EM_T (nth 0 p 0) 0 then mkPt (Fin (-10)) [1] [[1]] 0 else mkPt NaN [0] [[1]] 0.
Theorem C32_nan_step_accepted_refuted :
  exists st tol iters steps,
    simple_fit [false] nan_away (simple_direction (fun m => m) [false]) 20 100 cython_full
      (1/10000) (1/10000) 1 0 [] st0 = Some (Fit NaN tol iters steps Success st) /\
    e_ll (nan_away cython_full (vals st0) 0 0) = Fin (-10) /\
    e_ll (nan_away cython_full (vals st) 0 0) = NaN.
Proof.
  set (D := simple_direction (fun m => m) [false]).
  assert (E0 : eval_at nan_away cython_full st0 = mkPt (Fin (-10)) [1] [[1]] 0).
  { unfold eval_at, nan_away; simpl. destruct (Req_EM_T _ _); [auto|congruence]. }
  assert (Hd : dir_of D (mkPt (Fin (-10)) [1] [[1]] 0) = [1]).
  { unfold D, dir_of, simple_direction, vecmat, free_slots_inverse; simpl. f_equal; ring. }
  assert (Ht : tol_of D (mkPt (Fin (-10)) [1] [[1]] 0) = 1).
  { unfold tol_of; rewrite Hd; simpl; ring. }
  assert (Ht2 : tol_of D (mkPt NaN [0] [[1]] 0) = 0).
  { unfold D, tol_of, dir_of, simple_direction, vecmat, free_slots_inverse; simpl; ring. }
  assert (Hu : forall u, 0 < u -> nan_away cython_full (upd [false] [0] (axpy [0] [1] u)) 0 0 = mkPt NaN [0] [[1]] 0).
  { intros; unfold nan_away; simpl. destruct (Req_EM_T _ _); [lra|auto]. }
  destruct (search_misses [false] nan_away 20 cython_full [0] [1] (Fin (-10)) (1/10000) 1 st0
     (mkPt NaN [0] [[1]] 0) eq_refl eq_refl eq_refl ltac:(lra) single_pow ltac:(lia) Hu eq_refl)
    as (t & st1 & Es & Hpos & Hle & Hv & Hi & Hk).
  exists st1, 0, 1%nat, [t]. split; [|split].
  - unfold simple_fit. cbn [jumpstart_cython]. rewrite E0. change (100 - 0)%nat with (S 99).
    rewrite (simple_loop_step _ _ _ _ _ _ _ _ _ _ _ _ _ _ (mkPt NaN [0] [[1]] 0) t st1).
    + rewrite simple_loop_done; rewrite Ht2; [reflexivity|]. rewrite Rabs_R0; lra.
    + rewrite Ht, Rabs_pos_eq; lra.
    + rewrite Hd. exact Es.
    + reflexivity.
  - change (vals st0) with [0]. unfold nan_away; simpl nth. destruct (Req_EM_T _ _); [auto|congruence].
  - rewrite Hv. rewrite Hu by lra. reflexivity.
Qed.

(** With a jumpstart the fit can end, reporting success, below where it started. *)
Definition jump_bad (s : sample) (p : list R) (i k : R) : point :=
  if Req_EM_T (nth 0 p 0) 0 then mkPt (Fin (-10)) [2] [[1]] 0 else mkPt (Fin (-20)) [0] [[1]] 0.
Theorem C32_jumpstart_refuted :
  exists st tol iters steps,
    simple_fit [false] jump_bad (simple_direction (fun m => m) [false]) 20 100 cython_full
      (1/10000) (1/10000) 1 1 [cython_full] st0 = Some (Fit (Fin (-20)) tol iters steps Success st) /\
    e_ll (jump_bad cython_full (vals st0) 0 0) = Fin (-10).
Proof.
  set (D := simple_direction (fun m => m) [false]).
  assert (E0 : jump_bad cython_full [0] 0 0 = mkPt (Fin (-10)) [2] [[1]] 0).
  { unfold jump_bad; simpl. destruct (Req_EM_T _ _); [auto|congruence]. }
  assert (Hd : D [[1]] [2] = [2]).
  { unfold D, simple_direction, vecmat, free_slots_inverse; simpl. f_equal; ring. }
  assert (Ht2 : tol_of D (mkPt (Fin (-20)) [0] [[1]] 0) = 0).
  { unfold D, tol_of, dir_of, simple_direction, vecmat, free_slots_inverse; simpl; ring. }
  exists (mkSt [0 + 2 * (1/2)] 0 0 [[0 + 2 * (1/2)]]), 0, 1%nat, [].
  split; [|change (vals st0) with [0]; rewrite E0; auto].
  set (st1 := mkSt [0 + 2 * (1/2)] 0 0 [[0 + 2 * (1/2)]]).
  assert (Hj : jumpstart_cython [false] jump_bad D (1/2) 1 [cython_full] st0 = st1).
  { cbn [jumpstart_cython jump_cython].
    change (eval_at jump_bad cython_full st0) with (jump_bad cython_full [0] 0 0). rewrite E0.
    cbn [e_bhhh e_dll]. rewrite Hd. reflexivity. }
  unfold simple_fit. rewrite Hj.
  assert (E1 : eval_at jump_bad cython_full st1 = mkPt (Fin (-20)) [0] [[1]] 0).
  { unfold eval_at, jump_bad; simpl. destruct (Req_EM_T _ _); [lra|auto]. }
  rewrite E1. rewrite simple_loop_done; rewrite Ht2; [reflexivity|]. rewrite Rabs_R0; lra.
Qed.

(** [simple_step_bhhh] on a part of the sample compares the full-sample log likelihood with the
    partial one: it raises although the full step improves both. *)
Definition part : sample := mkSample (Some 0%Z) (Some (-1)%Z) (Some 1%Z) (-1) 0 (-1).
Definition two_samples (s : sample) (p : list R) (i k : R) : point :=
  let x := nth 0 p 0 in
  let n := if Z.eqb (s_keep_only s) (-1) then 10 else 1 in
  mkPt (Fin (n * (- (x - 1) * (x - 1) - 1))) [n * (- 2 * (x - 1))] [[n * 2]] 0.
Theorem C32_simple_step_fold_refuted :
  exists st,
    simple_step [false] two_samples (simple_direction halfinv [false]) 20 cython_full part 1 st0
      = Some (None, st) /\
    (forall s, nlt (e_ll (two_samples s (vals st0) 0 0)) (e_ll (two_samples s [1] 0 0)) = true) /\
    simple_direction halfinv [false] (e_bhhh (two_samples part [0] 0 0)) (e_dll (two_samples part [0] 0 0)) = [1].
Proof.
  assert (Hd : simple_direction halfinv [false] (e_bhhh (two_samples part [0] 0 0)) (e_dll (two_samples part [0] 0 0)) = [1]).
  { unfold simple_direction, vecmat, free_slots_inverse; simpl. f_equal. field. }
  destruct (search [false] two_samples 20 cython_full [0] [1] (e_ll (two_samples part [0] 0 0)) (1/100) 1 st0)
    as [[[p t] st1]|] eqn:Es.
  2:{ exfalso; revert Es; apply search_total; [lia|lra]. }
  exists (set_vals [false] [0] st1). split; [|split; [|exact Hd]].
  - unfold simple_step. change (eval_at two_samples part st0) with (two_samples part [0] 0 0).
    unfold dir_of. rewrite Hd. change (vals st0) with [0]. rewrite Es.
    destruct (search_spec [false] two_samples _ _ _ _ _ _ _ _ _ _ _ Es eq_refl eq_refl (same_refl _ _))
      as (Hp & Hi & Hk & _).
    assert (Hle : nle (e_ll p) (e_ll (two_samples part [0] 0 0)) = true).
    { rewrite Hp. simpl. destruct (Rle_dec _ _) as [|H]; auto. exfalso; apply H.
      set (x := nth 0 (vals st1) 0 - 1). pose proof (Rle_0_sqr x) as Hx; unfold Rsqr in Hx.
      clearbody x. lra. }
    rewrite Hle. reflexivity.
  - intros s; unfold two_samples; simpl. destruct (Z.eqb _ _); simpl;
      destruct (Rle_dec _ _); auto; lra.
Qed.

(** ** C33: numba fit_bhhh. *)

(** Missing from the full property: runs in which some line search failed without a violated
    constraint (refuted below); the theorem covers every run whose reported steps are all at
    least the minimum step length, which is how a user can tell.  The first part holds with
    any penalty, any objective including NaN, and with a jumpstart. *)
Theorem C33_returned_loglike_partial jdir solve held eval violated cct ncases
  fuel maxiter s a i0 s0 steplen jumps chunks st ll tol iters steps msg st' :
  length held = length (vals st) ->
  fit_numba held eval (propose_direction solve held) violated cct ncases jdir
    fuel maxiter s a i0 s0 steplen jumps chunks st = Some (Fit ll tol iters steps msg st') ->
  Forall (fun t => na_minlen a <= t) steps ->
  ll = e_ll (eval s (vals st') (intens st') (sharp st')).
Proof.
  intros Lh E Hall. unfold fit_numba in E.
  eapply numba_loop_consistent in E; eauto.
  - intros; apply propose_length.
  - assert (H : forall n st, length (vals (jumpstart_numba held eval jdir (1/2) n chunks st)) = length (vals st)).
    { clear. induction n; simpl; intros; auto. rewrite IHn. clear IHn.
      generalize (vals st) at 1 as base. revert st. induction chunks; simpl; intros; auto.
      rewrite IHchunks. unfold set_vals; simpl. apply upd_length. }
    rewrite H. destruct i0, s0; auto.
Qed.

(** Without penalty, NaN and jumpstart, such a run is a climb, so it ends no worse than it
    started. *)
Theorem C33_no_worse_partial jdir solve held eval violated cct ncases
  fuel maxiter s a i0 s0 steplen chunks st ll tol iters steps msg st' :
  let st1 := init_penalty i0 s0 st in
  let at_ p := eval s p 0 (sharp st1) in
  let direction := propose_direction solve held in
  let move p t := upd held p (axpy p (direction (e_bhhh (at_ p)) (e_dll (at_ p))) t) in
  length held = length (vals st) -> intens st1 = 0 ->
  (forall p, e_ll (at_ p) <> NaN) ->
  fit_numba held eval direction violated cct ncases jdir
    fuel maxiter s a i0 s0 steplen 0 chunks st = Some (Fit ll tol iters steps msg st') ->
  Forall (fun t => na_minlen a <= t) steps ->
  ascent (fun p => e_ll (at_ p)) move (vals st) steps (vals st') /\
  nle (e_ll (at_ (vals st))) ll = true /\ ll = e_ll (at_ (vals st')) /\
  intens st' = 0 /\ sharp st' = sharp st1 /\ (length steps <= maxiter)%nat.
Proof.
  intros st1 at_ direction move Lh Hi Hn E Hall.
  assert (Hll : ll = e_ll (eval s (vals st') (intens st') (sharp st'))).
  { eapply C33_returned_loglike_partial; eauto. }
  unfold fit_numba in E. simpl in E. rewrite Nat.sub_0_r in E. fold st1 in E.
  assert (Hv : vals st1 = vals st) by (unfold st1; destruct i0, s0; auto).
  destruct (numba_loop_ascent held eval direction (fun m g => propose_length solve held m g)
    violated cct ncases _ _ _ _ _ _ _ _ _ _ _ _ _ _ _ _ _ (sharp st1) (vals st) E) as (Ha & Hi' & Hk' & Hl); auto.
  { rewrite Hv; auto. }
  { unfold eval_at; rewrite Hi; auto. }
  { rewrite Hv; constructor. }
  split; [exact Ha|].
  assert (Hl2 : ll = e_ll (at_ (vals st'))) by (rewrite Hll, Hi', Hk'; reflexivity).
  split; [|repeat split; auto; simpl in Hl; lia].
  rewrite Hl2. exact (ascent_monotone _ _ _ _ _ Hn Ha).
Qed.

(** numba/optimization.py 22-44: the default arguments. *)
Definition numba_defaults : numba_args :=
  mkNA (1/10000) (1/10000) 1 5 (3/2) 1000000 (3/2) 1000000 None.

Example C33_hypotheses_met :
  exists tol st',
  fit_numba [false] quad (propose_direction (fun m g => [ nth 0 g 0 / 2 ]) [false])
    (fun _ => false) (fun _ _ _ => -5) 5 (fun _ g => g) 20 100 numba_full numba_defaults
    None None 1 0 [] st0
  = Some (Fit (Fin (- (0 + 1 * 1 - 1) * (0 + 1 * 1 - 1))) tol 1 [1] Success st') /\
  Forall (fun t => na_minlen numba_defaults <= t) [1].
Proof.
  set (D := propose_direction (fun m g => [ nth 0 g 0 / 2 ]) [false]).
  set (p1 := [0 + 1 * 1]).
  assert (Hd : dir_of D (quad numba_full [0] 0 0) = [1]).
  { unfold dir_of, D, propose_direction; simpl. f_equal. field. }
  assert (Ht : tol_of D (quad numba_full [0] 0 0) = 2).
  { unfold tol_of; rewrite Hd; simpl; ring. }
  assert (Ht2 : tol_of D (quad numba_full p1 0 0) = 0).
  { unfold tol_of, dir_of, D, propose_direction, p1; simpl. field. }
  exists 0, (mkSt p1 0 0 [p1]). split; [|repeat constructor; simpl; lra].
  unfold fit_numba. cbn [jumpstart_numba init_penalty]. change (100 - 0)%nat with (S 99).
  change (eval_at quad numba_full st0) with (quad numba_full [0] 0 0).
  assert (Hs : search [false] quad 20 numba_full [0] [1] (e_ll (quad numba_full [0] 0 0)) (1/10000) 1 st0
     = Some (quad numba_full p1 0 0, 1, mkSt p1 0 0 [p1])).
  { apply (search_hit [false] quad 19 numba_full [0] [1] _ _ _ _ (mkSt p1 0 0 [p1])); [reflexivity|].
    unfold p1; simpl. destruct (Rle_dec _ _); [lra|auto]. }
  rewrite (numba_loop_step _ _ _ _ _ _ _ _ _ _ _ _ _ _ _ _ _ (quad numba_full p1 0 0) 1 (mkSt p1 0 0 [p1])); auto.
  - rewrite numba_loop_done; auto; rewrite Ht2; [reflexivity|]. rewrite Rabs_R0; simpl; lra.
  - rewrite Ht, Rabs_pos_eq; simpl; lra.
  - rewrite Hd. exact Hs.
  - unfold p1; simpl. destruct (Rle_dec _ _); [lra|auto].
Qed.

(** The full property fails: after a line search that finds nothing better and with no
    constraint violated, the values are reset but the log likelihood and gradient of the failed
    point are kept.  Here the model is left at 0, whose log likelihood is -10, and -20 is
    returned. *)
Definition cliff (s : sample) (p : list R) (i k : R) : point :=
  if Req_EM_T (nth 0 p 0) 0 then mkPt (Fin (-10)) [1] [[1]] 0 else mkPt (Fin (-20)) [0] [[1]] 0.
Theorem C33_returned_loglike_refuted :
  exists st tol iters steps,
    fit_numba [false] cliff (propose_direction (fun m g => g) [false])
      (fun _ => false) (fun _ _ _ => -5) 5 (fun _ g => g) 20 100 numba_full numba_defaults
      None None 1 0 [] st0 = Some (Fit (Fin (-20)) tol iters steps Success st) /\
    e_ll (cliff numba_full (vals st) (intens st) (sharp st)) = Fin (-10).
Proof.
  set (D := propose_direction (fun m g => g) [false]).
  set (A := mkPt (Fin (-10)) [1] [[1]] 0). set (B := mkPt (Fin (-20)) [0] [[1]] 0).
  assert (E0 : cliff numba_full [0] 0 0 = A).
  { unfold cliff; simpl. destruct (Req_EM_T _ _); [auto|congruence]. }
  assert (Hd : dir_of D A = [1]) by reflexivity.
  assert (Ht : tol_of D A = 1) by (unfold tol_of; rewrite Hd; simpl; ring).
  assert (Ht2 : tol_of D B = 0) by (unfold tol_of; simpl; ring).
  assert (Hu : forall u, 0 < u -> cliff numba_full (upd [false] [0] (axpy [0] [1] u)) 0 0 = B).
  { intros; unfold cliff; simpl. destruct (Req_EM_T _ _); [lra|auto]. }
  assert (Hn : nlt (Fin (-10)) (e_ll B) = false).
  { simpl. destruct (Rle_dec _ _); auto; lra. }
  destruct (search_misses [false] cliff 20 numba_full [0] [1] (Fin (-10)) (1/10000) 1 st0
     B eq_refl eq_refl eq_refl ltac:(lra) single_pow ltac:(lia) Hu Hn)
    as (t & st1 & Es & Hpos & Hle & Hv & Hi & Hk).
  assert (Hr : vals (set_vals [false] [0] st1) = [0]) by (simpl; rewrite Hv; reflexivity).
  exists (set_vals [false] [0] st1), 0, 1%nat, [t]. split.
  2:{ rewrite Hr. change (intens (set_vals [false] [0] st1)) with (intens st1).
      change (sharp (set_vals [false] [0] st1)) with (sharp st1). rewrite Hi, Hk. simpl intens; simpl sharp.
      rewrite E0. reflexivity. }
  unfold fit_numba. cbn [jumpstart_numba init_penalty]. change (100 - 0)%nat with (S 99).
  change (eval_at cliff numba_full st0) with (cliff numba_full [0] 0 0). rewrite E0.
  rewrite (numba_loop_stale _ _ _ _ _ _ _ _ _ _ _ _ _ _ _ _ _ B t st1 (set_vals [false] [0] st1)); auto.
  - rewrite numba_loop_done; [rewrite Ht2; reflexivity|rewrite Ht2, Rabs_R0; simpl; lra|].
    simpl; rewrite Hi; auto.
  - rewrite Ht, Rabs_R1; simpl; lra.
  - simpl. destruct (Rle_dec _ _); auto; lra.
  - simpl e_pen. rewrite Rmult_0_l, Rabs_R0; lra.
  - simpl. rewrite Rabs_left; lra.
Qed.

(** And the fit can end, reporting success, at values that are worse than the start. *)
Definition ridge (s : sample) (p : list R) (i k : R) : point :=
  let x := nth 0 p 0 in
  if Req_EM_T x 0 then mkPt (Fin (-10)) [1] [[1]] 0
  else if Rlt_dec 0 x then mkPt (Fin (-20)) [-1] [[1]] 0 else mkPt (Fin (-15)) [0] [[1]] 0.
Theorem C33_worse_than_start_refuted :
  exists st tol iters steps,
    fit_numba [false] ridge (propose_direction (fun m g => g) [false])
      (fun _ => false) (fun _ _ _ => -5) 5 (fun _ g => g) 20 100 numba_full numba_defaults
      None None 1 0 [] st0 = Some (Fit (Fin (-15)) tol iters steps Success st) /\
    e_ll (ridge numba_full (vals st) (intens st) (sharp st)) = Fin (-15) /\
    e_ll (ridge numba_full (vals st0) (intens st0) (sharp st0)) = Fin (-10).
Proof.
  set (D := propose_direction (fun m g => g) [false]).
  set (A := mkPt (Fin (-10)) [1] [[1]] 0). set (B := mkPt (Fin (-20)) [-1] [[1]] 0).
  set (C := mkPt (Fin (-15)) [0] [[1]] 0).
  assert (E0 : ridge numba_full [0] 0 0 = A).
  { unfold ridge; simpl. destruct (Req_EM_T _ _); [auto|congruence]. }
  assert (Hd : dir_of D A = [1]) by reflexivity.
  assert (Hd2 : dir_of D B = [-1]) by reflexivity.
  assert (Ht : tol_of D A = 1) by (unfold tol_of; rewrite Hd; simpl; ring).
  assert (Ht2 : tol_of D B = 1) by (unfold tol_of; rewrite Hd2; simpl; ring).
  assert (Ht3 : tol_of D C = 0) by (unfold tol_of; simpl; ring).
  assert (Hu : forall u, 0 < u -> ridge numba_full (upd [false] [0] (axpy [0] [1] u)) 0 0 = B).
  { intros; unfold ridge; simpl. destruct (Req_EM_T _ _); [lra|]. destruct (Rlt_dec _ _); [auto|lra]. }
  assert (Hu2 : forall u, 0 < u -> ridge numba_full (upd [false] [0] (axpy [0] [-1] u)) 0 0 = C).
  { intros; unfold ridge; simpl. destruct (Req_EM_T _ _); [lra|]. destruct (Rlt_dec _ _); [lra|auto]. }
  assert (Hn : nlt (Fin (-10)) (e_ll B) = false).
  { simpl. destruct (Rle_dec _ _); auto; lra. }
  destruct (search_misses [false] ridge 20 numba_full [0] [1] (Fin (-10)) (1/10000) 1 st0
     B eq_refl eq_refl eq_refl ltac:(lra) single_pow ltac:(lia) Hu Hn)
    as (t & st1 & Es & Hpos & Hle & Hv & Hi & Hk).
  set (st2 := set_vals [false] [0] st1).
  assert (Hr : vals st2 = [0]) by (unfold st2; simpl; rewrite Hv; reflexivity).
  assert (Hi2 : intens st2 = 0) by (unfold st2; simpl; rewrite Hi; auto).
  assert (Hk2 : sharp st2 = 0) by (unfold st2; simpl; rewrite Hk; auto).
  assert (Hnl : next_len 5 1 [t] t = 2 * t).
  { unfold next_len, last_n, sum; simpl. rewrite Rmin_left; lra. }
  set (st3 := set_vals [false] (axpy [0] [-1] (2 * t)) st2).
  assert (Hv3 : vals st3 = upd [false] [0] (axpy [0] [-1] (2 * t))) by (unfold st3; simpl; rewrite Hv; reflexivity).
  assert (E3 : eval_at ridge numba_full st3 = C).
  { unfold eval_at. rewrite Hv3. change (intens st3) with (intens st2). change (sharp st3) with (sharp st2).
    rewrite Hi2, Hk2. apply Hu2; lra. }
  assert (Es3 : search [false] ridge 20 numba_full [0] [-1] (Fin (-20)) (1/10000) (2 * t) st2 = Some (C, 2 * t, st3)).
  { rewrite <- E3. apply (search_hit [false] ridge 19 numba_full [0] [-1] _ _ _ _ st3 eq_refl).
    rewrite E3. simpl. destruct (Rle_dec _ _); auto; lra. }
  exists st3, 0, 2%nat, [t; 2 * t]. split; [|split].
  2:{ change (e_ll (eval_at ridge numba_full st3) = Fin (-15)). rewrite E3. reflexivity. }
  2:{ simpl vals; simpl intens; simpl sharp. rewrite E0. reflexivity. }
  unfold fit_numba. cbn [jumpstart_numba init_penalty]. change (100 - 0)%nat with (S (S 98)).
  change (eval_at ridge numba_full st0) with (ridge numba_full [0] 0 0). rewrite E0.
  rewrite (numba_loop_stale _ _ _ _ _ _ _ _ _ _ _ _ _ _ _ _ _ B t st1 st2); auto.
  - rewrite Hr.
    rewrite (numba_loop_step _ _ _ _ _ _ _ _ _ _ _ _ _ _ _ _ _ C (2 * t) st3); auto.
    + rewrite numba_loop_done; [rewrite Ht3; reflexivity|rewrite Ht3, Rabs_R0; simpl; lra|].
      exact Hi2.
    + rewrite Ht2, Rabs_R1; simpl; lra.
    + rewrite Hd2. cbn [na_minlen na_momentum na_maxlen numba_defaults app]. rewrite Hnl. exact Es3.
    + simpl. destruct (Rle_dec _ _); auto; lra.
  - rewrite Ht, Rabs_R1; simpl; lra.
  - simpl. destruct (Rle_dec _ _); auto; lra.
  - simpl e_pen. rewrite Rmult_0_l, Rabs_R0; lra.
  - simpl. rewrite Rabs_left; lra.
Qed.
