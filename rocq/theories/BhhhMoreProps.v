(** Theorems about estimation, continued: C34 (held parameters), C35 (maximize_loglike),
    C55 (termination). *)
From Verif Require Import ParamModel BhhhModel BhhhSpec BhhhProofs BhhhStep BhhhProps.
Open Scope R_scope.

(** ** C34 *)
(** The vector update used here is [set_values] on the parameter frame. *)
Theorem C34_update_is_set_values f old new :
  length new = length (rows f) -> map r_value (rows f) = map Fin old ->
  exists f', set_array (VArray (map Fin new)) true f = Some f' /\
    map r_value (rows f') = map Fin (upd (map (fun r => negb (is_free r)) (rows f)) old new) /\
    names (rows f') = names (rows f).
Proof.
  intros Hl Ho. destruct f as [l hb]; simpl in *. rewrite map_length, Hl, Nat.eqb_refl.
  assert (Hnan : forall mk v, any_nan mk (map Fin v) = false).
  { induction mk; destruct v; simpl; auto. rewrite IHmk, andb_false_r; auto. }
  rewrite Hnan. eexists; split; [reflexivity|]; simpl. clear hb Hnan.
  revert old new Hl Ho; induction l as [|r l IH]; intros old new Hl Ho.
  - destruct old; [auto|discriminate].
  - destruct old as [|o old]; [discriminate|]. destruct new as [|n new]; [discriminate|].
    simpl in *. injection Ho as Ho1 Ho2. injection Hl as Hl.
    destruct (IH old new Hl Ho2) as [H1 H2]. rewrite H1, H2.
    destruct (is_free r); simpl; rewrite ?Ho1; auto.
Qed.

(** The proposed direction is zero for held parameters, whatever the gradient, the BHHH matrix
    and the linear solver. *)
Theorem C34_direction_zero inverse solve held m g i :
  nth i held false = true ->
  nth i (simple_direction inverse held m g) 0 = 0 /\ nth i (propose_direction solve held m g) 0 = 0.
Proof. split; [apply simple_held|apply propose_held]; auto. Qed.

(** Every value vector the model is ever given during an estimation (and the one it is left
    with) has the held parameters where they were.  [visited] starts empty. *)
Definition never_moves_held (held : list bool) (st st' : mst) : Prop :=
  forall v, In v (vals st' :: visited st') -> same_held held v (vals st).

Lemma agrees_never held st st' :
  agrees held (vals st) st' -> never_moves_held held st st'.
Proof. intros [H1 H2] v [<-|Hv]; auto. rewrite Forall_forall in H2; auto. Qed.
Lemma agrees_start held st : visited st = [] -> agrees held (vals st) st.
Proof. intros H; split; [apply same_refl|rewrite H; constructor]. Qed.
Lemma agrees_jump_cython held eval jdir t chunks base st p0 :
  agrees held p0 st -> agrees held p0 (jump_cython held eval jdir t chunks base st).
Proof. revert st; induction chunks; simpl; intros; auto. apply IHchunks, agrees_set; auto. Qed.
Lemma agrees_jump_numba held eval jdir t chunks base st p0 :
  agrees held p0 st -> agrees held p0 (jump_numba held eval jdir t chunks base st).
Proof. revert base st; induction chunks; simpl; intros; auto. apply IHchunks, agrees_set; auto. Qed.
Lemma agrees_jumpstart_cython held eval jdir t n chunks st p0 :
  agrees held p0 st -> agrees held p0 (jumpstart_cython held eval jdir t n chunks st).
Proof. revert st; induction n; simpl; intros; auto. apply IHn, agrees_jump_cython; auto. Qed.
Lemma agrees_jumpstart_numba held eval jdir t n chunks st p0 :
  agrees held p0 st -> agrees held p0 (jumpstart_numba held eval jdir t n chunks st).
Proof. revert st; induction n; simpl; intros; auto. apply IHn, agrees_jump_numba; auto. Qed.
Lemma agrees_init held i0 s0 st p0 : agrees held p0 st -> agrees held p0 (init_penalty i0 s0 st).
Proof. intros [H1 H2]; destruct i0, s0; split; auto. Qed.

Theorem C34_simple_fit held eval direction fuel maxiter s ctol minlen steplen jumps chunks st out :
  visited st = [] ->
  simple_fit held eval direction fuel maxiter s ctol minlen steplen jumps chunks st = Some out ->
  never_moves_held held st (end_state out).
Proof.
  intros Hv E; apply agrees_never. eapply simple_loop_agrees; [exact E|].
  apply agrees_jumpstart_cython, agrees_start; auto.
Qed.
Theorem C34_simple_step held eval direction fuel full s steplen st r st' :
  visited st = [] ->
  simple_step held eval direction fuel full s steplen st = Some (r, st') ->
  never_moves_held held st st'.
Proof.
  intros Hv E; apply agrees_never. unfold simple_step in E.
  destruct (search _ _ _ _ _ _ _ _ _ _) as [[[p t] st1]|] eqn:Es; [|discriminate].
  apply (agrees_search _ _ _ _ _ _ _ _ _ _ _ _ _ (vals st)) in Es; [|apply agrees_start; auto].
  destruct (nle _ _); inversion E; subst; auto. apply (agrees_set held (vals st) (vals st) st1 Es).
Qed.
Theorem C34_fit_bhhh held eval direction fuel maxiter s ctol minlen maxlen momentum stepI stepS i0 s0 steplen st out :
  visited st = [] ->
  fit_model held eval direction fuel maxiter s ctol minlen maxlen momentum stepI stepS i0 s0 steplen st = Some out ->
  never_moves_held held st (end_state out).
Proof.
  intros Hv E; apply agrees_never. eapply fit_loop_agrees; [exact E|].
  apply agrees_init, agrees_start; auto.
Qed.
Theorem C34_fit_numba held eval direction violated cct ncases jdir
  fuel maxiter s a i0 s0 steplen jumps chunks st out :
  visited st = [] ->
  fit_numba held eval direction violated cct ncases jdir
    fuel maxiter s a i0 s0 steplen jumps chunks st = Some out ->
  never_moves_held held st (end_state out).
Proof.
  intros Hv E; apply agrees_never. eapply numba_loop_agrees; [exact E|].
  apply agrees_jumpstart_numba, agrees_init, agrees_start; auto.
Qed.
(** The scipy methods, whatever points they evaluate. *)
Theorem C34_scipy held xs st :
  visited st = [] -> never_moves_held held st (scipy_evaluations held xs st).
Proof.
  intros Hv; apply agrees_never. unfold scipy_evaluations.
  pose proof (agrees_start held st Hv) as Ha. remember (vals st) as p0. clear Heqp0 Hv.
  revert st Ha; induction xs; simpl; intros; auto. apply IHxs, agrees_set; auto.
Qed.
(** With two parameters, the second held: the first moves, the second does not. *)
Definition quad2 (s : sample) (p : list R) (i k : R) : point :=
  let x := nth 0 p 0 in let y := nth 1 p 0 in
  mkPt (Fin (- (x - 1) * (x - 1) - y)) [- 2 * (x - 1); 1] [[2; 0]; [0; 2]] 0.
Example C34_case :
  exists tol,
  simple_fit [false; true] quad2 (simple_direction halfinv [false; true]) 20 1 cython_full
    (1/10000) (1/10000) 1 0 [] (mkSt [0; 7] 0 0 [])
  = Some (Fit (Fin (- (0 + 1 * 1 - 1) * (0 + 1 * 1 - 1) - 7)) tol 1 [1] Success
      (mkSt [0 + 1 * 1; 7] 0 0 [[0 + 1 * 1; 7]])).
Proof.
  set (D := simple_direction halfinv [false; true]). set (p1 := [0 + 1 * 1; 7]).
  assert (Hd : dir_of D (quad2 cython_full [0; 7] 0 0) = [1; 0]).
  { unfold D, dir_of, simple_direction, vecmat, free_slots_inverse; simpl. f_equal; [field|f_equal; field]. }
  assert (Ht : tol_of D (quad2 cython_full [0; 7] 0 0) = 2).
  { unfold tol_of; rewrite Hd; simpl; ring. }
  assert (Ht2 : tol_of D (quad2 cython_full p1 0 0) = 0).
  { unfold D, tol_of, dir_of, simple_direction, vecmat, free_slots_inverse, p1; simpl. field. }
  exists 0. unfold simple_fit. cbn [jumpstart_cython]. change (1 - 0)%nat with (S 0).
  change (eval_at quad2 cython_full (mkSt [0; 7] 0 0 [])) with (quad2 cython_full [0; 7] 0 0).
  assert (Hs : search [false; true] quad2 20 cython_full [0; 7] [1; 0] (e_ll (quad2 cython_full [0; 7] 0 0)) (1/10000) 1
      (mkSt [0; 7] 0 0 []) = Some (quad2 cython_full p1 0 0, 1, mkSt p1 0 0 [p1])).
  { apply (search_hit [false; true] quad2 19 cython_full [0; 7] [1; 0] _ _ _ _ (mkSt p1 0 0 [p1])); [reflexivity|].
    unfold p1; simpl. destruct (Rle_dec _ _); [lra|auto]. }
  rewrite (simple_loop_step _ _ _ _ _ _ _ _ _ _ _ _ _ _ (quad2 cython_full p1 0 0) 1 (mkSt p1 0 0 [p1])).
  - rewrite simple_loop_done; [rewrite Ht2; reflexivity|]. rewrite Ht2, Rabs_R0; lra.
  - rewrite Ht, Rabs_pos_eq; lra.
  - rewrite Hd. exact Hs.
  - unfold p1; simpl. destruct (Rle_dec _ _); [lra|auto].
Qed.

(** ** C55: estimation terminates.  There is an amount of fuel, depending only on the settings,
    with which no inner loop runs out, whatever the objective, start and direction. *)
Theorem C55_simple_fit_terminates held eval direction maxiter s ctol minlen steplen jumps chunks :
  0 < minlen ->
  exists N, forall fuel st, (N <= fuel)%nat ->
    simple_fit held eval direction fuel maxiter s ctol minlen steplen jumps chunks st <> None.
Proof.
  intros Hm. destruct (halvings (Rmax steplen 0) minlen Hm) as (N & HN & Hh).
  exists N; intros fuel st Hf. apply simple_loop_total with (B := Rmax steplen 0);
    auto using Rmax_l, Rmax_r; lia.
Qed.
Theorem C55_fit_bhhh_terminates held eval direction maxiter s ctol minlen maxlen momentum stepI stepS i0 s0 steplen :
  0 < minlen ->
  exists N, forall fuel st, (N <= fuel)%nat ->
    fit_model held eval direction fuel maxiter s ctol minlen maxlen momentum stepI stepS i0 s0 steplen st <> None.
Proof.
  intros Hm. destruct (halvings (Rmax (Rmax steplen maxlen) 0) minlen Hm) as (N & HN & Hh).
  exists N; intros fuel st Hf.
  apply fit_loop_total with (B := Rmax (Rmax steplen maxlen) 0); auto using Rmax_r; try lia.
  - eapply Rle_trans; [|apply Rmax_l]; apply Rmax_l.
  - eapply Rle_trans; [|apply Rmax_l]; apply Rmax_r.
Qed.
(** numba: the sharpness must be positive and grow. *)
Theorem C55_fit_numba_terminates held eval direction violated cct ncases jdir maxiter s a i0 s0 steplen jumps chunks lo :
  0 < na_minlen a -> 1 < na_stepS a -> 0 < lo <= na_maxS a ->
  exists N, forall fuel st, (N <= fuel)%nat -> lo <= sharp (init_penalty i0 s0 st) ->
    fit_numba held eval direction violated cct ncases jdir fuel maxiter s a i0 s0 steplen jumps chunks st <> None.
Proof.
  intros Hm H1 [Hlo Hlm].
  destruct (halvings (Rmax (Rmax steplen (na_maxlen a)) 0) (na_minlen a) Hm) as (N & HN & Hh).
  destruct (Pow_x_infinity (na_stepS a) ltac:(rewrite Rabs_pos_eq; lra) (na_maxS a / lo)) as (M & HM).
  exists (N + S M)%nat; intros fuel st Hf Hs.
  assert (Hsh : forall n st, sharp (jumpstart_numba held eval jdir (1/2) n chunks st) = sharp st).
  { clear. induction n; simpl; intros; auto. rewrite IHn. clear IHn.
    generalize (vals st) at 1 as base. revert st. induction chunks; simpl; intros; auto.
    rewrite IHchunks; auto. }
  apply numba_loop_total with (B := Rmax (Rmax steplen (na_maxlen a)) 0) (lo := lo); auto using Rmax_r; try lia.
  - intros; apply Hh; auto; lia.
  - eapply Rle_trans; [|apply Rmax_l]; apply Rmax_l.
  - eapply Rle_trans; [|apply Rmax_l]; apply Rmax_r.
  - rewrite Hsh; auto.
  - specialize (HM (fuel - 1)%nat ltac:(lia)).
    rewrite Rabs_pos_eq in HM by (apply pow_le; lra).
    apply Rge_le in HM. apply Rmult_le_compat_l with (r := lo) in HM; [|lra].
    replace (lo * (na_maxS a / lo)) with (na_maxS a) in HM by (field; lra). auto.
Qed.
(** The hypotheses hold of the default settings. *)
Example C55_defaults : 0 < na_minlen numba_defaults /\ 1 < na_stepS numba_defaults /\ 0 < 1 <= na_maxS numba_defaults.
Proof. simpl; lra. Qed.

(** Without a positive minimum step length the search need not end: no amount of fuel is enough
    (in exact arithmetic). *)
Theorem C55_zero_minimum_steplen_refuted :
  forall fuel, simple_fit [false] cliff (simple_direction (fun m => m) [false]) fuel 100 cython_full
    (1/10000) 0 1 0 [] st0 = None.
Proof.
  intros fuel. unfold simple_fit. cbn [jumpstart_cython]. change (100 - 0)%nat with (S 99).
  set (D := simple_direction (fun m => m) [false]).
  assert (E0 : eval_at cliff cython_full st0 = mkPt (Fin (-10)) [1] [[1]] 0).
  { unfold eval_at, cliff; simpl. destruct (Req_EM_T _ _); [auto|congruence]. }
  assert (Hd : dir_of D (mkPt (Fin (-10)) [1] [[1]] 0) = [1]).
  { unfold D, dir_of, simple_direction, vecmat, free_slots_inverse; simpl. f_equal; ring. }
  assert (Ht : tol_of D (mkPt (Fin (-10)) [1] [[1]] 0) = 1).
  { unfold tol_of; rewrite Hd; simpl; ring. }
  assert (Hs : forall f t st, length (vals st) = 1%nat -> 0 < t ->
    search [false] cliff f cython_full [0] [1] (Fin (-10)) 0 t st = None).
  { induction f; intros t st Hl Hp; auto. cbn [search].
    set (st1 := set_vals [false] (axpy [0] [1] t) st).
    assert (Hv : vals st1 = [0 + 1 * t]).
    { unfold st1; simpl. destruct (vals st) as [|x [|y l]]; simpl in *; try discriminate; auto. }
    assert (He : e_ll (eval_at cliff cython_full st1) = Fin (-20)).
    { unfold eval_at, cliff. rewrite Hv. simpl nth. destruct (Req_EM_T _ _); [lra|auto]. }
    rewrite He. simpl nlt. destruct (Rle_dec _ _); [|lra]. simpl negb. cbn iota.
    destruct (Rlt_dec _ _); [lra|]. apply IHf; [rewrite Hv; auto|lra]. }
  rewrite E0. cbn [simple_loop]. rewrite Ht, Rabs_R1.
  destruct (Rlt_dec _ _) as [_|H]; [|lra]. rewrite Hd. change (vals st0) with [0].
  simpl e_ll. rewrite Hs; auto. lra.
Qed.

(** ** C34/C32 helper code: the chunks of the Cython jumpstart cover every case exactly once. *)
Lemma pairs_cover n step f a :
  (0 < step)%nat -> (a < n)%nat -> (n - a <= f)%nat ->
  flat_map (chunk_cases n) (pairs (map Z.of_nat (py_range f a n step) ++ [(-1)%Z])) = seq a (n - a).
Proof.
  intros Hs. revert a; induction f as [|f IH]; intros a Ha Hf; [lia|].
  cbn [py_range]. assert (E : Nat.ltb a n = true) by (apply Nat.ltb_lt; auto). rewrite E.
  destruct (Nat.lt_ge_cases (a + step) n) as [Hlt|Hge].
  - specialize (IH (a + step)%nat Hlt ltac:(lia)).
    destruct f as [|f]; [lia|]. cbn [py_range] in IH |- *.
    assert (E2 : Nat.ltb (a + step) n = true) by (apply Nat.ltb_lt; auto). rewrite E2 in *.
    cbn [map app] in *.
    set (L := (map Z.of_nat (py_range f (a + step + step) n step) ++ [(-1)%Z])%list) in *.
    change (chunk_cases n (Z.of_nat a, Z.of_nat (a + step)) ++
            flat_map (chunk_cases n) (pairs (Z.of_nat (a + step) :: L)) = seq a (n - a)).
    rewrite IH.
    unfold chunk_cases; cbn [fst snd].
    assert (E3 : Z.eqb (Z.of_nat (a + step)) (-1) = false) by (apply Z.eqb_neq; lia). rewrite E3.
    rewrite !Nat2Z.id. replace (a + step - a)%nat with step by lia.
    replace (n - a)%nat with (step + (n - (a + step)))%nat by lia.
    rewrite seq_app. auto.
  - assert (E2 : py_range f (a + step) n step = []).
    { destruct f; auto. cbn [py_range]. apply Nat.ltb_ge in Hge. rewrite Hge; auto. }
    rewrite E2. cbn [map app pairs flat_map]. rewrite app_nil_r.
    unfold chunk_cases; cbn [fst snd]. simpl Z.eqb. cbn iota. rewrite Nat2Z.id. auto.
Qed.
(** No chunk is longer than the step. *)
Lemma chunk_size n step f a c : (0 < step)%nat -> (n - a <= f)%nat ->
  In c (pairs (map Z.of_nat (py_range f a n step) ++ [(-1)%Z])) -> (length (chunk_cases n c) <= step)%nat.
Proof.
  intros Hst. revert a. induction f as [|f IH]; intros a Hf Hc; [destruct Hc|].
  cbn [py_range] in Hc. destruct (Nat.ltb_spec a n) as [Ha|Ha]; [|destruct Hc].
  destruct f as [|f].
  - cbn in Hc. destruct Hc as [<-|[]]. unfold chunk_cases; cbn [fst snd]. simpl Z.eqb. cbn iota.
    rewrite seq_length, Nat2Z.id. lia.
  - specialize (IH (a + step)%nat ltac:(lia)). cbn [py_range] in IH, Hc.
    destruct (Nat.ltb_spec (a + step) n) as [Hb|Hb].
    + cbn [map app pairs] in Hc, IH. destruct Hc as [<-|Hc]; [|now apply IH].
      unfold chunk_cases; cbn [fst snd]. destruct (Z.eqb_spec (Z.of_nat (a + step)) (-1)); [lia|].
      rewrite seq_length, !Nat2Z.id. lia.
    + cbn in Hc. destruct Hc as [<-|[]]. unfold chunk_cases; cbn [fst snd]. simpl Z.eqb. cbn iota.
      rewrite seq_length, Nat2Z.id. lia.
Qed.
Theorem C34_jumpstart_chunks_cover n split :
  (0 < n)%nat -> (0 < split)%nat ->
  exists chunks, jump_chunks n split = Some chunks /\ flat_map (chunk_cases n) chunks = seq 0 n /\
    (length chunks <= split)%nat /\
    forall c, In c chunks -> (split * (length (chunk_cases n c) - 1) < n)%nat.
Proof.
  intros Hn Hsp. unfold jump_chunks.
  assert (Hst : (0 < jump_step n split)%nat).
  { unfold jump_step. destruct (Nat.eqb_spec (n mod split) 0) as [E|E].
    - apply Nat.div_exact in E; [|lia]. destruct (n / split)%nat; [|lia]. lia.
    - lia. }
  destruct (Nat.eqb_spec (jump_step n split) 0); [lia|].
  eexists; split; [reflexivity|split; [|split]].
  - rewrite pairs_cover; auto; [f_equal|]; lia.
  - assert (Hlen : forall l z, length (pairs (l ++ [z])) = length l).
    { induction l as [|x l IHl]; intros; auto. destruct l as [|y l]; auto.
      change (length ((x, y) :: pairs ((y :: l) ++ [z])) = length (x :: y :: l)).
      cbn [length]. f_equal. apply IHl. }
    rewrite Hlen, map_length.
    assert (Hr : forall f a, (a <= n)%nat -> (length (py_range f a n (jump_step n split)) * jump_step n split
               < n - a + jump_step n split)%nat).
    { induction f as [|f IHf]; intros a Ha; [simpl; lia|]. cbn [py_range].
      destruct (Nat.ltb_spec a n); [|simpl; lia]. cbn [length].
      destruct (Nat.le_gt_cases (a + jump_step n split) n) as [Hle|Hgt].
      - specialize (IHf _ Hle). lia.
      - assert (E2 : py_range f (a + jump_step n split) n (jump_step n split) = []).
        { destruct f; auto. cbn [py_range]. destruct (Nat.ltb_spec (a + jump_step n split) n); [lia|auto]. }
        rewrite E2. simpl. lia. }
    specialize (Hr n 0%nat ltac:(lia)).
    assert (Hcov : (n <= split * jump_step n split)%nat).
    { unfold jump_step. pose proof (Nat.div_mod n split ltac:(lia)) as Hd.
      pose proof (Nat.mod_upper_bound n split ltac:(lia)).
      destruct (Nat.eqb_spec (n mod split) 0); lia. }
    set (k := length _) in *. set (t := jump_step n split) in *. clearbody k t.
    destruct (Nat.le_gt_cases k split); auto. exfalso.
    assert ((split + 1) * t <= k * t)%nat by (apply Nat.mul_le_mono_r; lia). lia.
  - intros c Hc. pose proof (chunk_size n (jump_step n split) n 0 c Hst ltac:(lia) Hc) as Hs.
    assert (Hcov : (split * (jump_step n split - 1) < n)%nat).
    { unfold jump_step. pose proof (Nat.div_mod n split ltac:(lia)) as Hd.
      pose proof (Nat.mod_upper_bound n split ltac:(lia)).
      destruct (Nat.eqb_spec (n mod split) 0); [|nia].
      assert (n / split <> 0)%nat by nia. nia. }
    assert (split * (length (chunk_cases n c) - 1) <= split * (jump_step n split - 1))%nat; [|lia].
    apply Nat.mul_le_mono_l. lia.
Qed.

(** ** C35 *)
Lemma fold_nmax l x : is_nan x = false -> forallb (fun y => negb (is_nan y)) l = true ->
  is_nan (fold_left nmax l x) = false /\
  (fold_left nmax l x = PInf <-> x = PInf \/ In PInf l) /\
  (fold_left nmax l x = NInf <-> x = NInf /\ forall y, In y l -> y = NInf).
Proof.
  revert x; induction l as [|y l IH]; simpl; intros x Hx Hl.
  - split; auto. split; split; intros; try tauto; try (destruct H as [?|[]]; auto).
  - apply andb_prop in Hl. destruct Hl as [Hy Hl]. apply negb_true_iff in Hy.
    assert (Hm : is_nan (nmax x y) = false /\ (nmax x y = PInf <-> x = PInf \/ y = PInf) /\
                 (nmax x y = NInf <-> x = NInf /\ y = NInf)).
    { unfold nmax; rewrite Hx, Hy; simpl. destruct x, y; simpl in *; try discriminate;
        try (destruct (Rle_dec _ _)); repeat split; try tauto; intros; try (intuition discriminate);
        try (destruct H; discriminate); auto; try discriminate. }
    destruct Hm as (Hm1 & Hm2 & Hm3). destruct (IH _ Hm1 Hl) as (H1 & H2 & H3).
    split; auto. split.
    + rewrite H2, Hm2. intuition.
    + rewrite H3, Hm3. split.
      * intros [[-> ->] H]; split; auto. intros z [<-|Hz]; auto.
      * intros [-> H]; repeat split; auto.
Qed.
Lemma fold_nmin l x : is_nan x = false -> forallb (fun y => negb (is_nan y)) l = true ->
  is_nan (fold_left nmin l x) = false /\
  (fold_left nmin l x = NInf <-> x = NInf \/ In NInf l) /\
  (fold_left nmin l x = PInf <-> x = PInf /\ forall y, In y l -> y = PInf).
Proof.
  revert x; induction l as [|y l IH]; simpl; intros x Hx Hl.
  - split; auto. split; split; intros; try tauto; try (destruct H as [?|[]]; auto).
  - apply andb_prop in Hl. destruct Hl as [Hy Hl]. apply negb_true_iff in Hy.
    assert (Hm : is_nan (nmin x y) = false /\ (nmin x y = NInf <-> x = NInf \/ y = NInf) /\
                 (nmin x y = PInf <-> x = PInf /\ y = PInf)).
    { unfold nmin; rewrite Hx, Hy; simpl. destruct x, y; simpl in *; try discriminate;
        try (destruct (Rle_dec _ _)); repeat split; try tauto; intros; try (intuition discriminate);
        try (destruct H; discriminate); auto; try discriminate. }
    destruct Hm as (Hm1 & Hm2 & Hm3). destruct (IH _ Hm1 Hl) as (H1 & H2 & H3).
    split; auto. split.
    + rewrite H2, Hm2. intuition.
    + rewrite H3, Hm3. split.
      * intros [[-> ->] H]; split; auto. intros z [<-|Hz]; auto.
      * intros [-> H]; repeat split; auto.
Qed.
Lemma skip_all l : forallb (fun y => negb (is_nan y)) (skip_nan l) = true.
Proof. unfold skip_nan; induction l; simpl; auto. destruct (is_nan a) eqn:E; simpl; auto. rewrite E; auto. Qed.
Lemma classic_dec_fin l :
  {y | In (Fin y) l} + {forall y, In y l -> is_nan y = false -> y <> PInf -> y = NInf}.
Proof.
  induction l as [|a l IH]; [right; simpl; tauto|].
  destruct IH as [[y Hy]|Hno]; [left; exists y; simpl; auto|].
  destruct a; try (left; exists x; simpl; auto; fail);
    right; intros y [<-|Hy] H1 H2; auto; simpl in *; congruence.
Qed.
Lemma finite_max l : ~ In PInf l -> (is_finite (series_max l) = true <-> exists x, In (Fin x) l).
Proof.
  intros Hp. unfold series_max.
  assert (Hin : forall y, In y (skip_nan l) <-> In y l /\ is_nan y = false).
  { intros; unfold skip_nan; rewrite filter_In, negb_true_iff; tauto. }
  pose proof (skip_all l) as Ha.
  destruct (skip_nan l) as [|z t].
  - simpl; split; [discriminate|]. intros [x Hx]. exfalso. apply (Hin (Fin x)); auto.
  - simpl in Ha. apply andb_prop in Ha. destruct Ha as [Hz Ha]. apply negb_true_iff in Hz.
    destruct (fold_nmax t z Hz Ha) as (H1 & H2 & H3).
    assert (Hnp : fold_left nmax t z <> PInf).
    { rewrite H2. intros Hc. apply Hp. apply (Hin PInf). simpl. destruct Hc; auto. }
    split.
    + intros Hf. destruct (fold_left nmax t z) eqn:E; try discriminate.
      destruct (classic_dec_fin (z :: t)) as [[y Hy]|Hno].
      * exists y. apply (Hin (Fin y)); auto.
      * exfalso. assert (Fin x = NInf) as Hbad; [|discriminate]. apply H3. split.
        -- apply Hno; [simpl; auto|exact Hz|intros ->; apply Hp; apply (Hin PInf); simpl; auto].
        -- intros y Hy. apply Hno; [simpl; auto| |].
           ++ rewrite forallb_forall in Ha. apply negb_true_iff, Ha; auto.
           ++ intros ->. apply Hp, (Hin PInf); simpl; auto.
    + intros [x Hx]. destruct (fold_left nmax t z) eqn:E; auto; try discriminate; try congruence.
      exfalso. assert (Hn : z = NInf /\ forall y, In y t -> y = NInf) by (apply H3; auto).
      destruct Hn as [-> Hn]. destruct (proj2 (Hin (Fin x)) (conj Hx eq_refl)) as [Hc|Hc]; [discriminate|].
      apply Hn in Hc; discriminate.
Qed.
Lemma classic_dec_fin' l :
  {y | In (Fin y) l} + {forall y, In y l -> is_nan y = false -> y <> NInf -> y = PInf}.
Proof.
  induction l as [|a l IH]; [right; simpl; tauto|].
  destruct IH as [[y Hy]|Hno]; [left; exists y; simpl; auto|].
  destruct a; try (left; exists x; simpl; auto; fail);
    right; intros y [<-|Hy] H1 H2; auto; simpl in *; congruence.
Qed.
Lemma finite_min l : ~ In NInf l -> (is_finite (series_min l) = true <-> exists x, In (Fin x) l).
Proof.
  intros Hp. unfold series_min.
  assert (Hin : forall y, In y (skip_nan l) <-> In y l /\ is_nan y = false).
  { intros; unfold skip_nan; rewrite filter_In, negb_true_iff; tauto. }
  pose proof (skip_all l) as Ha.
  destruct (skip_nan l) as [|z t].
  - simpl; split; [discriminate|]. intros [x Hx]. exfalso. apply (Hin (Fin x)); auto.
  - simpl in Ha. apply andb_prop in Ha. destruct Ha as [Hz Ha]. apply negb_true_iff in Hz.
    destruct (fold_nmin t z Hz Ha) as (H1 & H2 & H3).
    assert (Hnp : fold_left nmin t z <> NInf).
    { rewrite H2. intros Hc. apply Hp. apply (Hin NInf). simpl. destruct Hc; auto. }
    split.
    + intros Hf. destruct (fold_left nmin t z) eqn:E; try discriminate.
      destruct (classic_dec_fin' (z :: t)) as [[y Hy]|Hno].
      * exists y. apply (Hin (Fin y)); auto.
      * exfalso. assert (Fin x = PInf) as Hbad; [|discriminate]. apply H3. split.
        -- apply Hno; [simpl; auto|exact Hz|intros ->; apply Hp; apply (Hin NInf); simpl; auto].
        -- intros y Hy. apply Hno; [simpl; auto| |].
           ++ rewrite forallb_forall in Ha. apply negb_true_iff, Ha; auto.
           ++ intros ->. apply Hp, (Hin NInf); simpl; auto.
    + intros [x Hx]. destruct (fold_left nmin t z) eqn:E; auto; try discriminate; try congruence.
      exfalso. assert (Hn : z = PInf /\ forall y, In y t -> y = PInf) by (apply H3; auto).
      destruct Hn as [-> Hn]. destruct (proj2 (Hin (Fin x)) (conj Hx eq_refl)) as [Hc|Hc]; [discriminate|].
      apply Hn in Hc; discriminate.
Qed.

Lemma not_finite_max l : ~ In PInf l -> is_finite (series_max l) = false -> forall x, ~ In (Fin x) l.
Proof.
  intros Hp Hf x Hx. assert (is_finite (series_max l) = true) by (apply finite_max; eauto). congruence.
Qed.

(** With no method given and no BHHH start, SLSQP is chosen iff there is a constraint or a finite
    bound, as long as no minimum is +inf and no maximum is -inf. NaN bounds count as absent. *)
Theorem C35_default_method has_constraints mins maxs :
  ~ In PInf mins -> ~ In NInf maxs ->
  (choose_method 0 None has_constraints mins maxs = "slsqp"%string <->
   has_constraints = true \/ (exists x, In (Fin x) mins) \/ (exists x, In (Fin x) maxs)) /\
  (choose_method 0 None has_constraints mins maxs = "bhhh"%string <->
   has_constraints = false /\ (forall x, ~ In (Fin x) mins) /\ (forall x, ~ In (Fin x) maxs)).
Proof.
  intros H1 H2. rewrite <- (finite_max mins H1), <- (finite_min maxs H2).
  assert (Ha : (forall x, ~ In (Fin x) mins) <-> is_finite (series_max mins) = false).
  { split; intros H.
    - apply not_true_is_false. rewrite finite_max by auto. intros [x Hx]; exact (H x Hx).
    - intros x Hx. assert (is_finite (series_max mins) = true) by (apply finite_max; eauto). congruence. }
  assert (Hb : (forall x, ~ In (Fin x) maxs) <-> is_finite (series_min maxs) = false).
  { split; intros H.
    - apply not_true_is_false. rewrite finite_min by auto. intros [x Hx]; exact (H x Hx).
    - intros x Hx. assert (is_finite (series_min maxs) = true) by (apply finite_min; eauto). congruence. }
  rewrite Ha, Hb. unfold choose_method; simpl.
  destruct has_constraints, (is_finite (series_max mins)), (is_finite (series_min maxs)); simpl;
    split; split; intros; try tauto; try discriminate; intuition discriminate.
Qed.
Example C35_cases :
  choose_method 0 None false [NInf; Fin 0] [PInf; PInf] = "slsqp"%string /\
  choose_method 0 None false [NInf; NInf] [PInf; PInf] = "bhhh"%string /\
  choose_method 0 None true [NInf; NInf] [PInf; PInf] = "slsqp"%string /\
  choose_method 3 (Some "BHHH"%string) false [NInf; NInf] [PInf; PInf] = "slsqp"%string.
Proof. repeat split; reflexivity. Qed.

(** The rule looks at the largest minimum, so one lower bound of +inf hides every other. *)
Theorem C35_infinite_minimum_refuted :
  choose_method 0 None false [Fin 0; PInf] [PInf; PInf] = "bhhh"%string /\ In (Fin 0) [Fin 0; PInf].
Proof. split; [reflexivity|simpl; auto]. Qed.

(** A method given by name is the one used unless a BHHH start is asked for together with BHHH. *)
Theorem C35_given_method n m has_constraints mins maxs :
  choose_method n (Some m) has_constraints mins maxs =
    if Nat.eqb n 0 then m else if is_bhhh m then "slsqp"%string else m.
Proof. unfold choose_method. destruct (Nat.eqb n 0), (is_bhhh m); auto. Qed.

(** Intensity and sharpness are restored on every exit if the model had them before. *)
Theorem C35_restored w name_of bhhh_start method method2 hc mins maxs i k x at1 :
  maximize_loglike w name_of bhhh_start method method2 hc mins maxs (mkAttrs (Some i) (Some k)) = (x, at1) ->
  at1 = mkAttrs (Some i) (Some k).
Proof.
  unfold maximize_loglike. destruct (body _ _ _ _ _ _) as [y at2]. simpl. inversion 1; auto.
Qed.
(** A model without them is left with an intensity by a BHHH start. *)
Theorem C35_restored_absent_refuted w name_of method method2 hc mins maxs n x at1 :
  n <> 0%nat ->
  maximize_loglike w name_of n method method2 hc mins maxs (mkAttrs None None) = (x, at1) ->
  a_intens at1 = Some 0.
Proof.
  intros Hn. unfold maximize_loglike, body.
  destruct (Nat.eqb_spec n 0); [contradiction|].
  destruct (w_start w _) as [r a1] eqn:Es.
  assert (Hb : is_bhhh (choose_method n method hc mins maxs) = false).
  { unfold choose_method. destruct (Nat.eqb_spec n 0); [contradiction|].
    destruct method as [m|]; auto. destruct (is_bhhh m) eqn:E; auto. }
  rewrite Hb. unfold scipy_part.
  destruct r; simpl; try (inversion 1; subst; simpl; auto; fail);
    destruct (w_scipy w); inversion 1; subst; simpl; auto.
Qed.

(** When BHHH fails, the fallback optimizer's result is returned: a normal return has a log
    likelihood unless the user named BHHH as the fallback. *)
Theorem C35_returns_loglike w name_of method method2 hc mins maxs at_ ll used at1 :
  match method2 with Some m => is_bhhh m = false | None => True end ->
  maximize_loglike w name_of 0 method method2 hc mins maxs at_ = (Returned ll used, at1) ->
  exists v, ll = Some v /\
    (w_scipy w = ScipyOk v \/
     (is_bhhh (choose_method 0 method hc mins maxs) = true /\ fst (w_fit w at_) = FitOk v)).
Proof.
  intros H2. unfold maximize_loglike, body. simpl Nat.eqb. cbn iota.
  set (m := choose_method 0 method hc mins maxs). simpl negb. cbn iota.
  destruct (is_bhhh m) eqn:Em.
  - destruct (w_fit w at_) as [r a1] eqn:Ef. unfold scipy_part.
    assert (Hm2 : exists m2, choose_method2 m method2 = Some m2 /\ is_bhhh m2 = false).
    { unfold choose_method2. destruct method2 as [m2|]; [eauto|]. rewrite Em. eexists; split; reflexivity. }
    destruct Hm2 as (m2 & E2 & E3). rewrite E2.
    destruct r; rewrite ?E3; [inversion 1; subst; exists ll0; auto| | |discriminate];
      destruct (w_scipy w) eqn:Ew; inversion 1; subst; eexists; split; auto.
  - unfold scipy_part. destruct (w_scipy w) eqn:Ew; inversion 1; subst; eexists; split; auto.
Qed.

(** The method reported: the one that produced the result, preceded by a BHHH that failed to find a step. *)
Theorem C35_method_used w name_of m m2 hc mins maxs at_ ll used at1 :
  is_bhhh m2 = false ->
  maximize_loglike w name_of 0 (Some m) (Some m2) hc mins maxs at_ = (Returned ll used, at1) ->
  used = (if is_bhhh m then
            match fst (w_fit w at_) with
            | FitStepFailure => (m ++ "|" ++ m2)%string
            | FitNotImplemented => m2
            | _ => m
            end
          else m).
Proof.
  intros H2. unfold maximize_loglike, body, choose_method2, choose_method, scipy_part. simpl Nat.eqb. cbn iota. simpl negb. cbn iota.
  destruct (is_bhhh m) eqn:Em.
  - destruct (w_fit w at_) as [r a1]. simpl fst. rewrite H2. destruct r; try discriminate; [ intros H; injection H; auto | | ];
      destruct (w_scipy w); try discriminate; intros H; injection H; auto.
  - destruct (w_scipy w); try discriminate; intros H; injection H; auto.
Qed.
(** ... and without a fallback given, SLSQP is. *)
Theorem C35_default_fallback w name_of hc mins maxs at_ m :
  maximize_loglike w name_of 0 (Some m) None hc mins maxs at_ =
  if is_bhhh m then maximize_loglike w name_of 0 (Some m) (Some "slsqp"%string) hc mins maxs at_
  else maximize_loglike w name_of 0 (Some m) (Some m) hc mins maxs at_.
Proof.
  unfold maximize_loglike, choose_method2, choose_method. simpl Nat.eqb. cbn iota. destruct (is_bhhh m) eqn:E; auto.
  unfold body. rewrite E. auto.
Qed.
(** A BHHH start is reported by its name, whatever follows. *)
Theorem C35_method_used_after_start w name_of n m m2 hc mins maxs at_ ll used at1 : n <> 0%nat ->
  maximize_loglike w name_of n (Some m) m2 hc mins maxs at_ = (Returned ll used, at1) ->
  used = name_of n (if is_bhhh m then "slsqp"%string else m).
Proof.
  intros Hn. unfold maximize_loglike, body, scipy_part. rewrite C35_given_method. destruct (Nat.eqb_spec n 0); [ contradiction | ].
  destruct (w_start w at_) as [r a1].
  assert (Hb : is_bhhh (if is_bhhh m then "slsqp"%string else m) = false) by (destruct (is_bhhh m) eqn:E; auto).
  destruct r; simpl negb; cbn iota; rewrite ?Hb; destruct (w_scipy w); try discriminate; intros H; injection H; auto.
Qed.
(** The initial penalty arguments: a fit given an intensity (or sharpness) is the fit of the model that has
    that intensity (or sharpness), whatever the model had before; a fit given none uses the model's own. *)
Theorem C33_initial_penalty held eval direction fuel maxiter s ctol minlen maxlen momentum stepI stepS i0 s0 steplen st :
  fit_model held eval direction fuel maxiter s ctol minlen maxlen momentum stepI stepS i0 s0 steplen st =
  fit_model held eval direction fuel maxiter s ctol minlen maxlen momentum stepI stepS None None steplen
    (mkSt (vals st) (match i0 with Some x => x | None => intens st end) (match s0 with Some x => x | None => sharp st end) (visited st)).
Proof. destruct st as [v i k vs], i0, s0; auto. Qed.
Theorem C33_initial_penalty_numba held eval direction violated cct ncases jdir fuel maxiter s a i0 s0 steplen jumps chunks st :
  fit_numba held eval direction violated cct ncases jdir fuel maxiter s a i0 s0 steplen jumps chunks st =
  fit_numba held eval direction violated cct ncases jdir fuel maxiter s a None None steplen jumps chunks
    (mkSt (vals st) (match i0 with Some x => x | None => intens st end) (match s0 with Some x => x | None => sharp st end) (visited st)).
Proof. destruct st as [v i k vs], i0, s0; auto. Qed.
