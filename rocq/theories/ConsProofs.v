(** Proofs about constraints. *)
From Verif Require Import ParamModel ConsModel ConsSpec.
Open Scope R_scope.

Lemma nth_nil (i : nat) : nth i (@nil R) 0 = 0.
Proof. destruct i; auto. Qed.
Lemma get_loc_lt n l i : get_loc n l = Some i -> (i < length l)%nat.
Proof.
  revert i; induction l as [|x l IH]; simpl; intros i; [discriminate|].
  destruct (String.eqb n x); [inversion 1; lia|].
  destruct (get_loc n l); simpl; [|discriminate]. inversion 1; subst. specialize (IH _ eq_refl). lia.
Qed.
Lemma get_loc_value n l i x : get_loc n l = Some i -> length x = length l -> get x i = value_of l x n.
Proof.
  revert i x; induction l as [|m l IH]; simpl; intros i x H Hl; [discriminate|].
  destruct x as [|v x]; [discriminate|]. simpl in *.
  destruct (String.eqb n m); [inversion H; subst; auto|].
  destruct (get_loc n l) as [k|]; simpl in H; [|discriminate]. inversion H; subst.
  unfold get; simpl. apply IH; auto.
Qed.
Lemma get_loc_inj n m l i : get_loc n l = Some i -> get_loc m l = Some i -> n = m.
Proof.
  revert i; induction l as [|x l IH]; simpl; intros i; [discriminate|].
  destruct (String.eqb_spec n x), (String.eqb_spec m x); subst; auto.
  - inversion 1; subst. destruct (get_loc m l); simpl; discriminate.
  - intros H H'; inversion H'; subst. destruct (get_loc n l); simpl in H; discriminate.
  - destruct (get_loc n l) as [a|] eqn:Ea, (get_loc m l) as [b|] eqn:Eb; simpl; try discriminate.
    intros H H'; injection H as H; injection H' as H'. apply (IH a); congruence.
Qed.

Lemma put_length j i v : length (put j i v) = length j.
Proof. revert i; induction j; destruct i; simpl; auto. Qed.
Lemma ip_put j i v x : (i < length j)%nat -> length j = length x ->
  ip (put j i v) x = ip j x + (v - nth i j 0) * get x i.
Proof.
  revert i x; induction j as [|a j IH]; simpl; intros i x Hi Hl; [lia|].
  destruct x as [|y x]; [discriminate|]. simpl in Hl. injection Hl as Hl.
  destruct i; simpl; unfold get; simpl; [ring|]. rewrite IH by (auto; lia). unfold get; ring.
Qed.
Lemma ip_zeros n x : ip (zeros n) x = 0.
Proof. unfold zeros; revert x; induction n; destruct x; simpl; auto. rewrite IHn; ring. Qed.
Lemma nth_zeros n i : nth i (zeros n) 0 = 0.
Proof. unfold zeros; revert i; induction n; destruct i; simpl; auto. Qed.
Lemma nth_put j i v k : (k <> i)%nat -> nth k (put j i v) 0 = nth k j 0.
Proof. revert i k; induction j; destruct i, k; simpl; intros; auto; try lia. Qed.
Lemma nth_put_eq j i v : (i < length j)%nat -> nth i (put j i v) 0 = v.
Proof. revert i; induction j; destruct i; simpl; intros; auto; try lia. apply IHj; lia. Qed.
Lemma zeros_length n : length (zeros n) = n.
Proof. apply repeat_length. Qed.
Lemma ip_one n i v x : (i < n)%nat -> n = length x -> ip (put (zeros n) i v) x = v * get x i.
Proof.
  intros Hi Hn. rewrite ip_put by (rewrite ?zeros_length; auto).
  rewrite ip_zeros, nth_zeros; ring.
Qed.
Lemma ip_two n i j u v x : (i < n)%nat -> (j < n)%nat -> (i <> j)%nat -> n = length x ->
  ip (put (put (zeros n) i u) j v) x = u * get x i + v * get x j.
Proof.
  intros Hi Hj Hij Hn. rewrite ip_put by (rewrite ?put_length, ?zeros_length; auto).
  rewrite ip_one by auto. rewrite nth_put, nth_zeros by auto. ring.
Qed.

(** ** numbers *)
Lemma nle_fin a b : nle (Fin a) (Fin b) = true <-> a <= b.
Proof. simpl; destruct (Rle_dec a b); split; auto; try discriminate; contradiction. Qed.
Lemma nlt_fin a b : nlt (Fin a) (Fin b) = true <-> a < b.
Proof. simpl; destruct (Rle_dec b a); simpl; split; intros; auto; try discriminate; lra. Qed.
Lemma nonneg_fin a : nonneg (Fin a) <-> 0 <= a.
Proof. apply nle_fin. Qed.
Lemma nonneg_pymin a b : a <> NaN -> b <> NaN -> (nonneg (pymin a b) <-> nonneg a /\ nonneg b).
Proof.
  unfold nonneg, pymin; intros Ha Hb.
  destruct a as [| |x|], b as [| |y|]; try congruence; simpl;
    repeat match goal with |- context [Rle_dec ?x ?y] => destruct (Rle_dec x y); simpl end;
    split; intros; auto; try discriminate; try (destruct H; discriminate); try (exfalso; lra).
Qed.
Lemma nscale_nonneg a k : 0 < k -> a <> NaN -> (nonneg (nscale a k) <-> nonneg a) /\ nscale a k <> NaN.
Proof.
  intros Hk Ha. destruct a as [| |x|]; simpl; try congruence.
  - destruct (Req_EM_T k 0); [lra|]. destruct (Rlt_dec 0 k); [|lra]. split; [tauto|discriminate].
  - split; [|discriminate]. rewrite !nonneg_fin. split; intros.
    + apply Rmult_le_reg_r with k; lra.
    + apply Rmult_le_pos; lra.
  - destruct (Req_EM_T k 0); [lra|]. destruct (Rlt_dec 0 k); [|lra]. split; [tauto|discriminate].
Qed.
Lemma nsub_nonneg a b : a <> NaN -> b <> NaN -> (exists x, a = Fin x \/ b = Fin x) ->
  (nonneg (nsub a b) <-> nle b a = true) /\ nsub a b <> NaN.
Proof.
  intros Ha Hb [x Hx]. destruct Hx; subst.
  - destruct b as [| |y|]; try congruence; split; try discriminate; unfold nonneg;
      try (simpl; split; congruence).
    change (nsub (Fin x) (Fin y)) with (Fin (x - y)). rewrite !nle_fin. split; lra.
  - destruct a as [| |y|]; try congruence; split; try discriminate; unfold nonneg;
      try (simpl; split; congruence).
    change (nsub (Fin y) (Fin x)) with (Fin (y - x)). rewrite !nle_fin. split; lra.
Qed.

(** ** The function of each kind *)
Lemma fixed_iff c p mn mx x :
  c_spec c = Fixed p mn mx -> 0 < c_scale c -> mn <> Some NaN -> mx <> Some NaN ->
  (nonneg (cfun c x) <-> at_least (get x (c_i c)) mn /\ at_most (get x (c_i c)) mx).
Proof.
  intros Hs Hk H1 H2. unfold cfun; rewrite Hs. unfold min_fun, max_fun; rewrite Hs.
  assert (Ha : (nonneg (match mn with Some m => nscale (nsub (Fin (get x (c_i c))) m) (c_scale c) | None => PInf end)
     <-> at_least (get x (c_i c)) mn) /\
     match mn with Some m => nscale (nsub (Fin (get x (c_i c))) m) (c_scale c) | None => PInf end <> NaN).
  { destruct mn as [m|]; simpl; [|unfold nonneg; simpl; split; [tauto|discriminate]].
    assert (Hm : m <> NaN) by congruence.
    destruct (nsub_nonneg (Fin (get x (c_i c))) m) as [Hn Hn']; [discriminate|auto|eauto|].
    destruct (nscale_nonneg _ (c_scale c) Hk Hn') as [Hq Hq']. rewrite Hq, Hn. split; [tauto|auto]. }
  assert (Hb : (nonneg (match mx with Some m => nscale (nsub m (Fin (get x (c_i c)))) (c_scale c) | None => PInf end)
     <-> at_most (get x (c_i c)) mx) /\
     match mx with Some m => nscale (nsub m (Fin (get x (c_i c)))) (c_scale c) | None => PInf end <> NaN).
  { destruct mx as [m|]; simpl; [|unfold nonneg; simpl; split; [tauto|discriminate]].
    assert (Hm : m <> NaN) by congruence.
    destruct (nsub_nonneg m (Fin (get x (c_i c)))) as [Hn Hn']; [auto|discriminate|eauto|].
    destruct (nscale_nonneg _ (c_scale c) Hk Hn') as [Hq Hq']. rewrite Hq, Hn. split; [tauto|auto]. }
  destruct Ha as [Ha Ha'], Hb as [Hb Hb'].
  transitivity (nonneg (match mn with Some m => nscale (nsub (Fin (get x (c_i c))) m) (c_scale c) | None => PInf end) /\
                nonneg (match mx with Some m => nscale (nsub m (Fin (get x (c_i c)))) (c_scale c) | None => PInf end)).
  - destruct mn, mx; apply nonneg_pymin; auto.
  - tauto.
Qed.

Lemma ratio_scaling r k : 0 < r -> 0 < k -> 0 < Rmax r (1 / r) * k.
Proof.
  intros Hr Hk. apply Rmult_lt_0_compat; auto. apply Rlt_le_trans with r; auto. apply Rmax_l.
Qed.
Lemma div_le_pos a r d : 0 < d -> (r <= a / d <-> r * d <= a).
Proof.
  intros Hd. split; intros H.
  - apply Rmult_le_compat_r with (r := d) in H; [|lra]. unfold Rdiv in H.
    rewrite Rmult_assoc, Rinv_l, Rmult_1_r in H by lra. auto.
  - apply Rmult_le_reg_r with d; auto. unfold Rdiv. rewrite Rmult_assoc, Rinv_l, Rmult_1_r by lra. auto.
Qed.
Lemma div_ge_pos a r d : 0 < d -> (a / d <= r <-> a <= r * d).
Proof.
  intros Hd. split; intros H.
  - apply Rmult_le_compat_r with (r := d) in H; [|lra]. unfold Rdiv in H.
    rewrite Rmult_assoc, Rinv_l, Rmult_1_r in H by lra. auto.
  - apply Rmult_le_reg_r with d; auto. unfold Rdiv. rewrite Rmult_assoc, Rinv_l, Rmult_1_r by lra. auto.
Qed.
Lemma div_le_neg a r d : d < 0 -> (r <= a / d <-> a <= r * d).
Proof.
  intros Hd. replace (a / d) with ((- a) / (- d)) by (field; lra). rewrite div_le_pos by lra.
  split; intros; lra.
Qed.
Lemma div_ge_neg a r d : d < 0 -> (a / d <= r <-> r * d <= a).
Proof.
  intros Hd. replace (a / d) with ((- a) / (- d)) by (field; lra). rewrite div_ge_pos by lra.
  split; intros; lra.
Qed.

Lemma ratio_min_iff mn k den f u v a d :
  ratio_coef 1 mn k den f = Some (u, v) -> 0 < k -> (forall r, mn = Some r -> 0 < r) ->
  den_ok f den d ->
  (0 <= a * u + d * v <-> forall r, mn = Some r -> r <= a / d).
Proof.
  intros E Hk Hr [Hp Hn]. unfold ratio_coef in E. destruct mn as [r|].
  2:{ inversion E; subst. split; [discriminate|]. intros; lra. }
  specialize (Hr r eq_refl). destruct (Req_EM_T r 0); [lra|].
  pose proof (ratio_scaling r k Hr Hk) as Hs. set (w := Rmax r (1 / r) * k) in *.
  destruct (nle (Fin 0) _) eqn:Eb.
  - specialize (Hp eq_refl). inversion E; subst u v; clear E.
    match goal with |- 0 <= ?e <-> _ => replace e with (w * (a - r * d)) by ring end.
    transitivity (r * d <= a).
    + split; intros H.
      * assert (0 <= a - r * d); [|lra]. apply Rmult_le_reg_l with w; lra.
      * apply Rmult_le_pos; lra.
    + rewrite <- div_le_pos by auto. split; [intros H r' [= <-]; auto|auto].
  - specialize (Hn eq_refl). destruct (nle (bound_of r_max den f) (Fin 0)); [|discriminate].
    inversion E; subst u v; clear E.
    match goal with |- 0 <= ?e <-> _ => replace e with (w * (r * d - a)) by ring end.
    transitivity (a <= r * d).
    + split; intros H.
      * assert (0 <= r * d - a); [|lra]. apply Rmult_le_reg_l with w; lra.
      * apply Rmult_le_pos; lra.
    + rewrite <- div_le_neg by auto. split; [intros H r' [= <-]; auto|auto].
Qed.
Lemma ratio_max_iff mx k den f u v a d :
  ratio_coef (-1) mx k den f = Some (u, v) -> 0 < k -> (forall r, mx = Some r -> 0 < r) ->
  den_ok f den d ->
  (0 <= a * u + d * v <-> forall r, mx = Some r -> a / d <= r).
Proof.
  intros E Hk Hr [Hp Hn]. unfold ratio_coef in E. destruct mx as [r|].
  2:{ inversion E; subst. split; [discriminate|]. intros; lra. }
  specialize (Hr r eq_refl). destruct (Req_EM_T r 0); [lra|].
  pose proof (ratio_scaling r k Hr Hk) as Hs. set (w := Rmax r (1 / r) * k) in *.
  destruct (nle (Fin 0) _) eqn:Eb.
  - specialize (Hp eq_refl). inversion E; subst u v; clear E.
    match goal with |- 0 <= ?e <-> _ => replace e with (w * (r * d - a)) by ring end.
    transitivity (a <= r * d).
    + split; intros H.
      * assert (0 <= r * d - a); [|lra]. apply Rmult_le_reg_l with w; lra.
      * apply Rmult_le_pos; lra.
    + rewrite <- div_ge_pos by auto. split; [intros H r' [= <-]; auto|auto].
  - specialize (Hn eq_refl). destruct (nle (bound_of r_max den f) (Fin 0)); [|discriminate].
    inversion E; subst u v; clear E.
    match goal with |- 0 <= ?e <-> _ => replace e with (w * (a - r * d)) by ring end.
    transitivity (r * d <= a).
    + split; intros H.
      * assert (0 <= a - r * d); [|lra]. apply Rmult_le_reg_l with w; lra.
      * apply Rmult_le_pos; lra.
    + rewrite <- div_ge_neg by auto. split; [intros H r' [= <-]; auto|auto].
Qed.

(** What linking stores. *)
Lemma link_spec f sc c c' : link_model f sc c = Some c' ->
  c_spec c' = c_spec c /\ c_tol c' = c_tol c /\ c_len c' = length (rows f) /\
  c_scale c' = match sc with Some k => k | None => c_scale c end /\
  match c_spec c with
  | Ratio a b mn mx =>
      get_loc a (names (rows f)) = Some (c_i c') /\ get_loc b (names (rows f)) = Some (c_j c') /\
      ratio_coef 1 mn (c_scale c') b f = Some (c_minn c', c_mind c') /\
      ratio_coef (-1) mx (c_scale c') b f = Some (c_maxn c', c_maxd c')
  | Order a b =>
      get_loc a (names (rows f)) = Some (c_i c') /\ get_loc b (names (rows f)) = Some (c_j c')
  | Fixed a _ _ => get_loc a (names (rows f)) = Some (c_i c')
  end.
Proof.
  unfold link_model. destruct (c_spec c) eqn:Es.
  - destruct (get_loc p_num _) eqn:E1; [|discriminate]. destruct (get_loc p_den _) eqn:E2; [|discriminate].
    destruct (ratio_coef 1 _ _ _ _) as [[u v]|] eqn:E3; [|discriminate].
    destruct (ratio_coef (-1) _ _ _ _) as [[w z]|] eqn:E4; [|discriminate].
    inversion 1; subst; simpl. repeat split; auto.
  - destruct (get_loc p_less _) eqn:E1; [|discriminate]. destruct (get_loc p_more _) eqn:E2; [|discriminate].
    inversion 1; subst; simpl. repeat split; auto.
  - destruct (get_loc p _) eqn:E1; [|discriminate].
    inversion 1; subst; simpl. repeat split; auto.
Qed.
Lemma names_length l : length (names l) = length l.
Proof. apply map_length. Qed.

(** ** Local linearity: [jac] is the gradient. *)
Lemma get_shift x v t i : length x = length v -> get (shift x v t) i = get x i + t * get v i.
Proof.
  unfold get. revert v i; induction x as [|a x IH]; intros [|b v] i Hl; simpl in *; try discriminate.
  - destruct i; ring.
  - destruct i; auto.
Qed.
Lemma shift_length x v t : length x = length v -> length (shift x v t) = length x.
Proof. revert v; induction x; destruct v; simpl; intros; auto; discriminate. Qed.

(** The smaller of two affine functions stays the smaller one nearby. *)
Lemma affine_gap a b u w : a < b -> exists d, 0 < d /\ forall t, Rabs t < d -> a + t * u < b + t * w.
Proof.
  intros H. exists ((b - a) / (Rabs (u - w) + 1)).
  assert (Hp : 0 < Rabs (u - w) + 1) by (pose proof (Rabs_pos (u - w)); lra).
  split; [apply Rdiv_lt_0_compat; lra|]. intros t Ht.
  assert (Rabs t * (Rabs (u - w) + 1) < b - a).
  { replace (b - a) with ((b - a) / (Rabs (u - w) + 1) * (Rabs (u - w) + 1)) by (field; lra).
    apply Rmult_lt_compat_r; auto. }
  assert (t * (u - w) <= Rabs t * Rabs (u - w)) by (rewrite <- Rabs_mult; apply Rle_abs).
  pose proof (Rabs_pos t). pose proof (Rabs_pos (u - w)).
  assert (0 <= Rabs t * 1) by lra. lra.
Qed.
Lemma pymin_left a b : nlt b a = false -> pymin a b = a.
Proof. unfold pymin; intros ->; auto. Qed.
Lemma pymin_right a b : nlt b a = true -> pymin a b = b.
Proof. unfold pymin; intros ->; auto. Qed.
Lemma nlt_asym a b : nlt a b = true -> nlt b a = false.
Proof.
  destruct a, b; simpl; auto; intros; try discriminate.
  destruct (Rle_dec x0 x), (Rle_dec x x0); simpl in *; auto; try discriminate; lra.
Qed.

(** ** The whole constraint *)
Lemma cfun_sign f sc c c' x : link_model f sc c = Some c' -> 0 < c_scale c' ->
  length x = length (rows f) -> meaningful f (c_spec c) (value_of (names (rows f)) x) ->
  (nonneg (cfun c' x) <-> holds (c_spec c) (value_of (names (rows f)) x)).
Proof.
  intros Hl Hk Hx Hm. apply link_spec in Hl. destruct Hl as (Hs & _ & _ & _ & Hl).
  rewrite <- names_length in Hx.
  destruct (c_spec c) as [a b lo hi|a b|a lo hi] eqn:Es.
  - destruct Hl as (Hi & Hj & H1 & H2). destruct Hm as (R1 & R2 & Hd).
    unfold cfun, min_fun, max_fun. rewrite Hs.
    rewrite nonneg_pymin, !nonneg_fin by discriminate.
    rewrite (get_loc_value _ _ _ _ Hi Hx), (get_loc_value _ _ _ _ Hj Hx).
    rewrite (ratio_min_iff _ _ _ _ _ _ _ _ H1 Hk R1 Hd), (ratio_max_iff _ _ _ _ _ _ _ _ H2 Hk R2 Hd).
    simpl. unfold ratio_ok. tauto.
  - destruct Hl as (Hi & Hj). unfold cfun. rewrite Hs, nonneg_fin.
    rewrite (get_loc_value _ _ _ _ Hi Hx), (get_loc_value _ _ _ _ Hj Hx). simpl.
    split; intros H.
    + assert (0 <= value_of (names (rows f)) x b - value_of (names (rows f)) x a); [|lra].
      apply Rmult_le_reg_r with (c_scale c'); lra.
    + apply Rmult_le_pos; lra.
  - destruct Hm as [H1 H2]. rewrite (fixed_iff c' a lo hi x Hs Hk H1 H2).
    rewrite (get_loc_value _ _ _ _ Hl Hx). simpl. tauto.
Qed.
Lemma nle_ninf a : a <> NaN -> nle NInf a = true.
Proof. destruct a; simpl; congruence. Qed.
Lemma linear_iff f sc c c' x : link_model f sc c = Some c' -> 0 < c_scale c' ->
  length x = length (rows f) ->
  match c_spec c with Ratio a b _ _ | Order a b => a <> b | Fixed _ lo hi => lo <> Some NaN /\ hi <> Some NaN end ->
  (satisfies (linear_form c') x <-> nonneg (cfun c' x)).
Proof.
  intros Hl Hk Hx Hm. apply link_spec in Hl. destruct Hl as (Hs & _ & Hn & _ & Hl).
  rewrite <- names_length in Hx, Hn. unfold satisfies, linear_form. rewrite Hs.
  destruct (c_spec c) as [a b lo hi|a b|a lo hi] eqn:Es.
  - destruct Hl as (Hi & Hj & _).
    assert (c_i c' <> c_j c')%nat by (intros E; rewrite E in Hi; apply Hm; eapply get_loc_inj; eauto).
    apply get_loc_lt in Hi, Hj.
    rewrite !Forall_cons_iff, !ip_two by lia. unfold cfun, min_fun, max_fun. rewrite Hs.
    rewrite nonneg_pymin, !nonneg_fin, !nle_fin by discriminate. simpl.
    rewrite !(Rmult_comm _ (get x _)). split; [intros ((? & _) & (? & _) & _)|intros (? & ?)]; repeat split; auto.
  - destruct Hl as (Hi & Hj).
    assert (c_j c' <> c_i c')%nat by (intros E; rewrite E in Hj; apply Hm; eapply get_loc_inj; eauto).
    apply get_loc_lt in Hi, Hj.
    rewrite !Forall_cons_iff, !ip_two by lia. unfold cfun. rewrite Hs, nonneg_fin, nle_fin. simpl.
    replace ((get x (c_j c') - get x (c_i c')) * c_scale c')
      with (c_scale c' * get x (c_j c') + - c_scale c' * get x (c_i c')) by ring.
    split; [intros ((? & _) & _)|intros]; repeat split; auto.
  - rewrite (fixed_iff c' a lo hi x Hs Hk) by tauto. apply get_loc_lt in Hl.
    rewrite !Forall_cons_iff, !ip_one by lia. rewrite Rmult_1_l.
    unfold at_least, at_most. destruct lo as [lo|], hi as [hi|]; simpl; intuition.
Qed.

Lemma nlt_fin_l a r b : nlt (Fin a) b = true -> pymin (Fin a) b = Fin r -> a = r.
Proof. intros H. rewrite pymin_left by (apply nlt_asym; auto). congruence. Qed.

Definition sides_differ (c : cons) (x : list R) : Prop :=
  match c_spec c with Order _ _ => True | _ => nlt (min_fun c x) (max_fun c x) = true \/ nlt (max_fun c x) (min_fun c x) = true end.

(** Each side is affine along a line, or infinite and constant on it. *)
Definition side_affine (g : list R -> num) (x v : list R) (s : R) : Prop :=
  (exists a, forall t, g (shift x v t) = Fin (a + t * s)) \/
  (exists y, match y with Fin _ => False | _ => True end /\ forall t, g (shift x v t) = y).
Lemma shift0 x v : length x = length v -> shift x v 0 = x.
Proof.
  revert v; induction x as [|a x IH]; destruct v; simpl; intros; auto; try discriminate.
  rewrite IH by lia. f_equal; ring.
Qed.
Lemma two_sides g h x v s s' r : length x = length v -> side_affine g x v s -> side_affine h x v s' ->
  pymin (g x) (h x) = Fin r ->
  (nlt (g x) (h x) = true \/ nlt (h x) (g x) = true) ->
  exists d, 0 < d /\ forall t, Rabs t < d ->
    pymin (g (shift x v t)) (h (shift x v t)) = Fin (r + t * (if nlt (g x) (h x) then s else s')).
Proof.
  intros Hl Hg Hh Hr Hd.
  assert (Eg := shift0 x v Hl).
  destruct Hg as [[a Ha]|[y [Hy Ha]]], Hh as [[b Hb]|[z [Hz Hb]]].
  - pose proof (Ha 0) as A0. pose proof (Hb 0) as B0. rewrite Eg in A0, B0. rewrite A0, B0 in *.
    replace (a + 0 * s) with a in * by ring. replace (b + 0 * s') with b in * by ring.
    destruct (nlt (Fin a) (Fin b)) eqn:E.
    + apply (nlt_fin_l _ r) in E as E'; auto. subst r. apply nlt_fin in E.
      destruct (affine_gap a b s s' E) as (d & Hd0 & Hd'). exists d; split; auto. intros t Ht.
      rewrite Ha, Hb. apply pymin_left, nlt_asym, nlt_fin, Hd'; auto.
    + destruct Hd as [|Hd]; [congruence|]. rewrite pymin_right in Hr by auto. injection Hr as <-.
      apply nlt_fin in Hd. destruct (affine_gap b a s' s Hd) as (d & Hd0 & Hd'). exists d; split; auto. intros t Ht.
      rewrite Ha, Hb. apply pymin_right, nlt_fin, Hd'; auto.
  - pose proof (Ha 0) as A0. pose proof (Hb 0) as B0. rewrite Eg in A0, B0. rewrite A0, B0 in *.
    replace (a + 0 * s) with a in * by ring. exists 1; split; [lra|]. intros t _. rewrite Ha, Hb.
    destruct z; simpl in *; try contradiction; try discriminate.
    + destruct Hd; discriminate.
    + injection Hr as <-; auto.
  - pose proof (Ha 0) as A0. pose proof (Hb 0) as B0. rewrite Eg in A0, B0. rewrite A0, B0 in *.
    replace (b + 0 * s') with b in * by ring. exists 1; split; [lra|]. intros t _. rewrite Ha, Hb.
    destruct y; simpl in *; try contradiction; try discriminate.
    injection Hr as <-; auto.
  - pose proof (Ha 0) as A0. pose proof (Hb 0) as B0. rewrite Eg in A0, B0. rewrite A0, B0 in *.
    unfold pymin in Hr. destruct (nlt z y); subst; contradiction.
Qed.
Lemma jac_local f sc c c' x v r : link_model f sc c = Some c' ->
  length x = length (rows f) -> length v = length x ->
  match c_spec c with Ratio a b _ _ | Order a b => a <> b | Fixed _ lo hi => lo <> Some NaN /\ hi <> Some NaN end ->
  c_scale c' <> 0 ->
  cfun c' x = Fin r -> sides_differ c' x ->
  exists d, 0 < d /\ forall t, Rabs t < d -> cfun c' (shift x v t) = Fin (r + t * ip (cjac c' x) v).
Proof.
  intros Hl Hx Hv Hm Hk Hr Hd. apply link_spec in Hl. destruct Hl as (Hs & _ & Hn & _ & Hl).
  rewrite <- names_length in Hx. unfold cfun, cjac, sides_differ in *. rewrite Hs in *.
  destruct (c_spec c) as [a b lo hi|a b|a lo hi] eqn:Es.
  - destruct Hl as (Hi & Hj & _).
    assert (c_i c' <> c_j c')%nat by (intros E; rewrite E in Hi; apply Hm; eapply get_loc_inj; eauto).
    apply get_loc_lt in Hi, Hj.
    destruct (two_sides (min_fun c') (max_fun c') x v
       (c_minn c' * get v (c_i c') + c_mind c' * get v (c_j c'))
       (c_maxn c' * get v (c_i c') + c_maxd c' * get v (c_j c')) r) as (d & Hd0 & Hd'); auto.
    + left. exists (get x (c_i c') * c_minn c' + get x (c_j c') * c_mind c'). intros t.
      unfold min_fun; rewrite Hs. rewrite !get_shift by auto. f_equal; ring.
    + left. exists (get x (c_i c') * c_maxn c' + get x (c_j c') * c_maxd c'). intros t.
      unfold max_fun; rewrite Hs. rewrite !get_shift by auto. f_equal; ring.
    + exists d; split; auto. intros t Ht. rewrite Hd' by auto.
      destruct (nlt (min_fun c' x) (max_fun c' x)); rewrite ip_two by lia; auto.
  - destruct Hl as (Hi & Hj).
    assert (c_j c' <> c_i c')%nat by (intros E; rewrite E in Hj; apply Hm; eapply get_loc_inj; eauto).
    apply get_loc_lt in Hi, Hj. injection Hr as <-.
    exists 1; split; [lra|]. intros t _. rewrite ip_two by lia. rewrite !get_shift by auto. f_equal; ring.
  - apply get_loc_lt in Hl. destruct Hm as [M1 M2].
    destruct (two_sides (min_fun c') (max_fun c') x v
       (c_scale c' * get v (c_i c')) (- c_scale c' * get v (c_i c')) r) as (d & Hd0 & Hd'); auto.
    + unfold side_affine, min_fun. rewrite Hs. destruct lo as [[| |m|]|]; try congruence.
      * right. exists (nscale PInf (c_scale c')). split; [|intros; reflexivity]. simpl. destruct (Req_EM_T _ _); auto. destruct (Rlt_dec _ _); auto.
      * left. exists ((get x (c_i c') - m) * c_scale c'). intros t. simpl. rewrite get_shift by auto. f_equal; ring.
      * right. exists (nscale NInf (c_scale c')). split; [|intros; reflexivity]. simpl. destruct (Req_EM_T _ _); auto. destruct (Rlt_dec _ _); auto.
      * right. exists PInf. auto.
    + unfold side_affine, max_fun. rewrite Hs. destruct hi as [[| |m|]|]; try congruence.
      * right. exists (nscale NInf (c_scale c')). split; [|intros; reflexivity]. simpl. destruct (Req_EM_T _ _); auto. destruct (Rlt_dec _ _); auto.
      * left. exists ((m - get x (c_i c')) * c_scale c'). intros t. simpl. rewrite get_shift by auto. f_equal; ring.
      * right. exists (nscale PInf (c_scale c')). split; [|intros; reflexivity]. simpl. destruct (Req_EM_T _ _); auto. destruct (Rlt_dec _ _); auto.
      * right. exists PInf. auto.
    + exists d; split; auto. intros t Ht. rewrite Hd' by auto.
      destruct (nlt (min_fun c' x) (max_fun c' x)); rewrite ip_one by lia; auto.
Qed.
