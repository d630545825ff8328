(** Proofs about the estimation model. *)
From Verif Require Import ParamModel BhhhModel BhhhSpec.
Open Scope R_scope.

Lemma nle_refl a : a <> NaN -> nle a a = true.
Proof. destruct a; simpl; intros; try congruence. destruct (Rle_dec x x); auto; lra. Qed.
Lemma nlt_nle a b : nlt a b = true -> nle a b = true.
Proof.
  destruct a, b; simpl; intros; try congruence; auto.
  destruct (Rle_dec x0 x), (Rle_dec x x0); simpl in *; auto; try congruence; lra.
Qed.
Lemma nle_trans a b c : nle a b = true -> nle b c = true -> nle a c = true.
Proof.
  destruct a, b, c; simpl; intros; try congruence; auto.
  repeat match goal with H : context [Rle_dec ?x ?y] |- _ => destruct (Rle_dec x y) end;
  destruct (Rle_dec x x1); auto; try congruence; lra.
Qed.
Lemma nlt_total a b : a <> NaN -> b <> NaN -> nlt a b = negb (nle b a).
Proof. destruct a, b; simpl; intros; try congruence; auto. Qed.
Lemma nlt_not_nle a b : nlt a b = true -> nle b a = false.
Proof.
  destruct a, b; simpl; intros; try congruence; auto.
  destruct (Rle_dec x0 x); auto; simpl in *; congruence.
Qed.

(** ** Vectors *)
Lemma upd_length held old new : length (upd held old new) = length old.
Proof.
  revert old new; induction held; destruct old, new; simpl; auto.
Qed.
Lemma upd_held held old new i :
  nth i held false = true -> nth i (upd held old new) 0 = nth i old 0.
Proof.
  revert old new i; induction held as [|h held IH]; intros old new i Hi.
  - destruct i; discriminate.
  - destruct old as [|o old], new as [|n new], i; simpl in *; auto.
    rewrite Hi; auto.
Qed.
Lemma upd_free held old new i :
  length held = length old -> length new = length old ->
  (i < length old)%nat -> nth i held false = false -> nth i (upd held old new) 0 = nth i new 0.
Proof.
  revert old new i; induction held as [|h held IH]; intros old new i H1 H2 Hi Hf;
    destruct old as [|o old], new as [|n new], i; simpl in *; try lia; auto.
  - rewrite Hf; auto.
  - apply IH; auto; lia.
Qed.
Lemma nth_eq (p q : list R) :
  length p = length q -> (forall i, (i < length p)%nat -> nth i p 0 = nth i q 0) -> p = q.
Proof. intros; eapply nth_ext; eauto. Qed.
Lemma upd_same held a b x :
  length held = length a -> length held = length b -> length held = length x ->
  same_held held a b -> upd held a x = upd held b x.
Proof.
  intros La Lb Lx [_ Hs]; apply nth_eq; rewrite !upd_length; [congruence|].
  intros i Hi; destruct (nth i held false) eqn:E.
  - rewrite !upd_held; auto.
  - rewrite !upd_free; auto; congruence || lia.
Qed.
Lemma upd_restore held a b :
  length held = length a -> length held = length b -> same_held held a b -> upd held a b = b.
Proof.
  intros La Lb [_ Hs]; apply nth_eq; rewrite upd_length; [congruence|].
  intros i Hi; destruct (nth i held false) eqn:E.
  - rewrite upd_held; auto.
  - rewrite upd_free; auto; congruence || lia.
Qed.
Lemma same_refl held p : same_held held p p.
Proof. split; auto. Qed.
Lemma same_sym held p q : same_held held p q -> same_held held q p.
Proof. intros [? H]; split; auto; intros; symmetry; auto. Qed.
Lemma same_trans held p q r : same_held held p q -> same_held held q r -> same_held held p r.
Proof. intros [? H] [? H']; split; [congruence|]; intros; rewrite H; auto. Qed.
Lemma same_upd held p x : same_held held (upd held p x) p.
Proof. split; [apply upd_length|]; intros; apply upd_held; auto. Qed.
Lemma axpy_length p d t : length (axpy p d t) = Nat.min (length p) (length d).
Proof. revert d; induction p; destruct d; simpl; auto. Qed.
Lemma axpy_nth p d t i : (i < length p)%nat -> length p = length d ->
  nth i (axpy p d t) 0 = nth i p 0 + t * nth i d 0.
Proof.
  revert d i; induction p; destruct d; simpl; intros i Hi Hl; try lia.
  destruct i; [ring|]. apply IHp; lia.
Qed.
Lemma upd_moved held p d t :
  length held = length p -> length d = length p ->
  moved held p d t (upd held p (axpy p d t)).
Proof.
  intros Lh Ld; split; [apply upd_length|]; intros i Hi.
  destruct (nth i held false) eqn:E.
  - apply upd_held; auto.
  - rewrite upd_free; auto; [apply axpy_nth; auto|].
    rewrite axpy_length; lia.
Qed.

(** ** Directions *)
Lemma scatter_length {A} (z : A) held v : length (scatter z held v) = length held.
Proof.
  revert v; induction held as [|h held IH]; intros; simpl; auto.
  destruct h; [|destruct v]; simpl; rewrite IH; auto.
Qed.
Lemma scatter_held {A} (z d : A) held v i :
  nth i held false = true -> nth i (scatter z held v) d = z.
Proof.
  revert v i; induction held as [|h held IH]; intros v i Hi; [destruct i; discriminate|].
  destruct i; simpl in *.
  - subst h; auto.
  - destruct h; [|destruct v]; simpl; auto.
Qed.
Lemma propose_length solve held m g : length (propose_direction solve held m g) = length held.
Proof. apply scatter_length. Qed.
Lemma propose_held solve held m g i :
  nth i held false = true -> nth i (propose_direction solve held m g) 0 = 0.
Proof. apply scatter_held. Qed.
Lemma simple_length inverse held m g : length (simple_direction inverse held m g) = length held.
Proof. unfold simple_direction, vecmat; rewrite map_length, seq_length; auto. Qed.
Lemma dot_zero v w : Forall (fun x => x = 0) w -> dot v w = 0.
Proof.
  revert w; induction v; intros w Hw; destruct w; simpl; auto.
  inversion Hw; subst. rewrite IHv; auto; ring.
Qed.
Lemma nth_map_zero {A} j (l : list A) : nth j (map (fun _ => 0) l) 0 = 0.
Proof. revert j; induction l; destruct j; simpl; auto. Qed.
Lemma scatter_Forall {A} (P : A -> Prop) z held v :
  P z -> Forall P v -> Forall P (scatter z held v).
Proof.
  intros Hz; revert v; induction held as [|h held IH]; intros v Hv; simpl; auto.
  destruct h; auto. destruct Hv; auto.
Qed.
Lemma nth_map_seq (f : nat -> R) n i d : (i < n)%nat -> nth i (map f (seq 0 n)) d = f i.
Proof.
  intros; rewrite nth_indep with (d' := f 0%nat) by (rewrite map_length, seq_length; auto).
  rewrite map_nth, seq_nth; auto.
Qed.
Lemma simple_held inverse held m g i :
  nth i held false = true -> nth i (simple_direction inverse held m g) 0 = 0.
Proof.
  intros Hi.
  assert (Hl : (i < length held)%nat).
  { destruct (Nat.lt_ge_cases i (length held)); auto. rewrite nth_overflow in Hi; auto; discriminate. }
  unfold simple_direction, vecmat.
  rewrite nth_map_seq by auto. apply dot_zero.
  apply Forall_map. unfold free_slots_inverse. apply scatter_Forall.
  - apply nth_map_zero.
  - apply Forall_map, Forall_forall; intros; apply scatter_held; auto.
Qed.

(** The masked vector-matrix product is the scattered product of the masked parts. *)
Lemma select_length {A B} held (v : list A) (w : list B) :
  length v = length w -> length (select held v) = length (select held w).
Proof.
  revert v w; induction held as [|h held IH]; intros [|x v] [|y w] Hl; simpl in *; try discriminate; auto.
  injection Hl as Hl. destruct h; simpl; rewrite (IH v w); auto.
Qed.
Lemma dot_scatter held g (c : list R) :
  length g = length held -> length c = length (select held g) ->
  dot g (scatter 0 held c) = dot (select held g) c.
Proof.
  revert g c; induction held as [|h held IH]; intros [|x g] c Hg Hc; simpl in *; try discriminate.
  - destruct c; auto.
  - injection Hg as Hg. destruct h; simpl in *.
    + rewrite IH by auto. ring.
    + destruct c; simpl in *; try discriminate. rewrite IH; auto.
Qed.

(** ** The line search *)
Section Run.
Variable held : list bool.
Variable eval : sample -> list R -> R -> R -> point.
Variable direction : list (list R) -> list R -> list R.
Hypothesis dir_len : forall m g, length (direction m g) = length held.

Definition agrees (p0 : list R) (st : mst) : Prop :=
  same_held held (vals st) p0 /\ Forall (fun v => same_held held v p0) (visited st).

Lemma agrees_set p0 v st : agrees p0 st -> agrees p0 (set_vals held v st).
Proof.
  intros [H1 H2]; unfold agrees, set_vals; simpl.
  assert (same_held held (upd held (vals st) v) p0) by (eapply same_trans; [apply same_upd|auto]).
  auto.
Qed.
Lemma agrees_search fuel s cur dir cll minlen t st e t' st' p0 :
  search held eval fuel s cur dir cll minlen t st = Some (e, t', st') ->
  agrees p0 st -> agrees p0 st'.
Proof.
  revert t st; induction fuel as [|f IH]; simpl; intros t st E Ha; [discriminate|].
  pose proof (agrees_set p0 (axpy cur dir t) st Ha) as Ha1.
  destruct (nlt _ _); [inversion E; subst; auto|].
  destruct (Rlt_dec _ _); [inversion E; subst; auto|]. eauto.
Qed.

(** What the search returns, from a state whose held values agree with [cur]. *)
Lemma search_spec fuel s cur dir cll minlen t st e t' st' :
  search held eval fuel s cur dir cll minlen t st = Some (e, t', st') ->
  length held = length cur -> length dir = length held -> same_held held (vals st) cur ->
  e = eval s (vals st') (intens st') (sharp st') /\
  intens st' = intens st /\ sharp st' = sharp st /\ same_held held (vals st') cur /\
  t' <= Rmax t 0 /\
  ((nlt cll (e_ll e) = true /\ vals st' = upd held cur (axpy cur dir t')) \/
   (nlt cll (e_ll e) = false /\ t' < minlen /\ vals st' = upd held cur (axpy cur dir (2 * t')))).
Proof.
  intros E Lc Ld. revert t st E; induction fuel as [|f IH]; simpl; intros t st E Hs; [discriminate|].
  set (st1 := set_vals held (axpy cur dir t) st) in *.
  assert (Hv : vals st1 = upd held cur (axpy cur dir t)).
  { apply upd_same; auto; try (rewrite axpy_length; lia). destruct Hs as [Hs _]; congruence. }
  assert (Hs1 : same_held held (vals st1) cur).
  { rewrite Hv; apply same_upd. }
  destruct (nlt cll (e_ll (eval_at eval s st1))) eqn:En.
  - inversion E; subst; clear E. repeat (split; auto). apply Rmax_l.
  - destruct (Rlt_dec _ _) as [Hlt|Hge].
    + inversion E; subst; clear E. repeat (split; auto).
      * unfold Rmax; destruct (Rle_dec t 0); lra.
      * right. repeat split; auto. rewrite Hv; do 2 f_equal; lra.
    + destruct (IH _ _ E Hs1) as (He & Hi & Hk & Hsame & Ht & Hc).
      repeat (split; auto).
      eapply Rle_trans; [exact Ht|]. unfold Rmax; destruct (Rle_dec (t*(1/2)) 0), (Rle_dec t 0); lra.
Qed.

Lemma search_total fuel s cur dir cll minlen t st :
  (0 < fuel)%nat -> t * (1/2) ^ fuel < minlen ->
  search held eval fuel s cur dir cll minlen t st <> None.
Proof.
  revert t st; induction fuel as [|f IH]; simpl; intros t st Hf Ht; [lia|].
  destruct (nlt _ _); [discriminate|]. destruct (Rlt_dec _ _) as [|Hge]; [discriminate|].
  destruct f as [|f]; [simpl in Ht; lra|].
  apply IH; [lia|]. replace (t * (1/2) * (1/2) ^ S f) with (t * (1/2 * (1/2)^ S f)) by ring. auto.
Qed.

Lemma halvings B minlen : 0 < minlen ->
  exists N, (0 < N)%nat /\ forall fuel t, (N <= fuel)%nat -> t <= B -> t * (1/2)^fuel < minlen.
Proof.
  intros Hm.
  destruct (pow_lt_1_zero (1/2) ltac:(rewrite Rabs_pos_eq; lra) (minlen / (Rabs B + 1))) as [N HN].
  { apply Rdiv_lt_0_compat; auto. pose proof (Rabs_pos B); lra. }
  exists (S N); split; [lia|]; intros fuel t Hf Ht.
  specialize (HN fuel ltac:(lia)).
  assert (Hp : 0 < (1/2)^fuel) by (apply pow_lt; lra).
  rewrite Rabs_pos_eq in HN by lra.
  pose proof (Rabs_pos B).
  apply Rle_lt_trans with (Rabs B * (1/2)^fuel).
  { apply Rmult_le_compat_r; [lra|]. pose proof (Rle_abs B); lra. }
  apply Rle_lt_trans with ((Rabs B + 1) * (1/2)^fuel).
  { apply Rmult_le_compat_r; lra. }
  apply Rlt_le_trans with ((Rabs B + 1) * (minlen / (Rabs B + 1))).
  { apply Rmult_lt_compat_l; lra. }
  right; field; lra.
Qed.

(** ** The simple optimizer *)
Section Simple.
Variable s : sample.
Variables i0 k0 : R.
Let at_ (p : list R) := eval s p i0 k0.
Definition move_of (at_ : list R -> point) (p : list R) (t : R) : list R :=
  upd held p (axpy p (dir_of direction (at_ p)) t).
Let move := move_of at_.

Lemma simple_loop_spec rem fuel ctol minlen iter steplen steps cur e st start out :
  simple_loop held eval direction rem fuel s ctol minlen iter steplen steps cur e st = Some out ->
  (forall p, e_ll (at_ p) <> NaN) ->
  length held = length cur -> vals st = cur -> e = at_ cur -> intens st = i0 -> sharp st = k0 ->
  ascent (fun p => e_ll (at_ p)) move start steps cur -> iter = length steps ->
  exists steps',
    ascent (fun p => e_ll (at_ p)) move start steps' (vals (end_state out)) /\
    intens (end_state out) = i0 /\ sharp (end_state out) = k0 /\
    (length steps' <= iter + rem)%nat /\
    match out with
    | StepFailure _ => True
    | Fit ll tol iters st' msg st1 =>
        st' = steps' /\ iters = length steps' /\
        ll = e_ll (at_ (vals st1)) /\ tol = tol_of direction (at_ (vals st1)) /\
        ((msg = Success /\ Rabs tol <= ctol) \/
         (msg = MaxIter /\ ctol < Rabs tol /\ iters = (iter + rem)%nat))
    end.
Proof.
  intros E Hn. revert iter steplen steps cur e st E.
  induction rem as [|rem IH]; simpl; intros iter steplen steps cur e st E Lc Hv He Hi Hk Hasc Hit.
  - destruct (Rlt_dec _ _) as [Hlt|Hge]; inversion E; subst; clear E; exists steps; simpl;
      (repeat split); auto; try lia; try (right; repeat split; auto; lia); left; split; auto; lra.
  - destruct (Rlt_dec _ _) as [Hlt|Hge].
    + destruct (search _ _ _ _ _ _ _ _ _ _) as [[[p t] st1]|] eqn:Es; [|discriminate].
      assert (Hs0 : same_held held (vals st) cur) by (rewrite Hv; apply same_refl).
      destruct (search_spec _ _ _ _ _ _ _ _ _ _ _ Es Lc (dir_len _ _) Hs0)
        as (Hp & Hi1 & Hk1 & Hs1 & Ht & Hcase).
      assert (L1 : length held = length (vals st1)) by (destruct Hs1; congruence).
      rewrite Hi1, Hk1, Hi, Hk in Hp. fold (at_ (vals st1)) in Hp.
      destruct (nle (e_ll p) (e_ll e)) eqn:En.
      * inversion E; subst out; clear E.
        assert (Hr : upd held (vals st1) cur = cur) by (apply upd_restore; auto).
        exists steps; simpl; rewrite Hr. repeat (split; auto); try congruence; lia.
      * destruct Hcase as [[Hnlt Hmv]|[Hnlt _]].
        -- edestruct IH as (steps' & Ha & Hi2 & Hk2 & Hlen & Hrest); [exact E| | | | | | | |].
           ++ auto.
           ++ reflexivity.
           ++ exact Hp.
           ++ congruence.
           ++ congruence.
           ++ assert (Hm : vals st1 = move cur t) by (rewrite Hmv, He; reflexivity).
              rewrite Hm. constructor; auto.
              rewrite <- Hm, <- Hp. subst e. auto.
           ++ rewrite app_length; simpl; lia.
           ++ exists steps'. repeat (split; auto); [lia|].
              destruct out; auto. destruct Hrest as (? & ? & ? & ? & Hm).
              repeat (split; auto). destruct Hm as [?|(? & ? & ?)]; [left; auto|right].
              repeat split; auto; lia.
        -- exfalso. rewrite nlt_total in Hnlt.
           ++ rewrite En in Hnlt; discriminate.
           ++ subst e; apply Hn.
           ++ rewrite Hp; apply Hn.
    + inversion E; subst; clear E. exists steps; simpl. (repeat split); auto; try lia.
      left; split; auto; lra.
Qed.

Lemma ascent_monotone ll mv p steps q :
  (forall p, ll p <> NaN) -> ascent ll mv p steps q -> nle (ll p) (ll q) = true.
Proof.
  intros Hn; induction 1; [apply nle_refl; auto|].
  eapply nle_trans; [eauto|]. apply nlt_nle; auto.
Qed.
Lemma ascent_strict ll mv p steps q :
  (forall p, ll p <> NaN) -> ascent ll mv p steps q -> steps <> [] -> nlt (ll p) (ll q) = true.
Proof.
  intros Hn; induction 1; [congruence|]. intros _.
  rewrite nlt_total by auto. apply negb_true_iff, not_true_is_false. intros Hc.
  rewrite nlt_total in H0 by auto. apply negb_true_iff in H0.
  pose proof (ascent_monotone _ _ _ _ _ Hn H) as Hm.
  rewrite (nle_trans _ _ _ Hc Hm) in H0. discriminate.
Qed.
End Simple.

(** ** The fit_bhhh of model/optimization.py, with no penalty (intensity 0). *)
Lemma fit_loop_spec rem fuel s ctol minlen maxlen momentum stepI stepS iter steplen steps cur e st start out k0 :
  fit_loop held eval direction rem fuel s ctol minlen maxlen momentum stepI stepS iter steplen steps cur e st
    = Some out ->
  let at_ p := eval s p 0 k0 in
  (forall p k, eval s p 0 k = at_ p) ->
  (forall p, e_ll (at_ p) <> NaN) ->
  length held = length cur -> vals st = cur -> e = at_ cur -> intens st = 0 ->
  ascent (fun p => e_ll (at_ p)) (move_of at_) start steps cur -> iter = length steps ->
  exists steps',
    ascent (fun p => e_ll (at_ p)) (move_of at_) start steps' (vals (end_state out)) /\
    intens (end_state out) = 0 /\
    (length steps' <= iter + rem)%nat /\
    match out with
    | StepFailure _ => True
    | Fit ll tol iters st' msg st1 =>
        st' = steps' /\ iters = length steps' /\
        ll = e_ll (at_ (vals st1)) /\ tol = tol_of direction (at_ (vals st1)) /\
        ((msg = Success /\ Rabs tol <= ctol) \/
         (msg = MaxIter /\ ctol < Rabs tol /\ iters = (iter + rem)%nat))
    end.
Proof.
  intros E at_ H0 Hn. revert iter steplen steps cur e st E.
  induction rem as [|rem IH]; simpl; intros iter steplen steps cur e st E Lc Hv He Hi Hasc Hit.
  - destruct (Rlt_dec _ _) as [Hlt|Hge]; inversion E; subst; clear E; exists steps; simpl;
      (repeat split); auto; try lia; try (right; repeat split; auto; lia); left; split; auto; lra.
  - destruct (Rlt_dec _ _) as [Hlt|Hge].
    + destruct (search _ _ _ _ _ _ _ _ _ _) as [[[p t] st1]|] eqn:Es; [|discriminate].
      assert (Hs0 : same_held held (vals st) cur) by (rewrite Hv; apply same_refl).
      destruct (search_spec _ _ _ _ _ _ _ _ _ _ _ Es Lc (dir_len _ _) Hs0)
        as (Hp & Hi1 & Hk1 & Hs1 & Ht & Hcase).
      assert (L1 : length held = length (vals st1)) by (destruct Hs1; congruence).
      rewrite Hi1, Hi, H0 in Hp.
      destruct (nle (e_ll p) (e_ll e)) eqn:En.
      * inversion E; subst out; clear E.
        assert (Hr : upd held (vals st1) cur = cur) by (apply upd_restore; auto).
        exists steps; simpl; rewrite Hr. repeat (split; auto); try congruence; lia.
      * destruct Hcase as [[Hnlt Hmv]|[Hnlt _]].
        -- edestruct IH as (steps' & Ha & Hi2 & Hlen & Hrest); [exact E| | | | | | |].
           ++ auto.
           ++ reflexivity.
           ++ exact Hp.
           ++ simpl. rewrite Hi1, Hi; ring.
           ++ assert (Hm : vals st1 = move_of at_ cur t) by (rewrite Hmv, He; reflexivity).
              rewrite Hm. constructor; auto.
              rewrite <- Hm, <- Hp. subst e. auto.
           ++ rewrite app_length; simpl; lia.
           ++ exists steps'. repeat (split; auto); [lia|].
              destruct out; auto. destruct Hrest as (? & ? & ? & ? & Hm).
              repeat (split; auto). destruct Hm as [?|(? & ? & ?)]; [left; auto|right].
              repeat split; auto; lia.
        -- exfalso. rewrite nlt_total in Hnlt.
           ++ rewrite En in Hnlt; discriminate.
           ++ subst e; apply Hn.
           ++ rewrite Hp; apply Hn.
    + inversion E; subst; clear E. exists steps; simpl. (repeat split); auto; try lia.
      left; split; auto; lra.
Qed.

(** ** Termination *)
Lemma search_len_le fuel s cur dir cll minlen t st e t' st' :
  search held eval fuel s cur dir cll minlen t st = Some (e, t', st') -> t' <= Rmax t 0.
Proof.
  revert t st; induction fuel as [|f IH]; simpl; intros t st E; [discriminate|].
  destruct (nlt _ _); [inversion E; subst; apply Rmax_l|].
  destruct (Rlt_dec _ _).
  - inversion E; subst. unfold Rmax; destruct (Rle_dec t 0); lra.
  - eapply Rle_trans; [eapply IH; eauto|]. unfold Rmax; destruct (Rle_dec (t*(1/2)) 0), (Rle_dec t 0); lra.
Qed.

Lemma simple_loop_total rem fuel s ctol minlen iter steplen steps cur e st B :
  (0 < fuel)%nat -> 0 <= B -> (forall t, t <= B -> t * (1/2)^fuel < minlen) -> steplen <= B ->
  simple_loop held eval direction rem fuel s ctol minlen iter steplen steps cur e st <> None.
Proof.
  intros Hf HB Ht. revert iter steplen steps cur e st.
  induction rem as [|rem IH]; simpl; intros iter steplen steps cur e st Hl;
    (destruct (Rlt_dec _ _); [|discriminate]); [discriminate|].
  destruct (search _ _ _ _ _ _ _ _ _ _) as [[[p t] st1]|] eqn:Es.
  - destruct (nle _ _); [discriminate|]. apply IH.
    apply search_len_le in Es. eapply Rle_trans; [exact Es|]. apply Rmax_lub; auto.
  - exfalso; revert Es; apply search_total; auto.
Qed.

Lemma next_len_le momentum maxlen steps t B :
  t <= B -> maxlen <= B -> next_len momentum maxlen steps t <= B.
Proof.
  intros; unfold next_len; destruct steps; auto.
  eapply Rle_trans; [apply Rmin_r|auto].
Qed.

Lemma fit_loop_total rem fuel s ctol minlen maxlen momentum stepI stepS iter steplen steps cur e st B :
  (0 < fuel)%nat -> 0 <= B -> (forall t, t <= B -> t * (1/2)^fuel < minlen) -> steplen <= B -> maxlen <= B ->
  fit_loop held eval direction rem fuel s ctol minlen maxlen momentum stepI stepS iter steplen steps cur e st <> None.
Proof.
  intros Hf HB Ht Hl Hm. revert iter steplen steps cur e st Hl.
  induction rem as [|rem IH]; simpl; intros iter steplen steps cur e st Hl;
    (destruct (Rlt_dec _ _); [|discriminate]); [discriminate|].
  destruct (search _ _ _ _ _ _ _ _ _ _) as [[[p t] st1]|] eqn:Es.
  - destruct (nle _ _); [discriminate|]. apply IH.
    apply search_len_le in Es. eapply Rle_trans; [exact Es|]. apply Rmax_lub; auto.
    apply next_len_le; auto.
  - exfalso; revert Es; apply search_total; auto. apply Ht, next_len_le; auto.
Qed.

(** ** numba *)
Variable violated : list R -> bool.
Variable cct : list R -> R -> R -> R.
Variable ncases : R.

Lemma sharpen_vals fuel s maxS stepS pen last st p st' :
  sharpen eval ncases fuel s maxS stepS pen last st = Some (p, st') ->
  vals st' = vals st /\ visited st' = visited st /\ intens st' = intens st.
Proof.
  revert pen last st; induction fuel as [|f IH]; simpl; intros pen last st E; [discriminate|].
  destruct (Rlt_dec _ _); [|inversion E; subst; auto].
  destruct (Rlt_dec _ _); [|inversion E; subst; auto].
  apply IH in E. simpl in E. auto.
Qed.
Lemma intensify_vals a s e cpen st e' cpen' st' :
  intensify eval a s e cpen st = (e', cpen', st') ->
  vals st' = vals st /\ visited st' = visited st /\
  (intens st = 0 -> e' = e /\ cpen' = cpen /\ st' = st) /\
  (e = eval_at eval s st -> e' = eval_at eval s st').
Proof.
  unfold intensify. destruct (Req_EM_T _ _); [|destruct (if Rlt_dec _ _ then _ else _)];
    inversion 1; subst; simpl; repeat split; auto; try contradiction.
Qed.

Lemma numba_loop_agrees rem fuel s a iter steplen steps cur e cpen st out p0 :
  numba_loop held eval direction violated cct ncases rem fuel s a iter steplen steps cur e cpen st = Some out ->
  agrees p0 st -> agrees p0 (end_state out).
Proof.
  revert iter steplen steps cur e cpen st.
  induction rem as [|rem IH]; simpl; intros iter steplen steps cur e cpen st E Ha.
  - destruct (converged _ _ _); inversion E; subst; auto.
  - destruct (converged _ _ _); [inversion E; subst; auto|].
    destruct (soft_stop _ _ _); [inversion E; subst; auto|].
    destruct (search _ _ _ _ _ _ _ _ _ _) as [[[p t] st1]|] eqn:Es; [|discriminate].
    pose proof (agrees_search _ _ _ _ _ _ _ _ _ _ _ p0 Es Ha) as Ha1.
    assert (Hc : forall q st2 e' c' st3, intensify eval a s q cpen st2 = (e', c', st3) ->
              agrees p0 st2 -> agrees p0 st3).
    { intros q st2 e' c' st3 Ei [H1 H2]. apply intensify_vals in Ei.
      destruct Ei as (Hv & Hvis & _). unfold agrees; rewrite Hv, Hvis; auto. }
    destruct (nle _ _).
    + pose proof (agrees_set p0 cur st1 Ha1) as Ha2.
      destruct (violated _); [inversion E; subst; auto|].
      destruct (Rlt_dec _ _).
      * destruct (sharpen _ _ _ _ _ _ _ _ _) as [[q st2]|] eqn:Esh; [|discriminate].
        destruct (intensify _ _ _ _ _ _) as [[e' c'] st3] eqn:Ei.
        eapply IH; [exact E|]. eapply Hc; [exact Ei|].
        apply sharpen_vals in Esh. destruct Esh as (Hv & Hvis & _).
        destruct Ha2; unfold agrees; rewrite Hv, Hvis; auto.
      * destruct (Rlt_dec _ _); [inversion E; subst; auto|].
        destruct (intensify _ _ _ _ _ _) as [[e' c'] st3] eqn:Ei.
        eapply IH; [exact E|]. eapply Hc; eauto.
    + destruct (intensify _ _ _ _ _ _) as [[e' c'] st3] eqn:Ei.
      eapply IH; [exact E|]. eapply Hc; eauto.
Qed.

Lemma numba_loop_steps rem fuel s a iter steplen steps cur e cpen st ll tol iters steps' msg st' :
  numba_loop held eval direction violated cct ncases rem fuel s a iter steplen steps cur e cpen st
    = Some (Fit ll tol iters steps' msg st') ->
  exists more, steps' = steps ++ more.
Proof.
  revert iter steplen steps cur e cpen st.
  induction rem as [|rem IH]; simpl; intros iter steplen steps cur e cpen st E.
  - destruct (converged _ _ _); inversion E; subst; exists []; rewrite app_nil_r; auto.
  - destruct (converged _ _ _); [inversion E; subst; exists []; rewrite app_nil_r; auto|].
    destruct (soft_stop _ _ _); [inversion E; subst; exists []; rewrite app_nil_r; auto|].
    destruct (search _ _ _ _ _ _ _ _ _ _) as [[[p t] st1]|] eqn:Es; [|discriminate].
    assert (Hk : forall iter sl c e' cp st2,
      numba_loop held eval direction violated cct ncases rem fuel s a iter sl (steps ++ [t]) c e' cp st2
        = Some (Fit ll tol iters steps' msg st') -> exists more, steps' = steps ++ more).
    { intros * E'. apply IH in E'. destruct E' as [more ->]. exists (t :: more).
      rewrite <- app_assoc; auto. }
    destruct (nle _ _).
    + destruct (violated _); [discriminate|].
      destruct (Rlt_dec _ _).
      * destruct (sharpen _ _ _ _ _ _ _ _ _) as [[q st2]|] eqn:Esh; [|discriminate].
        destruct (intensify _ _ _ _ _ _) as [[e' c'] st3] eqn:Ei. eauto.
      * destruct (Rlt_dec _ _); [inversion E; subst; exists []; rewrite app_nil_r; auto|].
        destruct (intensify _ _ _ _ _ _) as [[e' c'] st3] eqn:Ei. eauto.
    + destruct (intensify _ _ _ _ _ _) as [[e' c'] st3] eqn:Ei. eauto.
Qed.

(** If every reported step is at least the minimum step length then no line search failed and
    the log likelihood returned is that of the values left behind. *)
Lemma numba_loop_consistent rem fuel s a iter steplen steps cur e cpen st ll tol iters steps' msg st' :
  numba_loop held eval direction violated cct ncases rem fuel s a iter steplen steps cur e cpen st
    = Some (Fit ll tol iters steps' msg st') ->
  length held = length cur -> vals st = cur -> e = eval_at eval s st ->
  Forall (fun t => na_minlen a <= t) steps' ->
  ll = e_ll (eval_at eval s st').
Proof.
  revert iter steplen steps cur e cpen st.
  induction rem as [|rem IH]; simpl; intros iter steplen steps cur e cpen st E Lc Hv He Hall.
  - destruct (converged _ _ _); inversion E; subst; auto.
  - destruct (converged _ _ _); [inversion E; subst; auto|].
    destruct (soft_stop _ _ _); [inversion E; subst; auto|].
    destruct (search _ _ _ _ _ _ _ _ _ _) as [[[p t] st1]|] eqn:Es; [|discriminate].
    assert (Hs0 : same_held held (vals st) cur) by (rewrite Hv; apply same_refl).
    destruct (search_spec _ _ _ _ _ _ _ _ _ _ _ Es Lc (dir_len _ _) Hs0)
      as (Hp & Hi1 & Hk1 & Hs1 & Ht & Hcase).
    assert (L1 : length held = length (vals st1)) by (destruct Hs1; congruence).
    assert (Hbad : forall iter sl c e' cp st2,
      numba_loop held eval direction violated cct ncases rem fuel s a iter sl (steps ++ [t]) c e' cp st2
        = Some (Fit ll tol iters steps' msg st') -> t < na_minlen a -> False).
    { intros * E' Hlt. apply numba_loop_steps in E'. destruct E' as [more ->].
      rewrite <- app_assoc in Hall. apply Forall_app in Hall. destruct Hall as [_ Hall].
      inversion Hall; subst. lra. }
    destruct (nle _ _) eqn:En.
    + destruct Hcase as [[Hnlt _]|(Hnlt & Hlt & _)].
      { apply nlt_not_nle in Hnlt. congruence. }
      destruct (violated _); [discriminate|].
      destruct (Rlt_dec _ _).
      * destruct (sharpen _ _ _ _ _ _ _ _ _) as [[q st2]|] eqn:Esh; [|discriminate].
        destruct (intensify _ _ _ _ _ _) as [[e' c'] st3] eqn:Ei. exfalso; eauto.
      * destruct (Rlt_dec _ _).
        -- inversion E; subst; clear E.
           unfold eval_at; simpl. rewrite upd_restore by auto. rewrite Hi1, Hk1. reflexivity.
        -- destruct (intensify _ _ _ _ _ _) as [[e' c'] st3] eqn:Ei. exfalso; eauto.
    + destruct Hcase as [[Hnlt Hmv]|(Hnlt & Hlt & _)].
      * destruct (intensify _ _ _ _ _ _) as [[e' c'] st3] eqn:Ei.
        destruct (intensify_vals _ _ _ _ _ _ _ _ Ei) as (Hv3 & _ & _ & He3).
        eapply IH; [exact E|auto|auto|auto|auto].
      * destruct (intensify _ _ _ _ _ _) as [[e' c'] st3] eqn:Ei. exfalso; eauto.
Qed.

(** With no penalty, and no NaN: also an ascent. *)
Lemma numba_loop_ascent rem fuel s a iter steplen steps cur e cpen st ll tol iters steps' msg st' k0 start :
  numba_loop held eval direction violated cct ncases rem fuel s a iter steplen steps cur e cpen st
    = Some (Fit ll tol iters steps' msg st') ->
  let at_ p := eval s p 0 k0 in
  (forall p, e_ll (at_ p) <> NaN) ->
  length held = length cur -> vals st = cur -> e = at_ cur -> intens st = 0 -> sharp st = k0 ->
  ascent (fun p => e_ll (at_ p)) (move_of at_) start steps cur ->
  Forall (fun t => na_minlen a <= t) steps' ->
  ascent (fun p => e_ll (at_ p)) (move_of at_) start steps' (vals st') /\
  intens st' = 0 /\ sharp st' = k0 /\ (length steps <= length steps' <= length steps + rem)%nat.
Proof.
  intros E at_ Hn. revert iter steplen steps cur e cpen st E.
  induction rem as [|rem IH]; simpl; intros iter steplen steps cur e cpen st E Lc Hv He Hi Hk Hasc Hall.
  - destruct (converged _ _ _); inversion E; subst; repeat split; auto; lia.
  - destruct (converged _ _ _); [inversion E; subst; repeat split; auto; lia|].
    destruct (soft_stop _ _ _); [inversion E; subst; repeat split; auto; lia|].
    destruct (search _ _ _ _ _ _ _ _ _ _) as [[[p t] st1]|] eqn:Es; [|discriminate].
    assert (Hs0 : same_held held (vals st) cur) by (rewrite Hv; apply same_refl).
    destruct (search_spec _ _ _ _ _ _ _ _ _ _ _ Es Lc (dir_len _ _) Hs0)
      as (Hp & Hi1 & Hk1 & Hs1 & Ht & Hcase).
    assert (L1 : length held = length (vals st1)) by (destruct Hs1; congruence).
    assert (Hbad : forall iter sl c e' cp st2,
      numba_loop held eval direction violated cct ncases rem fuel s a iter sl (steps ++ [t]) c e' cp st2
        = Some (Fit ll tol iters steps' msg st') -> t < na_minlen a -> False).
    { intros * E' Hlt. apply numba_loop_steps in E'. destruct E' as [more ->].
      rewrite <- app_assoc in Hall. apply Forall_app in Hall. destruct Hall as [_ Hall].
      inversion Hall; subst. lra. }
    destruct (nle _ _) eqn:En.
    + destruct Hcase as [[Hnlt _]|(Hnlt & Hlt & _)].
      { apply nlt_not_nle in Hnlt. congruence. }
      destruct (violated _); [discriminate|].
      destruct (Rlt_dec _ _).
      * destruct (sharpen _ _ _ _ _ _ _ _ _) as [[q st2]|] eqn:Esh; [|discriminate].
        destruct (intensify _ _ _ _ _ _) as [[e' c'] st3] eqn:Ei. exfalso; eauto.
      * destruct (Rlt_dec _ _).
        -- inversion E; subst; clear E. simpl. rewrite upd_restore by auto.
           repeat split; auto; try congruence; lia.
        -- destruct (intensify _ _ _ _ _ _) as [[e' c'] st3] eqn:Ei. exfalso; eauto.
    + destruct Hcase as [[Hnlt Hmv]|(Hnlt & Hlt & _)].
      * destruct (intensify _ _ _ _ _ _) as [[e' c'] st3] eqn:Ei.
        destruct (intensify_vals _ _ _ _ _ _ _ _ Ei) as (Hv3 & _ & H0 & _).
        destruct (H0 ltac:(congruence)) as (-> & -> & ->).
        rewrite Hi1, Hk1, Hi, Hk in Hp.
        edestruct IH as (Ha & Hi2 & Hk2 & Hlen); [exact E| | | | | | | |].
        -- auto.
        -- auto.
        -- exact Hp.
        -- congruence.
        -- congruence.
        -- assert (Hm : vals st1 = move_of at_ cur t) by (rewrite Hmv, He; reflexivity).
           rewrite Hm. constructor; auto. rewrite <- Hm.
           change (at_ (vals st1)) with (eval s (vals st1) 0 k0). rewrite <- Hp. subst e; auto.
        -- auto.
        -- rewrite app_length in Hlen; simpl in Hlen. repeat split; auto; lia.
      * destruct (intensify _ _ _ _ _ _) as [[e' c'] st3] eqn:Ei. exfalso; eauto.
Qed.

Lemma simple_loop_agrees rem fuel s ctol minlen iter steplen steps cur e st out p0 :
  simple_loop held eval direction rem fuel s ctol minlen iter steplen steps cur e st = Some out ->
  agrees p0 st -> agrees p0 (end_state out).
Proof.
  revert iter steplen steps cur e st.
  induction rem as [|rem IH]; simpl; intros iter steplen steps cur e st E Ha;
    (destruct (Rlt_dec _ _); [|inversion E; subst; auto]); [inversion E; subst; auto|].
  destruct (search _ _ _ _ _ _ _ _ _ _) as [[[p t] st1]|] eqn:Es; [|discriminate].
  pose proof (agrees_search _ _ _ _ _ _ _ _ _ _ _ p0 Es Ha) as Ha1.
  destruct (nle _ _); [|eauto]. inversion E; subst; simpl. apply (agrees_set p0 cur st1 Ha1).
Qed.
Lemma fit_loop_agrees rem fuel s ctol minlen maxlen momentum stepI stepS iter steplen steps cur e st out p0 :
  fit_loop held eval direction rem fuel s ctol minlen maxlen momentum stepI stepS iter steplen steps cur e st = Some out ->
  agrees p0 st -> agrees p0 (end_state out).
Proof.
  revert iter steplen steps cur e st.
  induction rem as [|rem IH]; simpl; intros iter steplen steps cur e st E Ha;
    (destruct (Rlt_dec _ _); [|inversion E; subst; auto]); [inversion E; subst; auto|].
  destruct (search _ _ _ _ _ _ _ _ _ _) as [[[p t] st1]|] eqn:Es; [|discriminate].
  pose proof (agrees_search _ _ _ _ _ _ _ _ _ _ _ p0 Es Ha) as Ha1.
  destruct (nle _ _); [inversion E; subst; simpl; apply (agrees_set p0 cur st1 Ha1)|].
  eapply IH; [exact E|]. destruct Ha1; split; auto.
Qed.

Lemma sharpen_total fuel s maxS stepS pen last st :
  0 < sharp st -> 1 < stepS -> maxS <= sharp st * stepS ^ (fuel - 1) -> (0 < fuel)%nat ->
  sharpen eval ncases fuel s maxS stepS pen last st <> None.
Proof.
  revert pen last st; induction fuel as [|f IH]; simpl; intros pen last st Hs H1 Hm Hf; [lia|].
  destruct (Rlt_dec _ _); [|discriminate]. destruct (Rlt_dec _ _) as [Hlt|]; [|discriminate].
  rewrite Nat.sub_0_r in Hm.
  assert (Hpos : 0 < maxS) by lra.
  destruct f as [|f]; [simpl in Hm; lra|].
  apply IH; simpl; auto; [|rewrite Nat.sub_0_r|lia].
  - apply Rmin_glb_lt; auto. apply Rmult_lt_0_compat; lra.
  - destruct (Rle_dec (sharp st * stepS) maxS) as [Hle|Hgt].
    + rewrite Rmin_left by auto. simpl in Hm. lra.
    + rewrite Rmin_right by lra.
      assert (1 <= stepS ^ f) by (apply pow_R1_Rle; lra).
      rewrite <- (Rmult_1_r maxS) at 1. apply Rmult_le_compat_l; lra.
Qed.
Lemma sharpen_ge fuel s maxS stepS pen last st p st' lo :
  sharpen eval ncases fuel s maxS stepS pen last st = Some (p, st') ->
  0 < lo -> 1 < stepS -> lo <= maxS -> lo <= sharp st -> lo <= sharp st'.
Proof.
  intros E Hlo H1 Hm. revert pen last st E; induction fuel as [|f IH]; simpl; intros pen last st E Hs; [discriminate|].
  destruct (Rlt_dec _ _); [|inversion E; subst; auto].
  destruct (Rlt_dec _ _); [|inversion E; subst; auto].
  apply IH in E; auto. simpl. apply Rmin_glb; auto.
  rewrite <- (Rmult_1_r lo). apply Rmult_le_compat; lra.
Qed.

Lemma search_sharp fuel s cur dir cll minlen t st e t' st' :
  search held eval fuel s cur dir cll minlen t st = Some (e, t', st') -> sharp st' = sharp st.
Proof.
  revert t st; induction fuel as [|f IH]; simpl; intros t st E; [discriminate|].
  destruct (nlt _ _); [inversion E; subst; auto|].
  destruct (Rlt_dec _ _); [inversion E; subst; auto|]. apply IH in E; auto.
Qed.

Lemma numba_loop_total rem fuel s a iter steplen steps cur e cpen st B lo :
  (0 < fuel)%nat -> 0 <= B -> (forall t, t <= B -> t * (1/2)^fuel < na_minlen a) ->
  steplen <= B -> na_maxlen a <= B ->
  0 < lo -> 1 < na_stepS a -> lo <= na_maxS a -> lo <= sharp st ->
  na_maxS a <= lo * na_stepS a ^ (fuel - 1) ->
  numba_loop held eval direction violated cct ncases rem fuel s a iter steplen steps cur e cpen st <> None.
Proof.
  intros Hf HB Ht Hl Hm Hlo H1 Hlm Hs Hpow. revert iter steplen steps cur e cpen st Hl Hs.
  induction rem as [|rem IH]; simpl; intros iter steplen steps cur e cpen st Hl Hs;
    (destruct (converged _ _ _); [discriminate|]); [discriminate|].
  destruct (soft_stop _ _ _); [discriminate|].
  destruct (search _ _ _ _ _ _ _ _ _ _) as [[[p t] st1]|] eqn:Es.
  2:{ exfalso; revert Es; apply search_total; auto. apply Ht, next_len_le; auto. }
  assert (Htb : t <= B).
  { apply search_len_le in Es. eapply Rle_trans; [exact Es|]. apply Rmax_lub; auto.
    apply next_len_le; auto. }
  apply search_sharp in Es.
  assert (Hc : forall q st2 e' c' st3, intensify eval a s q cpen st2 = (e', c', st3) ->
              lo <= sharp st2 -> lo <= sharp st3).
  { intros q st2 e' c' st3. unfold intensify.
    destruct (Req_EM_T _ _); [inversion 1; subst; auto|].
    destruct (if Rlt_dec _ _ then _ else _); [|inversion 1; subst; auto].
    inversion 1; subst; simpl; intros. apply Rmin_glb; auto.
    rewrite <- (Rmult_1_r lo). apply Rmult_le_compat; lra. }
  destruct (nle _ _).
  - destruct (violated _); [discriminate|]. destruct (Rlt_dec _ _).
    + destruct (sharpen _ _ _ _ _ _ _ _ _) as [[q st2]|] eqn:Esh.
      * destruct (intensify _ _ _ _ _ _) as [[e' c'] st3] eqn:Ei. apply IH; auto.
        eapply Hc; [exact Ei|]. eapply sharpen_ge; eauto. simpl. lra.
      * exfalso; revert Esh; apply sharpen_total; auto; simpl; [lra|].
        eapply Rle_trans; [exact Hpow|]. apply Rmult_le_compat_r; [|lra].
        apply pow_le; lra.
    + destruct (Rlt_dec _ _); [discriminate|].
      destruct (intensify _ _ _ _ _ _) as [[e' c'] st3] eqn:Ei. apply IH; auto.
      eapply Hc; [exact Ei|]. simpl; lra.
  - destruct (intensify _ _ _ _ _ _) as [[e' c'] st3] eqn:Ei. apply IH; auto.
    eapply Hc; [exact Ei|]. lra.
Qed.
End Run.
