(** C39: the covariance matrix of the parameters. *)
From Verif Require Import ParamModel ConsModel ConsSpec CovModel CovSpec CovProofs.
Open Scope R_scope.

(** Whatever the hessian, the inversion routine and bhhh, the rows and columns of held parameters
    are zero in the covariance matrix and in the robust covariance matrix. *)
Theorem C39_held_parameters_zero inverse hold n hess bhhh i j :
  hold i = true \/ hold j = true ->
  covariance inverse hold n hess i j = 0 /\ robust_covariance inverse hold n hess bhhh i j = 0.
Proof. intros H. split; apply scatter_held; auto. Qed.

(** The covariance of the free parameters is the inverse of the free block of minus the hessian
    (when that block has an inverse). *)
Theorem C39_inverse_of_free_block inverse hold n hess i j :
  inverts inverse -> invertible_block hold n hess ->
  (i < n)%nat -> (j < n)%nat -> hold i = false -> hold j = false ->
  sumn n (fun k => hess i k * covariance inverse hold n hess k j) = if Nat.eqb i j then 1 else 0.
Proof. apply covariance_inverse. Qed.

(** At a maximum (minus the hessian symmetric, positive semidefinite, free block invertible) the
    covariance matrix is symmetric and positive semidefinite. *)
Theorem C39_covariance_psd inverse hold n hess :
  inverts inverse -> invertible_block hold n hess -> symmetric n hess -> psd n hess ->
  symmetric n (covariance inverse hold n hess) /\ psd n (covariance inverse hold n hess).
Proof. apply covariance_good. Qed.

(** The robust covariance of two combinations is the bhhh form of their images under the
    covariance matrix (the sandwich); so it is symmetric and positive semidefinite when bhhh is. *)
Theorem C39_robust_sandwich inverse hold n hess bhhh :
  inverts inverse -> invertible_block hold n hess -> symmetric n hess ->
  let v := covariance inverse hold n hess in let rob := robust_covariance inverse hold n hess bhhh in
  (forall a b, cov n rob a b = cov n bhhh (mvec n v a) (mvec n v b)) /\
  (symmetric n bhhh -> symmetric n rob) /\ (psd n bhhh -> psd n rob).
Proof.
  intros Hi Hb Hs v rob.
  assert (E : forall a b, cov n rob a b = cov n bhhh (mvec n v a) (mvec n v b)) by (intros; apply robust_cov; auto).
  split; [exact E|]. split.
  - intros Hsb. apply sym_of_cov. intros a b. rewrite !E. apply cov_sym; auto.
  - intros Hp a. unfold variance. rewrite E. apply Hp.
Qed.

(** Accounting for binding constraints, in whatever number and order, from any symmetric positive
    semidefinite matrix: the result is again symmetric positive semidefinite; every binding
    constraint's linear combination of parameters has covariance zero with everything (so variance
    zero); no combination's variance, in particular no parameter's, increases; and what had
    covariance zero with everything (a held parameter) keeps it. *)
Theorem C39_binding_constraints n cs x s :
  symmetric n s -> psd n s ->
  let s' := constrained_covariance n cs x s in
  symmetric n s' /\ psd n s' /\
  (forall c, In c cs -> is_binding c x = true -> forall v, cov n s' (get (cjac c x)) v = 0) /\
  (forall u, variance n s' u <= variance n s u) /\
  (forall i, (i < n)%nat -> s' i i <= s i i) /\
  (forall w, (forall v, cov n s w v = 0) -> forall v, cov n s' w v = 0).
Proof.
  intros Hs Hp s'. unfold s'. rewrite constrained_fold.
  destruct (fold_constrain n (map (fun c => get (cjac c x)) (binding cs x)) s Hs Hp) as (I1 & I2 & I3 & I4 & I5).
  split; [auto|]. split; [auto|]. split; [|split; [auto|split; [|auto]]].
  - intros c Hc Hb v. apply I5. apply in_map_iff. exists c. split; auto. apply filter_In; auto.
  - intros i Hi. specialize (I3 (one i)). unfold variance in I3. rewrite !cov_one in I3 by auto. auto.
Qed.

(** Without binding constraints nothing changes. *)
Theorem C39_no_binding n cs x s : (forall c, In c cs -> is_binding c x = false) ->
  constrained_covariance n cs x s = s.
Proof.
  intros H. unfold constrained_covariance. replace (binding cs x) with (@nil cons); auto.
  symmetry. unfold binding. induction cs as [|c cs IH]; simpl; auto.
  rewrite H by (simpl; auto). apply IH. intros; apply H; simpl; auto.
Qed.

(** The reported matrix, for a model with distinct parameter names: symmetric, positive
    semidefinite, zero for held parameters and for free parameters sitting at one of their
    (uncrossed, finite) bounds, whatever other constraints there are. *)
Theorem C39_reported inverse f cl x hess :
  let n := length (rows f) in
  NoDup (names (rows f)) -> length x = n ->
  inverts inverse -> invertible_block (held f) n hess -> symmetric n hess -> psd n hess ->
  let s := reported_covariance inverse f cl x hess in
  symmetric n s /\ psd n s /\
  forall i r, nth_error (rows f) i = Some r ->
    (is_free r = false \/
     (nle (r_min r) (r_max r) = true /\ (r_min r = Fin (get x i) \/ r_max r = Fin (get x i)))) ->
    forall j, (j < n)%nat -> s i j = 0 /\ s j i = 0.
Proof.
  intros n Hn Hx Hi Hb Hs Hp s.
  destruct (covariance_good inverse (held f) n hess Hi Hb Hs Hp) as [Cs Cp].
  destruct (C39_binding_constraints n (all_constraints cl f) x _ Cs Cp) as (B1 & B2 & B3 & _ & _ & B6).
  change (constrained_covariance n (all_constraints cl f) x (covariance inverse (held f) n hess)) with s in *.
  split; [auto|]. split; [auto|]. intros i r Hr Hcase j Hj.
  assert (Hin : (i < n)%nat) by (apply nth_error_Some; congruence).
  assert (Z : forall v, cov n s (one i) v = 0).
  { destruct (is_free r) eqn:Ef.
    - destruct Hcase as [Hcase|[Hle Hat]]; [discriminate|].
      assert (Hfin : r_min r <> NInf \/ r_max r <> PInf).
      { destruct Hat as [E|E]; rewrite E; [left|right]; discriminate. }
      destruct (bounds_constraints_in f i r Hn Hr Ef Hfin) as (l & Hl & Hc).
      set (c := mkCons _ _ _ _ _ _ _ _ _ _) in Hc.
      assert (Hbind : is_binding c x = true).
      { unfold is_binding, cfun, c; simpl. unfold min_fun, max_fun, pymin; simpl.
        destruct Hat as [E|E]; rewrite E in *; simpl.
        - replace ((get x i - get x i) * 10) with 0 by ring.
          assert (Hnl : nlt (nscale (nsub (r_max r) (Fin (get x i))) 10) (Fin 0) = false).
          { destruct (r_max r); simpl in *; try discriminate.
            - destruct (Rle_dec (get x i) x0); [|discriminate]. unfold nlt, nle.
              destruct (Rle_dec 0 ((x0 - get x i) * 10)); simpl; auto. lra.
            - destruct (Req_EM_T 10 0); [lra|]. destruct (Rlt_dec 0 10); [auto|lra]. }
          rewrite Hnl. unfold nabs. apply nlt_fin. rewrite Rabs_R0. lra.
        - replace ((get x i - get x i) * 10) with 0 by ring.
          match goal with |- context [if ?t then _ else _] => destruct t eqn:El end.
          + unfold nabs. rewrite Rabs_R0. apply (proj2 (nlt_fin 0 (1/10000))). lra.
          + destruct (r_min r) as [| |m|]; try (simpl in Hle; discriminate).
            * exfalso. revert El. simpl. destruct (Req_EM_T 10 0); [lra|].
              destruct (Rlt_dec 0 10); [simpl; discriminate|lra].
            * unfold nle in Hle. destruct (Rle_dec m (get x i)); [|discriminate]. simpl.
              destruct (Rlt_dec 0 ((get x i - m) * 10)) as [G|G].
              { exfalso. apply nlt_fin in G. simpl in El, G. congruence. }
              replace ((get x i - m) * 10) with 0 by nra. rewrite Rabs_R0.
              apply (proj2 (nlt_fin 0 (1/10000))). lra. }
      assert (HJ : exists k, k <> 0 /\ forall a, (a < n)%nat -> get (cjac c x) a = k * one i a).
      { unfold cjac, c; simpl. unfold one.
        destruct (nlt _ _); [exists 10|exists (-10)]; (split; [lra|]); intros a Ha; rewrite get_put
          by (rewrite zeros_length, Hx; auto); destruct (Nat.eqb a i); rewrite ?get_zeros; ring. }
      destruct HJ as (k & Hk & HJ). intros v.
      assert (Hall : In c (all_constraints cl f)).
      { unfold all_constraints. rewrite Hl. apply in_or_app. auto. }
      pose proof (B3 c Hall Hbind v) as H0. rewrite (cov_scaled_one n s i k v _ HJ) in H0.
      apply Rmult_integral in H0. destruct H0; [contradiction|auto].
    - apply B6. intros v. rewrite cov_one_l by auto. unfold mvec. rewrite <- (sumn_zero n).
      apply sumn_ext. intros a Ha. unfold covariance. rewrite scatter_held; [ring|]. left.
      unfold held. rewrite Hr, Ef. auto. }
  split.
  - rewrite <- (cov_one n s i j) by auto. auto.
  - rewrite (B1 j i) by auto. rewrite <- (cov_one n s i j) by auto. auto.
Qed.

(** An ordering constraint that binds makes the two estimates move together: equal variances,
    equal to their covariance. *)
Theorem C39_binding_order n c x s a b :
  symmetric n s -> psd n s -> length x = n ->
  c_spec c = Order a b -> (c_i c < n)%nat -> (c_j c < n)%nat -> c_i c <> c_j c -> c_scale c <> 0 ->
  is_binding c x = true ->
  forall cs, In c cs ->
  let s' := constrained_covariance n cs x s in
  forall k, (k < n)%nat -> s' (c_i c) k = s' (c_j c) k.
Proof.
  intros Hs Hp Hx Hc Hi Hj Hne Hsc Hb cs Hin s' k Hk.
  destruct (C39_binding_constraints n cs x s Hs Hp) as (_ & _ & B3 & _).
  specialize (B3 c Hin Hb (one k)). fold s' in B3.
  assert (E : forall m, (m < n)%nat -> get (cjac c x) m = (- c_scale c) * one (c_i c) m + c_scale c * one (c_j c) m).
  { intros m Hm. unfold cjac. rewrite Hc. assert (L : length (zeros (length x)) = n) by (rewrite zeros_length; auto).
    assert (Lp : forall i v, (i < n)%nat -> length (put (zeros (length x)) i v) = n).
    { intros i v _. rewrite <- L. clear. generalize (zeros (length x)) as z. intros z; revert i; induction z; destruct i; simpl; auto. }
    rewrite get_put by (rewrite Lp; auto). rewrite get_put by (rewrite L; auto). rewrite get_zeros. unfold one.
    destruct (Nat.eqb_spec m (c_i c)), (Nat.eqb_spec m (c_j c)); try ring. subst; exfalso; auto. }
  assert (B : cov n s' (fun m => (- c_scale c) * one (c_i c) m + c_scale c * one (c_j c) m) (one k) = 0).
  { rewrite <- B3. unfold cov. apply sumn_ext; intros; apply sumn_ext; intros. rewrite E by auto. auto. }
  rewrite cov_plus_l, !cov_mult_l, !cov_one in B by auto. nra.
Qed.

(** Non-vacuity: three parameters, the middle one held; hessian diag(2, 7, 4); the first free
    parameter sits at its minimum. *)
Definition ex_rows : list row :=
  [mkRow "a" (Fin 1) (Fin 0) (Fin 0) (Fin 1) PInf (Some 0%Z) NaN;
   mkRow "b" (Fin 5) (Fin 0) (Fin 0) NInf PInf (Some 1%Z) NaN;
   mkRow "c" (Fin 3) (Fin 0) (Fin 0) NInf PInf (Some 0%Z) NaN].
Definition ex_hess : matrix := fun i j => if Nat.eqb i j then match i with O => 2 | 1%nat => 7 | _ => 4 end else 0.
Definition ex_x : list R := [1; 5; 3].
Example C39_example_block : invertible_block (held (mkFrame ex_rows false)) 3 ex_hess.
Proof.
  exists (fun a b => if Nat.eqb a b then match a with O => 1/2 | _ => 1/4 end else 0).
  intros a b Ha Hb. change (length (free_positions (held (mkFrame ex_rows false)) 3)) with 2%nat in *.
  assert (P : free_positions (held (mkFrame ex_rows false)) 3 = [0%nat; 2%nat]) by reflexivity.
  destruct a as [|[|]], b as [|[|]]; try lia; unfold block, ex_hess; rewrite P; simpl; lra.
Qed.
Example C39_example_hyps :
  symmetric 3 ex_hess /\ psd 3 ex_hess /\ NoDup (names ex_rows) /\
  nth_error ex_rows 0 = Some (mkRow "a" (Fin 1) (Fin 0) (Fin 0) (Fin 1) PInf (Some 0%Z) NaN) /\
  nle (Fin 1) PInf = true /\ Fin 1 = Fin (get ex_x 0).
Proof.
  split; [|split; [|split; [|split; [|split]]]]; auto.
  - intros i j _ _. unfold ex_hess. rewrite (Nat.eqb_sym j i). destruct (Nat.eqb_spec i j); subst; auto.
  - intros u. unfold variance, cov, sumn, ex_hess; simpl. nra.
  - repeat constructor; simpl; intuition discriminate.
Qed.
