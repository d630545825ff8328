(** Latent class probabilities, likelihood, gradient (C43) and BHHH matrix (C45). *)
From Coq Require Import Lra.
From Coquelicot Require Import Coquelicot.
From Verif Require Import RangeProofs.
From Verif Require Export LcDeriv.
Open Scope R_scope.

Section Statements.
Variables (n : Z) (n_alts : nat) (keys : list Z).
Variables (start stop step : Z).
(** The classes are numbered, and the range [start, stop, step] (a stop of -1 means all the cases)
    lies inside the data and has [N] cases. *)
Hypothesis numbered : classes_numbered keys.
Let stop' := if (stop =? -1)%Z then n else stop.
Hypothesis range_ok : valid_range n start stop' step.
Variable N : nat.
Hypothesis counted : range_count start stop' step N.

(** [probability] returns one row per case of the range and one column per alternative, holding the
    mixture over the classes, whatever the nests of the class models add to their rows. *)
Theorem C43_probability_is_mixture pk pm :
  (forall k c, (n_alts <= length (pk k c))%nat) ->
  exists P, lc_probability n n_alts keys pk pm start stop step = Ok P /\
    length P = N /\
    forall i, (i < N)%nat ->
      length (nth i P []) = n_alts /\
      forall a, (a < n_alts)%nat ->
        nth a (nth i P []) 0 = mixture keys pk pm (start + Z.of_nat i * step) a.
Proof.
  intros W. destruct (lc_probability_value n n_alts keys pk pm start stop step W (proj2 numbered) range_ok)
    as (P & E & [S1 S2] & V).
  assert (HN : N = length (case_range start stop' step))
    by (eapply range_count_unique; [exact counted|eapply range_count_length; exact range_ok]).
  fold stop' in S1, S2, V. exists P. split; auto. rewrite HN. split; auto.
  intros i Hi. split; auto. intros a Ha. rewrite V by auto. rewrite case_range_nth; auto.
Qed.

(** If the membership shares and every class model are distributions over the classes and the
    alternatives, so is every row of the result. *)
Theorem C43_distribution pk pm P :
  (forall k c, (n_alts <= length (pk k c))%nat) ->
  (forall k c a, In k keys -> 0 <= nth a (pk k c) 0) ->
  (forall k c, In k keys -> Rsum (fun a => nth a (pk k c) 0) (seq 0 n_alts) = 1) ->
  (forall k c, In k keys -> 0 <= share pm k c) ->
  (forall c, Rsum (fun k => share pm k c) keys = 1) ->
  lc_probability n n_alts keys pk pm start stop step = Ok P ->
  forall i, (i < N)%nat ->
    Rsum (fun a => nth a (nth i P []) 0) (seq 0 n_alts) = 1 /\
    forall a, (a < n_alts)%nat -> 0 <= nth a (nth i P []) 0 <= 1.
Proof.
  intros W P0 P1 S0 S1 E i Hi.
  destruct (C43_probability_is_mixture pk pm W) as (P' & E' & _ & V). rewrite E in E'. injection E' as <-.
  destruct (V i Hi) as [_ Va]. set (c := (start + Z.of_nat i * step)%Z) in *.
  assert (T : Rsum (fun a => nth a (nth i P []) 0) (seq 0 n_alts) = 1).
  { rewrite (Rsum_ext _ (fun a => Rsum (fun k => share pm k c * nth a (pk k c) 0) keys)).
    2:{ intros a Ha. apply in_seq in Ha. apply Va. lia. }
    rewrite <- (S1 c).
    assert (SW : forall l, Rsum (fun a => Rsum (fun k => share pm k c * nth a (pk k c) 0) l) (seq 0 n_alts)
              = Rsum (fun k => share pm k c * Rsum (fun a => nth a (pk k c) 0) (seq 0 n_alts)) l).
    { induction l as [|k l IH]; simpl.
      - apply Rsum_zero. auto.
      - rewrite Rsum_plus, Rsum_scal. f_equal. apply IH. }
    rewrite SW. apply Rsum_ext. intros k Hk. rewrite P1 by auto. lra. }
  assert (NN : forall a, (a < n_alts)%nat -> 0 <= nth a (nth i P []) 0).
  { intros a Ha. rewrite Va by auto. apply Rsum_nonneg. intros k Hk. apply Rmult_le_pos; auto. }
  split; auto. intros a Ha. split; auto. rewrite <- T.
  apply (Rsum_ge_one (fun a => nth a (nth i P []) 0)); [|apply in_seq; lia].
  intros x Hx. apply in_seq in Hx. apply NN. lia.
Qed.

(** [loglike] is the weighted sum of choice times log mixture probability over the range. *)
Theorem C43_loglike pk pm ch wt :
  (forall k c, (n_alts <= length (pk k c))%nat) ->
  (forall c, length (ch c) = n_alts) ->
  let case i := (start + Z.of_nat i * step)%Z in
  chosen_possible N n_alts (fun i a => mixture keys pk pm (case i) a) (fun i a => nth a (ch (case i)) 0) ->
  lc_loglike n n_alts keys pk pm ch wt start stop step =
  Ok (Some (log_likelihood N n_alts (fun i a => mixture keys pk pm (case i) a)
              (fun i a => nth a (ch (case i)) 0) (fun i => wt (case i)))).
Proof.
  intros W Lc case HP. destruct (C43_probability_is_mixture pk pm W) as (P & E & L & V).
  unfold lc_loglike. rewrite E. fold stop'.
  assert (HN : N = length (case_range start stop' step))
    by (eapply range_count_unique; [exact counted|eapply range_count_length; exact range_ok]).
  set (cs := case_range start stop' step) in *.
  assert (Nth : forall i, (i < N)%nat -> nth i cs 0%Z = case i).
  { intros i Hi. unfold cs. rewrite case_range_nth; auto. fold cs. lia. }
  assert (Ch : forall i, (i < N)%nat -> nth i (map ch cs) [] = ch (case i)).
  { intros i Hi. rewrite (nth_indep _ [] (ch 0%Z)) by (rewrite map_length; lia).
    rewrite map_nth, Nth; auto. }
  assert (Wt : forall i, (i < N)%nat -> nth i (map wt cs) 0 = wt (case i)).
  { intros i Hi. rewrite (nth_indep _ 0 (wt 0%Z)) by (rewrite map_length; lia).
    rewrite map_nth, Nth; auto. }
  rewrite (loglike_value P (map ch cs) (map wt cs) n_alts).
  - rewrite L. do 2 f_equal. unfold log_likelihood. apply Rsum_ext. intros i Hi. apply in_seq in Hi.
    rewrite Wt by lia. f_equal. apply Rsum_ext. intros a Ha. apply in_seq in Ha.
    rewrite Ch by lia. destruct (V i) as [_ Va]; [lia|]. rewrite Va by lia. reflexivity.
  - rewrite map_length. lia.
  - rewrite map_length. lia.
  - rewrite L. intros i Hi. rewrite Ch by auto. destruct (V i Hi). auto.
  - rewrite L. intros i a Hi Ha. rewrite Ch by auto. destruct (V i Hi) as [_ Va]. rewrite Va by auto. apply HP; auto.
Qed.

(** The gradient [loglike2] returns is the derivative of [loglike], in every parameter [v], when the
    derivatives the membership and class models supply are right. *)
Theorem C43_gradient n_params v (pk : R -> Z -> Z -> list R) (pm : R -> Z -> list R)
    (dpk : Z -> Z -> nat -> nat -> R) (dpm : Z -> nat -> nat -> R) ch wt t0
    (dP : nat -> nat -> nat -> R) :
  (v < n_params)%nat ->
  (forall t k c, (n_alts <= length (pk t k c))%nat) ->
  (forall c, length (ch c) = n_alts) ->
  let case i := (start + Z.of_nat i * step)%Z in
  (* the derivatives of the parts *)
  (forall k c a, In k keys -> (a < n_alts)%nat -> is_derive (fun t => nth a (pk t k c) 0) t0 (dpk k c a v)) ->
  (forall k c, In k keys -> is_derive (fun t => share (pm t) k c) t0 (dpm c (Z.to_nat (k - 1)) v)) ->
  (* [dP] is what [d_probability] computes for each case *)
  (forall i, (i < N)%nat ->
     d_mixture (length keys) keys (fun k a => nth a (pk t0 k (case i)) 0) (fun k => dpk k (case i))
       (fun j => nth j (pm t0 (case i)) 0) (dpm (case i)) (fun _ _ => 0) = Ok (dP i)) ->
  chosen_possible N n_alts (fun i a => mixture keys (pk t0) (pm t0) (case i) a)
    (fun i a => nth a (ch (case i)) 0) ->
  is_derive (fun t => match lc_loglike n n_alts keys (pk t) (pm t) ch wt start stop step with
                      | Ok (Some ll) => ll | _ => 0 end) t0
    (fst (lc_dll_bhhh n_params n_alts (fun i a => mixture keys (pk t0) (pm t0) (case i) a) dP
            (fun i a => nth a (ch (case i)) 0) (fun i => wt (case i)) N) v).
Proof.
  intros Hv W Lc case Dk Dm HdP HP.
  assert (Mix : forall i a, (i < N)%nat -> (a < n_alts)%nat ->
    is_derive (fun t => mixture keys (pk t) (pm t) (case i) a) t0 (dP i a v)).
  { intros i a Hi Ha.
    apply (d_eq _ _ (Rsum (fun k => dpk k (case i) a v * share (pm t0) k (case i) +
       nth a (pk t0 k (case i)) 0 * dpm (case i) (Z.to_nat (k - 1)) v) keys)).
    - apply mixture_deriv; intros k Hk; [apply Dk; auto|apply Dm; auto].
    - destruct (d_mixture_value (length keys) keys (fun k a => nth a (pk t0 k (case i)) 0) (fun k => dpk k (case i))
       (fun j => nth j (pm t0 (case i)) 0) (dpm (case i)) (fun _ _ => 0) (proj2 numbered)) as (D & E & VD).
      rewrite HdP in E by auto. injection E as <-. rewrite VD. unfold share. lra. }
  assert (Near : locally t0 (fun t => forall i, (i < N)%nat -> forall a, (a < n_alts)%nat ->
     nth a (ch (case i)) 0 <> 0 -> 0 < mixture keys (pk t) (pm t) (case i) a)).
  { apply locally_forall_below. intros i Hi. apply locally_forall_below. intros a Ha.
    destruct (Req_EM_T (nth a (ch (case i)) 0) 0) as [Z|Z].
    - apply filter_forall. intros t F. contradiction.
    - generalize (is_derive_pos_near _ _ _ (Mix i a Hi Ha) (HP i a Hi Ha Z)). apply filter_imp. auto. }
  apply (is_derive_ext_loc (fun t => log_likelihood N n_alts (fun i a => mixture keys (pk t) (pm t) (case i) a)
              (fun i a => nth a (ch (case i)) 0) (fun i => wt (case i)))).
  { generalize Near. apply filter_imp. intros t Ht. cbv beta in Ht.
    rewrite (C43_loglike (pk t) (pm t) ch wt (W t) Lc); auto. intros i a Hi Ha. apply Ht; auto. }
  unfold lc_dll_bhhh. cbn [fst].
  destruct (cases_value n_params 0 1 0 ltac:(lia) ltac:(lia) n_alts true
    (fun i a => mixture keys (pk t0) (pm t0) (case i) a) dP
            (fun i a => nth a (ch (case i)) 0) (fun i => wt (case i)) N) as [G _].
  rewrite G, dll_term_gradient by auto. unfold gradient.
  apply (log_likelihood_deriv N n_alts (fun t i a => mixture keys (pk t) (pm t) (case i) a)
    (fun i a => dP i a v) (fun i a => nth a (ch (case i)) 0) (fun i => wt (case i)) t0); auto.
Qed.
End Statements.

(** Class keys other than 1, ..., K (the constructor takes any integers) make every computation on a
    valid range fail with a KeyError. *)
Theorem C43_class_names_refuted n n_alts keys pk pm start stop step k :
  valid_range n start (if (stop =? -1)%Z then n else stop) step ->
  In k keys -> ~ (1 <= k <= Z.of_nat (length keys))%Z ->
  lc_probability n n_alts keys pk pm start stop step = KeyError.
Proof.
  intros V Hk B. unfold lc_probability. rewrite resolve_ok by auto. destruct V as (V1 & V2 & V3).
  rewrite persisted_rows by lia.
  assert (E : forall s, (start <= s)%Z -> (fun k => persisted [] (pk k) start s step) =
     (fun k => map (pk k) (case_range start s step))).
  { intros s Hs. apply FunctionalExtensionality.functional_extensionality. intros k'.
    rewrite persisted_rows by lia. reflexivity. }
  rewrite E by lia. apply (add_classes_bad n_alts pk pm _ (length keys) keys _ k); auto.
Qed.

(** The documentation says a negative stop counts backward from the end.  Every negative stop but -1
    is an IndexError instead. *)
Theorem C43_negative_stop_refuted n n_alts keys pk pm start stop step :
  (0 <= start < n)%Z -> (stop < -1)%Z ->
  lc_probability n n_alts keys pk pm start stop step = IndexError.
Proof.
  intros H1 H2. unfold lc_probability, resolve_range.
  destruct (Z.leb_spec n start); [lia|]. destruct (Z.eqb_spec stop (-1)); [lia|].
  destruct (Z.ltb_spec stop start); [reflexivity|lia].
Qed.

(** * BHHH *)

(** Both kernels return the gradient. *)
Theorem C45_gradient n_params n_alts P dP ch wt N v : (v < n_params)%nat ->
  chosen_possible N n_alts P ch ->
  fst (nl_dll_bhhh n_params n_alts P dP ch wt N) v = gradient N n_alts P dP ch wt v /\
  fst (lc_dll_bhhh n_params n_alts P dP ch wt N) v = gradient N n_alts P dP ch wt v.
Proof.
  intros Hv H. unfold nl_dll_bhhh, lc_dll_bhhh. cbn [fst]. split.
  - destruct (cases_value n_params 0 1 2 ltac:(lia) ltac:(lia) n_alts true P dP ch wt N) as [G _].
    rewrite G by auto. apply dll_term_gradient; auto.
  - destruct (cases_value n_params 0 1 0 ltac:(lia) ltac:(lia) n_alts true P dP ch wt N) as [G _].
    rewrite G by auto. apply dll_term_gradient; auto.
Qed.

(** The nested logit kernel, whose buffers are distinct, returns the sum of outer products. *)
Theorem C45_nested_logit_bhhh n_params n_alts P dP ch wt N v w : (v < n_params)%nat -> (w < n_params)%nat ->
  chosen_possible N n_alts P ch ->
  snd (nl_dll_bhhh n_params n_alts P dP ch wt N) v w = outer_products N n_alts P dP ch wt v w.
Proof.
  intros Hv Hw H. unfold nl_dll_bhhh. cbn [snd].
  destruct (cases_value n_params 0 1 2 ltac:(lia) ltac:(lia) n_alts true P dP ch wt N) as [_ B].
  rewrite B by auto. rewrite (bhhh_term_outer N n_alts P dP ch wt v w (fun _ _ => 1)); auto.
  unfold outer_products. apply Rsum_ext. intros i _. apply Rsum_ext. intros a _. ring.
Qed.

(** The latent class model passes one buffer twice, and what it returns is the sum with each term
    multiplied by the square of one plus choice times weight. *)
Theorem C45_latent_class_bhhh_partial n_params n_alts P dP ch wt N v w : (v < n_params)%nat -> (w < n_params)%nat ->
  chosen_possible N n_alts P ch ->
  snd (lc_dll_bhhh n_params n_alts P dP ch wt N) v w =
  outer_products N n_alts P dP (fun i a => ch i a * (1 + ch i a * wt i) ^ 2) wt v w.
Proof.
  intros Hv Hw H. unfold lc_dll_bhhh. cbn [snd].
  destruct (cases_value n_params 0 1 0 ltac:(lia) ltac:(lia) n_alts true P dP ch wt N) as [_ B].
  rewrite B by auto. rewrite (bhhh_term_outer N n_alts P dP ch wt v w (fun i a => 1 + ch i a * wt i)); auto.
  unfold outer_products. apply Rsum_ext. intros i _. apply Rsum_ext. intros a _. ring.
Qed.

(** So with one choice per case and no weights it is four times the sum of outer products: standard
    errors taken from it are half what they should be. *)
Theorem C45_latent_class_bhhh_fourfold_refuted n_params n_alts P dP ch N v w : (v < n_params)%nat -> (w < n_params)%nat ->
  chosen_possible N n_alts P ch ->
  (forall i a, ch i a = 0 \/ ch i a = 1) ->
  snd (lc_dll_bhhh n_params n_alts P dP ch (fun _ => 1) N) v w =
  4 * outer_products N n_alts P dP ch (fun _ => 1) v w.
Proof.
  intros Hv Hw H H01. rewrite C45_latent_class_bhhh_partial by auto.
  unfold outer_products. rewrite <- Rsum_scal. apply Rsum_ext. intros i _.
  rewrite <- Rsum_scal. apply Rsum_ext. intros a _.
  destruct (H01 i a) as [ ->| ->]; ring.
Qed.

(** * Cases that meet the hypotheses *)

(** Two classes, two alternatives, three cases of which the middle one is left out. *)
Definition ex_pk (k c : Z) : list R :=
  if (k =? 1)%Z then [1/4; 3/4; 1] else [1/2; 1/2; 1].
Definition ex_pm (c : Z) : list R := if (c =? 0)%Z then [1/3; 2/3] else [1/5; 4/5].
Example C43_example_range : valid_range 3 0 (if (-1 =? -1)%Z then 3%Z else (-1)%Z) 2 /\
  range_count 0 3 2 2 /\ classes_numbered [2%Z; 1%Z].
Proof.
  split; [unfold valid_range; simpl; lia|]. split.
  - intros i. lia.
  - split.
    + repeat constructor; simpl; intuition lia.
    + simpl. intros k H. intuition lia.
Qed.
Example C43_example_value : exists P, lc_probability 3 2 [2%Z; 1%Z] ex_pk ex_pm 0 (-1) 2 = Ok P /\
  length P = 2%nat /\ nth 0 (nth 0 P []) 0 = 5/12 /\ nth 0 (nth 1 P []) 0 = 9/20.
Proof.
  destruct C43_example_range as (R1 & R2 & R3).
  destruct (C43_probability_is_mixture 3 2 [2%Z; 1%Z] 0 (-1) 2 R3 R1 2 R2 ex_pk ex_pm) as (P & E & L & V).
  { intros k c. unfold ex_pk. destruct (k =? 1)%Z; simpl; lia. }
  exists P. split; auto. split; auto.
  destruct (V 0%nat) as [_ V0]; [lia|]. destruct (V 1%nat) as [_ V1]; [lia|].
  rewrite V0, V1 by lia. unfold mixture, share, ex_pk, ex_pm. simpl. lra.
Qed.
Example C43_example_distribution :
  (forall k c, In k [2%Z; 1%Z] -> Rsum (fun a => nth a (ex_pk k c) 0) (seq 0 2) = 1) /\
  (forall c, Rsum (fun k => share ex_pm k c) [2%Z; 1%Z] = 1).
Proof.
  split.
  - intros k c _. unfold ex_pk. destruct (k =? 1)%Z; simpl; lra.
  - intros c. unfold share, ex_pm. destruct (c =? 0)%Z; simpl; lra.
Qed.
(** A membership share moving with its own parameter [t]: its derivative is minus that of the other. *)
Example C43_example_gradient :
  let pm t (_ : Z) := [t; 1 - t] in
  (forall c, is_derive (fun t => share (pm t) 1 c) (1/3) 1) /\
  (forall c, is_derive (fun t => share (pm t) 2 c) (1/3) (-1)) /\
  chosen_possible 2 2 (fun i a => mixture [1%Z; 2%Z] ex_pk (pm (1/3)) (0 + Z.of_nat i * 2) a)
    (fun i a => if (i =? a)%nat then 1 else 0).
Proof.
  simpl. split; [|split].
  - intros c. unfold share; simpl. apply @is_derive_id.
  - intros c. unfold share; simpl. auto_derive; auto; lra.
  - intros i a Hi Ha _. unfold mixture, share, ex_pk. destruct i as [|[|]]; try lia; destruct a as [|[|]]; try lia; simpl; lra.
Qed.
Example C45_example : chosen_possible 1 2 (fun _ _ => 1/2) (fun _ a => if (a =? 0)%nat then 1 else 0) /\
  snd (lc_dll_bhhh 1 2 (fun _ _ => 1/2) (fun _ _ _ => 1/4) (fun _ a => if (a =? 0)%nat then 1 else 0) (fun _ => 1) 1) 0%nat 0%nat = 1 /\
  outer_products 1 2 (fun _ _ => 1/2) (fun _ _ _ => 1/4) (fun _ a => if (a =? 0)%nat then 1 else 0) (fun _ => 1) 0 0 = 1/4.
Proof.
  assert (C : chosen_possible 1 2 (fun _ _ => 1/2) (fun _ a => if (a =? 0)%nat then 1 else 0))
    by (intros i a _ _ _; lra).
  split; auto. rewrite C45_latent_class_bhhh_fourfold_refuted; auto.
  - unfold outer_products. simpl. split; lra.
  - intros i a. destruct (a =? 0)%nat; auto.
Qed.
