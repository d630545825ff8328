(** Proofs about the covariance matrix. *)
From Verif Require Import ParamModel ConsModel ConsSpec ConsProofs CovModel CovSpec.
Open Scope R_scope.

Lemma sumn_ext n g h : (forall k, (k < n)%nat -> g k = h k) -> sumn n g = sumn n h.
Proof. induction n; simpl; intros H; auto. rewrite IHn, H; auto. Qed.
Lemma sumn_plus n g h : sumn n (fun k => g k + h k) = sumn n g + sumn n h.
Proof. induction n; simpl; [lra|]. rewrite IHn; lra. Qed.
Lemma sumn_mult n a g : sumn n (fun k => a * g k) = a * sumn n g.
Proof. induction n; simpl; [lra|]. rewrite IHn; lra. Qed.
Lemma sumn_multr n a g : sumn n (fun k => g k * a) = sumn n g * a.
Proof. induction n; simpl; [lra|]. rewrite IHn; lra. Qed.
Lemma sumn_zero n : sumn n (fun _ => 0) = 0.
Proof. induction n; simpl; auto. rewrite IHn; lra. Qed.
Lemma sumn_minus n g h : sumn n (fun k => g k - h k) = sumn n g - sumn n h.
Proof. induction n; simpl; [lra|]. rewrite IHn; lra. Qed.
Lemma sumn_swap n m g : sumn n (fun i => sumn m (fun j => g i j)) = sumn m (fun j => sumn n (fun i => g i j)).
Proof.
  induction n; simpl; [symmetry; apply sumn_zero|]. rewrite IHn, <- sumn_plus. auto.
Qed.
Lemma sumn_one n i g : (i < n)%nat -> sumn n (fun k => one i k * g k) = g i.
Proof.
  induction n; simpl; intros H; [lia|]. unfold one at 2. destruct (Nat.eqb_spec n i).
  - subst. assert (E : sumn i (fun k => one i k * g k) = 0).
    { rewrite <- (sumn_zero i). apply sumn_ext. intros k Hk. unfold one.
      destruct (Nat.eqb_spec k i); [lia|lra]. }
    rewrite E. lra.
  - rewrite IHn by lia. lra.
Qed.

Lemma cov_mvec n s u v : cov n s u v = dot n u (mvec n s v).
Proof.
  unfold cov, dot, mvec. apply sumn_ext; intros i _. rewrite <- sumn_mult. apply sumn_ext; intros; ring.
Qed.
Lemma cov_plus_l n s u u' v : cov n s (fun k => u k + u' k) v = cov n s u v + cov n s u' v.
Proof.
  unfold cov. rewrite <- sumn_plus. apply sumn_ext; intros i _. rewrite <- sumn_plus. apply sumn_ext; intros; ring.
Qed.
Lemma cov_plus_r n s u v v' : cov n s u (fun k => v k + v' k) = cov n s u v + cov n s u v'.
Proof.
  unfold cov. rewrite <- sumn_plus. apply sumn_ext; intros i _. rewrite <- sumn_plus. apply sumn_ext; intros; ring.
Qed.
Lemma cov_mult_l n s a u v : cov n s (fun k => a * u k) v = a * cov n s u v.
Proof.
  unfold cov. rewrite <- sumn_mult. apply sumn_ext; intros i _. rewrite <- sumn_mult. apply sumn_ext; intros; ring.
Qed.
Lemma cov_mult_r n s a u v : cov n s u (fun k => a * v k) = a * cov n s u v.
Proof.
  unfold cov. rewrite <- sumn_mult. apply sumn_ext; intros i _. rewrite <- sumn_mult. apply sumn_ext; intros; ring.
Qed.
Lemma cov_sym n s u v : symmetric n s -> cov n s u v = cov n s v u.
Proof.
  intros Hs. unfold cov. rewrite sumn_swap. apply sumn_ext; intros i Hi. apply sumn_ext; intros j Hj.
  rewrite (Hs j i) by auto. ring.
Qed.
Lemma cov_one n s i j : (i < n)%nat -> (j < n)%nat -> cov n s (one i) (one j) = s i j.
Proof.
  intros Hi Hj. rewrite cov_mvec. unfold dot. rewrite sumn_one by auto. unfold mvec.
  rewrite <- (sumn_one n j (fun k => s i k)) by auto. apply sumn_ext; intros; ring.
Qed.
Lemma cov_one_l n s i v : (i < n)%nat -> cov n s (one i) v = mvec n s v i.
Proof. intros Hi. rewrite cov_mvec. apply sumn_one; auto. Qed.

(** Cauchy-Schwarz for a positive semidefinite form. *)
Lemma cauchy n s u v : symmetric n s -> psd n s -> cov n s u v * cov n s u v <= cov n s u u * cov n s v v.
Proof.
  intros Hs Hp.
  assert (Q : forall t, 0 <= cov n s u u + 2 * t * cov n s u v + t * t * cov n s v v).
  { intros t. pose proof (Hp (fun k => u k + t * v k)) as H. unfold variance in H.
    rewrite cov_plus_l, !cov_plus_r, !cov_mult_l, !cov_mult_r in H. rewrite (cov_sym n s v u Hs) in H. lra. }
  set (a := cov n s u u) in *. set (b := cov n s u v) in *. set (c := cov n s v v) in *.
  assert (Hc : 0 <= c) by apply Hp. assert (Ha : 0 <= a) by apply Hp.
  destruct (Req_dec c 0) as [E|E].
  - rewrite E in *. destruct (Req_dec b 0) as [Eb|Eb]; [rewrite Eb; lra|].
    exfalso. specialize (Q (- (a + 1) / (2 * b))).
    replace (2 * (- (a + 1) / (2 * b)) * b) with (- (a + 1)) in Q by (field; auto). lra.
  - specialize (Q (- b / c)).
    replace (a + 2 * (- b / c) * b + - b / c * (- b / c) * c) with ((a * c - b * b) / c) in Q by (field; auto).
    assert (0 <= a * c - b * b); [|lra].
    replace (a * c - b * b) with ((a * c - b * b) / c * c) by (field; auto). apply Rmult_le_pos; auto.
Qed.

(** ** One constraint *)
Lemma den_cov n s b : dot n (fun j => sumn n (fun k => b k * s k j)) b = cov n s b b.
Proof.
  unfold dot, cov. rewrite sumn_swap. apply sumn_ext; intros j _. rewrite <- sumn_multr. auto.
Qed.
Lemma constrain_entry n s b i j : symmetric n s -> (i < n)%nat -> (j < n)%nat -> cov n s b b <> 0 ->
  constrain n s b i j = s i j - (mvec n s b i) * (mvec n s b j) / cov n s b b.
Proof.
  intros Hs Hi Hj Hd. unfold constrain. rewrite den_cov. destruct (Req_EM_T _ _); [contradiction|].
  f_equal. unfold mvec at 1.
  transitivity (sumn n (fun k => (mvec n s b i / cov n s b b) * (s j k * b k))).
  - apply sumn_ext; intros k Hk. rewrite (Hs k j) by auto.
    replace (sumn n (fun k0 => 1 / cov n s b b * s i k0 * b k0)) with (1 / cov n s b b * mvec n s b i).
    2:{ unfold mvec. rewrite <- sumn_mult. apply sumn_ext; intros; ring. }
    field. auto.
  - rewrite sumn_mult. fold (mvec n s b j). field. auto.
Qed.
Lemma constrain_same n s b : cov n s b b = 0 -> constrain n s b = s.
Proof. intros H. unfold constrain. rewrite den_cov. destruct (Req_EM_T _ _); [auto|contradiction]. Qed.
Lemma constrain_cov n s b u v : symmetric n s -> cov n s b b <> 0 ->
  cov n (constrain n s b) u v = cov n s u v - cov n s u b * cov n s v b / cov n s b b.
Proof.
  intros Hs Hd. rewrite (cov_mvec n s u b), (cov_mvec n s v b). unfold dot at 1. unfold dot at 1.
  unfold cov at 1. unfold cov at 1.
  replace (sumn n (fun k => u k * mvec n s b k) * sumn n (fun k => v k * mvec n s b k) / cov n s b b)
    with (sumn n (fun i => sumn n (fun j => (u i * mvec n s b i) * (v j * mvec n s b j) / cov n s b b))).
  2:{ unfold Rdiv. rewrite Rmult_assoc. rewrite <- sumn_multr. apply sumn_ext; intros i _.
      rewrite <- Rmult_assoc, <- sumn_mult, <- sumn_multr. apply sumn_ext; intros; ring. }
  rewrite <- sumn_minus. apply sumn_ext; intros i Hi. rewrite <- sumn_minus. apply sumn_ext; intros j Hj.
  rewrite constrain_entry by auto. field. auto.
Qed.
Lemma constrain_sym n s b : symmetric n s -> symmetric n (constrain n s b).
Proof.
  intros Hs i j Hi Hj. destruct (Req_dec (cov n s b b) 0) as [E|E].
  - rewrite constrain_same by auto. auto.
  - rewrite !constrain_entry by auto. rewrite (Hs i j) by auto. field. auto.
Qed.
Lemma div_pos_le a b c : 0 < c -> a <= b * c -> a / c <= b.
Proof.
  intros Hc H. apply Rmult_le_reg_r with c; auto. unfold Rdiv. rewrite Rmult_assoc, Rinv_l, Rmult_1_r by lra. auto.
Qed.
Lemma constrain_psd n s b : symmetric n s -> psd n s -> psd n (constrain n s b).
Proof.
  intros Hs Hp u. destruct (Req_dec (cov n s b b) 0) as [E|E].
  - rewrite constrain_same by auto. apply Hp.
  - unfold variance. rewrite constrain_cov by auto.
    assert (0 < cov n s b b) by (specialize (Hp b); unfold variance in Hp; lra).
    assert (cov n s u b * cov n s u b / cov n s b b <= cov n s u u); [|lra].
    apply div_pos_le; auto. apply cauchy; auto.
Qed.
Lemma constrain_le n s b u : symmetric n s -> psd n s -> variance n (constrain n s b) u <= variance n s u.
Proof.
  intros Hs Hp. unfold variance. destruct (Req_dec (cov n s b b) 0) as [E|E].
  - rewrite constrain_same by auto. lra.
  - rewrite constrain_cov by auto.
    assert (0 < cov n s b b) by (specialize (Hp b); unfold variance in Hp; lra).
    assert (0 <= cov n s u b * cov n s u b / cov n s b b); [|lra].
    apply Rmult_le_pos; [nra|]. apply Rlt_le, Rinv_0_lt_compat; auto.
Qed.
Lemma constrain_null n s b v : symmetric n s -> psd n s -> cov n (constrain n s b) b v = 0.
Proof.
  intros Hs Hp. destruct (Req_dec (cov n s b b) 0) as [E|E].
  - rewrite constrain_same by auto. pose proof (cauchy n s b v Hs Hp). rewrite E, Rmult_0_l in H. nra.
  - rewrite constrain_cov by auto. rewrite (cov_sym n s v b Hs). field. auto.
Qed.
Lemma constrain_keeps n s b w : symmetric n s -> (forall v, cov n s w v = 0) ->
  forall v, cov n (constrain n s b) w v = 0.
Proof.
  intros Hs H v. destruct (Req_dec (cov n s b b) 0) as [E|E].
  - rewrite constrain_same by auto. auto.
  - rewrite constrain_cov by auto. rewrite !H. field. auto.
Qed.

(** ** All of them *)
Lemma fold_constrain n bs : forall s, symmetric n s -> psd n s ->
  let s' := fold_left (constrain n) bs s in
  symmetric n s' /\ psd n s' /\ (forall u, variance n s' u <= variance n s u) /\
  (forall w, (forall v, cov n s w v = 0) -> forall v, cov n s' w v = 0) /\
  (forall b, In b bs -> forall v, cov n s' b v = 0).
Proof.
  induction bs as [|b bs IH]; simpl; intros s Hs Hp.
  - split; [auto|]. split; [auto|]. split; [intros; lra|]. split; [auto|]. intros b [].
  - destruct (IH (constrain n s b)) as (I1 & I2 & I3 & I4 & I5); [apply constrain_sym|apply constrain_psd|]; auto.
    split; [auto|]. split; [auto|]. split; [|split].
    + intros u. eapply Rle_trans; [apply I3|]. apply constrain_le; auto.
    + intros w Hw. apply I4. apply constrain_keeps; auto.
    + intros b' [ -> |Hb] v; [|auto]. apply I4. intros; apply constrain_null; auto.
Qed.
Lemma constrained_fold n cs x s :
  constrained_covariance n cs x s = fold_left (constrain n) (map (fun c => get (cjac c x)) (binding cs x)) s.
Proof.
  unfold constrained_covariance. generalize (binding cs x) as l. intros l. revert s.
  induction l; simpl; auto.
Qed.

(** ** Gather and scatter *)
Lemma nth_error_list_prod {A B} (l : list A) (m : list B) a b x y :
  nth_error l a = Some x -> nth_error m b = Some y ->
  nth_error (list_prod l m) (a * length m + b) = Some (x, y).
Proof.
  revert a; induction l as [|z l IH]; simpl; intros a Ha Hb; [destruct a; discriminate|].
  assert (b < length m)%nat by (apply nth_error_Some; congruence).
  destruct a as [|a]; simpl in *.
  - injection Ha as ->. rewrite nth_error_app1 by (rewrite map_length; auto). rewrite nth_error_map, Hb. auto.
  - rewrite nth_error_app2 by (rewrite map_length; lia). rewrite map_length.
    replace (length m + a * length m + b - length m)%nat with (a * length m + b)%nat by lia. auto.
Qed.
Lemma filter_list_prod {A B} (p : A -> bool) (q : B -> bool) l m :
  filter (fun c => p (fst c) && q (snd c)) (list_prod l m) = list_prod (filter p l) (filter q m).
Proof.
  induction l as [|x l IH]; simpl; auto. rewrite filter_app, IH. clear IH.
  assert (E : filter (fun c => p (fst c) && q (snd c)) (map (fun y => (x, y)) m) =
          if p x then map (fun y => (x, y)) (filter q m) else []).
  { destruct (p x) eqn:Ep; induction m as [|y m IHm]; simpl; auto; rewrite Ep; simpl; auto.
    destruct (q y); simpl; rewrite IHm; auto. }
  rewrite E. destruct (p x); auto.
Qed.
Lemma taken_prod hold n : taken hold n = list_prod (free_positions hold n) (free_positions hold n).
Proof. unfold taken, cells, free_positions. apply (filter_list_prod (fun i => negb (hold i)) (fun i => negb (hold i))). Qed.
Lemma dense_len hold n : dense_s hold n = length (free_positions hold n).
Proof. auto. Qed.
Lemma gather_entry hold n m a b i j :
  nth_error (free_positions hold n) a = Some i -> nth_error (free_positions hold n) b = Some j ->
  gather hold n m a b = m i j.
Proof.
  intros Ha Hb. unfold gather. rewrite dense_len, taken_prod.
  apply nth_error_nth. rewrite nth_error_map.
  rewrite (nth_error_list_prod _ _ _ _ _ _ Ha Hb). auto.
Qed.
Lemma fold_write_other l : forall m i j, (forall v, ~ In ((i, j), v) l) -> fold_left write l m i j = m i j.
Proof.
  induction l as [|[[x y] v] l IH]; simpl; intros m i j H; auto.
  rewrite IH by (intros w Hw; apply (H w); auto). unfold write; simpl.
  destruct (Nat.eqb_spec i x), (Nat.eqb_spec j y); simpl; auto. subst. exfalso. apply (H v); auto.
Qed.
Lemma fold_write_in l : forall m i j v, NoDup (map fst l) -> In ((i, j), v) l -> fold_left write l m i j = v.
Proof.
  induction l as [|[[x y] w] l IH]; simpl; intros m i j v Hn Hin; [contradiction|].
  inversion Hn; subst. destruct Hin as [E|Hin]; [|apply IH; auto]. injection E as -> -> ->.
  rewrite fold_write_other.
  - unfold write; simpl. rewrite !Nat.eqb_refl. auto.
  - intros u Hu. apply H1. apply in_map_iff. exists ((i, j), u); auto.
Qed.
Lemma NoDup_list_prod {A B} (l : list A) (m : list B) : NoDup l -> NoDup m -> NoDup (list_prod l m).
Proof.
  intros Hl Hm. induction Hl as [|x l Hx Hl IH]; simpl; [constructor|].
  assert (Hmap : NoDup (map (fun y => (x, y)) m)).
  { clear -Hm. induction Hm; simpl; constructor; auto. rewrite in_map_iff. intros (z & [= ->] & Hz). auto. }
  assert (Hd : forall p, In p (map (fun y => (x, y)) m) -> ~ In p (list_prod l m)).
  { intros p Hp Hq. apply in_map_iff in Hp. destruct Hp as (y & <- & _). apply in_prod_iff in Hq. tauto. }
  revert Hmap Hd. generalize (map (fun y => (x, y)) m) as k. induction k as [|p k IHk]; simpl; intros H1 H2; auto.
  inversion H1; subst. constructor.
  - rewrite in_app_iff. intros [?|?]; [auto|]. apply (H2 p); auto.
  - apply IHk; auto.
Qed.
Lemma combine_fst {A B} (l : list A) (m : list B) : length l = length m -> map fst (combine l m) = l.
Proof. revert m; induction l; destruct m; simpl; intros; auto; try discriminate. f_equal; auto. Qed.
Lemma nth_error_combine {A B} (l : list A) (m : list B) k x y :
  nth_error l k = Some x -> nth_error m k = Some y -> nth_error (combine l m) k = Some (x, y).
Proof. revert m k; induction l; destruct m, k; simpl; intros; try discriminate; auto; congruence. Qed.
Lemma cells_nth d a b : (a < d)%nat -> (b < d)%nat -> nth_error (cells d) (a * d + b) = Some (a, b).
Proof.
  intros Ha Hb. unfold cells. rewrite <- (seq_length d 0) at 3.
  apply nth_error_list_prod; rewrite nth_error_nth' with (d := 0%nat) by (rewrite seq_length; auto);
    rewrite seq_nth; auto.
Qed.
Lemma scatter_free hold n m a b i j :
  nth_error (free_positions hold n) a = Some i -> nth_error (free_positions hold n) b = Some j ->
  scatter hold n m i j = m a b.
Proof.
  intros Ha Hb. set (d := dense_s hold n).
  assert (La : (a < d)%nat) by (change (a < length (free_positions hold n))%nat; apply nth_error_Some; congruence).
  assert (Lb : (b < d)%nat) by (change (b < length (free_positions hold n))%nat; apply nth_error_Some; congruence).
  unfold scatter. apply fold_write_in.
  - rewrite combine_fst.
    + rewrite taken_prod. assert (NoDup (free_positions hold n)) by (apply NoDup_filter, seq_NoDup).
      apply NoDup_list_prod; auto.
    + unfold flatten, cells. rewrite taken_prod, map_length, !prod_length, !seq_length. auto.
  - apply nth_error_In with (n := (a * d + b)%nat). apply nth_error_combine.
    + rewrite taken_prod. apply nth_error_list_prod; auto.
    + unfold flatten. rewrite nth_error_map, cells_nth by auto. auto.
Qed.
Lemma scatter_held hold n m i j : hold i = true \/ hold j = true -> scatter hold n m i j = 0.
Proof.
  intros H. unfold scatter. apply (fold_write_other _ (fun _ _ => 0)). intros v Hv.
  apply in_combine_l in Hv. unfold taken in Hv. apply filter_In in Hv. destruct Hv as [_ Hv]. simpl in Hv.
  apply andb_true_iff in Hv. destruct Hv as [H1 H2]. destruct H as [H|H]; rewrite H in *; discriminate.
Qed.
Lemma free_positions_in hold n i : In i (free_positions hold n) <-> (i < n)%nat /\ hold i = false.
Proof.
  unfold free_positions. rewrite filter_In, in_seq, negb_true_iff. split; intros [? ?]; split; auto; lia.
Qed.

(** ** Sums over free positions *)
Lemma sumn_split n m g : sumn (n + m) g = sumn n g + sumn m (fun k => g (n + k)%nat).
Proof.
  induction m; simpl; [rewrite Nat.add_0_r; lra|]. rewrite Nat.add_succ_r. simpl. rewrite IHm. lra.
Qed.
Lemma sumn_positions hold g n : (forall k, (k < n)%nat -> hold k = true -> g k = 0) ->
  sumn n g = sumn (length (free_positions hold n)) (fun a => g (nth a (free_positions hold n) 0%nat)).
Proof.
  unfold free_positions. induction n; intros H; auto.
  rewrite seq_S, filter_app, app_length. simpl. destruct (hold n) eqn:E; simpl.
  - rewrite Nat.add_0_r, H, Rplus_0_r by auto. rewrite IHn by (intros; apply H; auto).
    apply sumn_ext. intros k Hk. rewrite app_nth1 by auto. auto.
  - rewrite sumn_split. simpl. rewrite IHn by (intros; apply H; auto). rewrite Rplus_0_l. f_equal.
    + apply sumn_ext. intros k Hk. rewrite app_nth1 by auto. auto.
    + rewrite app_nth2 by lia. rewrite Nat.add_0_r, Nat.sub_diag. auto.
Qed.
Lemma nth_error_pos hold n a : (a < length (free_positions hold n))%nat ->
  nth_error (free_positions hold n) a = Some (nth a (free_positions hold n) 0%nat).
Proof. intros H. apply nth_error_nth'; auto. Qed.
Lemma gather_block hold n m a b : (a < dense_s hold n)%nat -> (b < dense_s hold n)%nat ->
  gather hold n m a b = block hold n m a b.
Proof. intros Ha Hb. unfold block. apply gather_entry; apply nth_error_pos; auto. Qed.
Lemma scatter_block hold n m a b : (a < dense_s hold n)%nat -> (b < dense_s hold n)%nat ->
  block hold n (scatter hold n m) a b = m a b.
Proof. intros Ha Hb. unfold block. apply scatter_free; apply nth_error_pos; auto. Qed.
Definition at_free (hold : nat -> bool) (n : nat) (u : nat -> R) : nat -> R :=
  fun a => u (nth a (free_positions hold n) 0%nat).
Lemma scatter_cov hold n m u v :
  cov n (scatter hold n m) u v = cov (dense_s hold n) m (at_free hold n u) (at_free hold n v).
Proof.
  unfold cov. rewrite (sumn_positions hold).
  2:{ intros i _ Hi. rewrite <- (sumn_zero n). apply sumn_ext. intros. rewrite scatter_held by auto. ring. }
  apply sumn_ext. intros a Ha. rewrite (sumn_positions hold).
  2:{ intros j _ Hj. rewrite scatter_held by auto. ring. }
  apply sumn_ext. intros b Hb. pose proof (scatter_block hold n m a b Ha Hb) as E. unfold block in E.
  rewrite E. auto.
Qed.
Lemma sym_of_cov n s : (forall u v, cov n s u v = cov n s v u) -> symmetric n s.
Proof. intros H i j Hi Hj. rewrite <- (cov_one n s i j), <- (cov_one n s j i) by auto. auto. Qed.
Lemma block_sym hold n m : symmetric n m -> symmetric (dense_s hold n) (block hold n m).
Proof.
  intros H a b Ha Hb. apply H.
  - eapply proj1, free_positions_in. apply nth_In. auto.
  - eapply proj1, free_positions_in. apply nth_In. auto.
Qed.
(** A combination of free parameters as a combination of all parameters. *)
Fixpoint index_of (i : nat) (l : list nat) : nat :=
  match l with [] => O | x :: l => if Nat.eqb i x then O else S (index_of i l) end.
Lemma index_of_nth l : forall a, NoDup l -> (a < length l)%nat -> index_of (nth a l 0%nat) l = a.
Proof.
  induction l as [|x l IH]; simpl; intros a Hn Ha; [lia|]. inversion Hn; subst. destruct a.
  - rewrite Nat.eqb_refl. auto.
  - destruct (Nat.eqb_spec (nth a l 0%nat) x).
    + exfalso. apply H1. subst. apply nth_In. lia.
    + f_equal. apply IH; auto. lia.
Qed.
Definition extend (hold : nat -> bool) (n : nat) (u : nat -> R) : nat -> R :=
  fun i => if hold i then 0 else u (index_of i (free_positions hold n)).
Lemma block_cov hold n m u v :
  cov (dense_s hold n) (block hold n m) u v = cov n m (extend hold n u) (extend hold n v).
Proof.
  unfold cov. rewrite (sumn_positions hold (fun i => sumn n _)).
  2:{ intros i _ Hi. rewrite <- (sumn_zero n). apply sumn_ext. intros. unfold extend at 1. rewrite Hi. ring. }
  assert (Hx : forall a w, (a < dense_s hold n)%nat ->
           extend hold n w (nth a (free_positions hold n) 0%nat) = w a).
  { intros a w Ha. unfold extend. pose proof (nth_In _ 0%nat Ha) as Hin.
    apply free_positions_in in Hin. destruct Hin as [_ Hh]. unfold free_positions in *. rewrite Hh.
    rewrite index_of_nth; auto. apply NoDup_filter, seq_NoDup. }
  apply sumn_ext. intros a Ha. rewrite Hx by auto. rewrite (sumn_positions hold _ n).
  2:{ intros j _ Hj. unfold extend. rewrite Hj. ring. }
  apply sumn_ext. intros b Hb. rewrite Hx by auto. auto.
Qed.

(** ** The inverse *)
Lemma inv_apply d m m' v : is_inverse d m m' -> forall i, (i < d)%nat -> mvec d m (mvec d m' v) i = v i.
Proof.
  intros H i Hi. unfold mvec. rewrite (sumn_ext d _ (fun k => sumn d (fun j => m i k * m' k j * v j))).
  2:{ intros k Hk. rewrite <- sumn_mult. apply sumn_ext. intros; ring. }
  rewrite sumn_swap. rewrite (sumn_ext d _ (fun j => one i j * v j)).
  - apply sumn_one; auto.
  - intros j Hj. rewrite sumn_multr, H by auto. unfold one. rewrite (Nat.eqb_sym j i). auto.
Qed.
Lemma dot_ext n u u' v v' : (forall i, (i < n)%nat -> u i = u' i) -> (forall i, (i < n)%nat -> v i = v' i) ->
  dot n u v = dot n u' v'.
Proof. intros H H'. apply sumn_ext. intros i Hi. rewrite H, H'; auto. Qed.
Lemma dot_comm n u v : dot n u v = dot n v u.
Proof. apply sumn_ext. intros; ring. Qed.
Lemma inv_cov d m m' u v : is_inverse d m m' ->
  cov d m' u v = cov d m (mvec d m' v) (mvec d m' u).
Proof.
  intros H. rewrite !cov_mvec. rewrite (dot_comm d (mvec d m' v)). apply dot_ext; auto.
  intros i Hi. rewrite (inv_apply d m m'); auto.
Qed.
Lemma inv_sym d m m' : is_inverse d m m' -> symmetric d m -> symmetric d m'.
Proof.
  intros H Hs. apply sym_of_cov. intros u v. rewrite !(inv_cov d m m') by auto. apply cov_sym; auto.
Qed.
Lemma inv_psd d m m' : is_inverse d m m' -> psd d m -> psd d m'.
Proof. intros H Hp u. unfold variance. rewrite (inv_cov d m m') by auto. apply Hp. Qed.
Lemma mvec_mmul n a b v i : mvec n (mmul n a b) v i = mvec n a (mvec n b v) i.
Proof.
  unfold mvec, mmul. rewrite (sumn_ext n _ (fun k => sumn n (fun j => a i j * b j k * v k))).
  2:{ intros k Hk. rewrite <- sumn_multr. auto. }
  rewrite sumn_swap. apply sumn_ext. intros k Hk. rewrite <- sumn_mult. apply sumn_ext. intros; ring.
Qed.
Lemma sandwich_cov d a b u v : symmetric d a ->
  cov d (mmul d (mmul d a b) a) u v = cov d b (mvec d a u) (mvec d a v).
Proof.
  intros Hs. rewrite cov_mvec.
  rewrite (dot_ext d u u _ (mvec d a (mvec d b (mvec d a v)))); auto.
  2:{ intros i Hi. rewrite !mvec_mmul. auto. }
  rewrite <- cov_mvec, (cov_sym d a) by auto. rewrite cov_mvec, dot_comm. rewrite cov_mvec. auto.
Qed.
Lemma gather_inverse inverse hold n hess : inverts inverse -> invertible_block hold n hess ->
  let d := dense_s hold n in is_inverse d (block hold n hess) (inverse d (gather hold n hess)).
Proof.
  intros Hi [m' Hm] d. assert (Hx : is_inverse d (gather hold n hess) (inverse d (gather hold n hess))).
  { apply Hi. exists m'. intros a b Ha Hb. rewrite <- Hm by auto.
    apply sumn_ext. intros k Hk. rewrite gather_block; auto. }
  intros a b Ha Hb. rewrite <- Hx by auto. apply sumn_ext. intros k Hk. rewrite gather_block; auto.
Qed.
Lemma covariance_good inverse hold n hess : inverts inverse -> invertible_block hold n hess ->
  symmetric n hess -> psd n hess ->
  symmetric n (covariance inverse hold n hess) /\ psd n (covariance inverse hold n hess).
Proof.
  intros Hi Hb Hs Hp. pose proof (gather_inverse _ _ _ _ Hi Hb) as H. simpl in H.
  assert (Hbs : symmetric (dense_s hold n) (block hold n hess)) by (apply block_sym; auto).
  split.
  - apply sym_of_cov. intros u v. unfold covariance. rewrite !scatter_cov. apply cov_sym.
    eapply inv_sym; eauto.
  - intros u. unfold variance, covariance. rewrite scatter_cov. eapply inv_psd; eauto.
    intros w. unfold variance. rewrite block_cov. apply Hp.
Qed.
Lemma cov_ext n s s' u v : (forall i j, (i < n)%nat -> (j < n)%nat -> s i j = s' i j) -> cov n s u v = cov n s' u v.
Proof. intros H. apply sumn_ext; intros i Hi. apply sumn_ext; intros j Hj. rewrite H; auto. Qed.
Lemma robust_cov inverse hold n hess bhhh u v : inverts inverse -> invertible_block hold n hess ->
  symmetric n hess ->
  cov n (robust_covariance inverse hold n hess bhhh) u v =
  cov n bhhh (mvec n (covariance inverse hold n hess) u) (mvec n (covariance inverse hold n hess) v).
Proof.
  intros Hi Hb Hs. pose proof (gather_inverse _ _ _ _ Hi Hb) as H. simpl in H.
  assert (Hbs : symmetric (dense_s hold n) (block hold n hess)) by (apply block_sym; auto).
  unfold robust_covariance. rewrite scatter_cov. rewrite sandwich_cov by (eapply inv_sym; eauto).
  rewrite (cov_ext _ (gather hold n bhhh) (block hold n bhhh)) by (intros; apply gather_block; auto).
  rewrite block_cov.
  assert (E : forall w i, (i < n)%nat ->
    extend hold n (mvec (dense_s hold n) (inverse (dense_s hold n) (gather hold n hess)) (at_free hold n w)) i =
    mvec n (covariance inverse hold n hess) w i).
  { intros w i Hin. unfold extend. destruct (hold i) eqn:E.
    - unfold mvec. symmetry. rewrite <- (sumn_zero n). apply sumn_ext. intros j Hj.
      unfold covariance. rewrite scatter_held by auto. ring.
    - assert (Hfi : In i (free_positions hold n)) by (apply free_positions_in; auto).
      destruct (In_nth _ _ 0%nat Hfi) as (a & Ha & <-). rewrite index_of_nth by (auto; apply NoDup_filter, seq_NoDup).
      unfold mvec. rewrite (sumn_positions hold (fun k => covariance _ _ _ _ _ k * _)).
      2:{ intros j _ Hj. unfold covariance. rewrite scatter_held by auto. ring. }
      apply sumn_ext. intros b Hb'. unfold at_free. f_equal. symmetry.
      apply (scatter_block hold n (inverse (dense_s hold n) (gather hold n hess)) a b); auto. }
  unfold cov. apply sumn_ext; intros i Hin. apply sumn_ext; intros j Hjn. rewrite !E by auto. auto.
Qed.
Lemma covariance_inverse inverse hold n hess i j : inverts inverse -> invertible_block hold n hess ->
  (i < n)%nat -> (j < n)%nat -> hold i = false -> hold j = false ->
  sumn n (fun k => hess i k * covariance inverse hold n hess k j) = if Nat.eqb i j then 1 else 0.
Proof.
  intros Hi Hb Hin Hjn Hhi Hhj. pose proof (gather_inverse _ _ _ _ Hi Hb) as H. simpl in H.
  assert (Hfi : In i (free_positions hold n)) by (apply free_positions_in; auto).
  assert (Hfj : In j (free_positions hold n)) by (apply free_positions_in; auto).
  destruct (In_nth _ _ 0%nat Hfi) as (a & Ha & Ea). destruct (In_nth _ _ 0%nat Hfj) as (b & Hbb & Eb).
  rewrite (sumn_positions hold).
  2:{ intros k _ Hk. unfold covariance. rewrite scatter_held by auto. ring. }
  transitivity (if Nat.eqb a b then 1 else 0).
  - rewrite <- H by auto. apply sumn_ext. intros k Hk. unfold block at 1. rewrite Ea. f_equal.
    pose proof (scatter_block hold n (inverse (dense_s hold n) (gather hold n hess)) k b Hk Hbb) as E.
    unfold block in E. rewrite Eb in E. auto.
  - assert (Hnd : NoDup (free_positions hold n)) by (apply NoDup_filter, seq_NoDup).
    destruct (Nat.eqb_spec a b), (Nat.eqb_spec i j); auto.
    + exfalso; congruence.
    + exfalso. apply n0. rewrite <- (index_of_nth (free_positions hold n) a), <- (index_of_nth (free_positions hold n) b) by auto. congruence.
Qed.

(** ** Bounds as constraints *)
Lemma get_put z i v k : (i < length z)%nat -> get (put z i v) k = if Nat.eqb k i then v else get z k.
Proof.
  unfold get. revert i k; induction z as [|a z IH]; simpl; intros i k Hi; [lia|].
  destruct i, k; simpl; auto. rewrite IH by lia. auto.
Qed.
Lemma get_zeros n k : get (zeros n) k = 0.
Proof. unfold get, zeros. revert k; induction n; destruct k; simpl; auto. Qed.
Lemma zeros_length n : length (zeros n) = n.
Proof. apply repeat_length. Qed.
Lemma get_loc_nth ns : forall i n, NoDup ns -> nth_error ns i = Some n -> get_loc n ns = Some i.
Proof.
  induction ns as [|m ns IH]; simpl; intros i n Hn Hi; [destruct i; discriminate|].
  inversion Hn; subst. destruct i; simpl in *.
  - injection Hi as ->. rewrite String.eqb_refl. auto.
  - destruct (String.eqb_spec n m).
    + subst. exfalso. apply H1. eapply nth_error_In; eauto.
    + rewrite (IH i n) by auto. auto.
Qed.
Lemma link_each_in f sc l : forall l', link_each f sc l = Some l' ->
  forall c, In c l -> exists c', link_model f sc c = Some c' /\ In c' l'.
Proof.
  induction l as [|a l IH]; simpl; intros l' H c Hc; [contradiction|].
  destruct (link_model f sc a) eqn:E1; [|discriminate]. destruct (link_each f sc l) eqn:E2; [|discriminate].
  injection H as <-. destruct Hc as [ <- |Hc]; [exists c0; simpl; auto|].
  destruct (IH _ eq_refl _ Hc) as (c' & ? & ?). exists c'; simpl; auto.
Qed.
Lemma link_each_ok f sc l : (forall c, In c l -> link_model f sc c <> None) -> exists l', link_each f sc l = Some l'.
Proof.
  induction l as [|a l IH]; simpl; intros H; [eauto|].
  destruct (link_model f sc a) eqn:E; [|exfalso; apply (H a); auto].
  destruct IH as [l' ->]; [intros; apply H; auto|]. eauto.
Qed.
Lemma bounds_constraints_in f i r : NoDup (names (rows f)) -> nth_error (rows f) i = Some r ->
  is_free r = true -> (r_min r <> NInf \/ r_max r <> PInf) ->
  exists l, bounds_constraints f = Some l /\
   In (mkCons (Fixed (r_name r) (Some (r_min r)) (Some (r_max r))) (1/10000) 10 i 0 (length (rows f)) 0 0 0 0) l.
Proof.
  intros Hn Hi Hf Hb.
  assert (Hloc : forall k s, nth_error (rows f) k = Some s -> get_loc (r_name s) (names (rows f)) = Some k).
  { intros k s Hk. apply get_loc_nth; auto. unfold names. rewrite nth_error_map, Hk. auto. }
  destruct (link_each_ok f (Some 10) (flat_map (bound_cons (1/10000)) (rows f))) as [l Hl].
  { intros c Hc. apply in_flat_map in Hc. destruct Hc as (s & Hs & Hc). apply In_nth_error in Hs.
    destruct Hs as [k Hk]. unfold bound_cons in Hc. destruct (negb (is_free s)); [contradiction|].
    destruct (_ && _); [contradiction|]. destruct Hc as [ <- |[]]. unfold link_model; simpl.
    rewrite (Hloc k) by auto. discriminate. }
  exists l. split; auto.
  destruct (link_each_in _ _ _ _ Hl (new_cons (1/10000) (Fixed (r_name r) (Some (r_min r)) (Some (r_max r)))))
    as (c' & H1 & H2).
  - apply in_flat_map. exists r. split; [eapply nth_error_In; eauto|]. unfold bound_cons. rewrite Hf. simpl.
    destruct (neqb (r_min r) NInf && neqb (r_max r) PInf) eqn:E; [|simpl; auto].
    exfalso. apply andb_true_iff in E. destruct E as [E1 E2]. unfold neqb in *.
    destruct Hb as [Hb|Hb]; apply Hb; [destruct (r_min r)|destruct (r_max r)]; simpl in *; auto; discriminate.
  - unfold link_model in H1; simpl in H1. rewrite (Hloc i) in H1 by auto. injection H1 as <-. auto.
Qed.
Lemma cov_scaled_one n s i k v w : (forall j, (j < n)%nat -> w j = k * one i j) ->
  cov n s w v = k * cov n s (one i) v.
Proof.
  intros H. rewrite <- cov_mult_l. unfold cov. apply sumn_ext; intros a Ha. apply sumn_ext; intros b Hb.
  rewrite H; auto.
Qed.
Lemma nlt_fin a b : nlt (Fin a) (Fin b) = true <-> a < b.
Proof. unfold nlt, nle. destruct (Rle_dec b a); simpl; split; intros; auto; try lra; discriminate. Qed.
