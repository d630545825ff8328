(** Proofs about the reported statistics. *)
From Verif Require Import ParamModel ConsModel ConsSpec ConsProofs CovModel CovSpec CovProofs FeasModel FeasSpec FeasProofs StatModel StatSpec.
Open Scope R_scope.

Lemma by_row_nth f k t i : nth_error (by_row f k t) i = option_map (fun q => (fst q, f (k + i)%nat (fst q) (snd q))) (nth_error t i).
Proof.
  revert k i. induction t as [|[r o] t IH]; intros k [|i]; simpl; auto.
  - rewrite Nat.add_0_r. auto.
  - rewrite IH. replace (S k + i)%nat with (k + S i)%nat by lia. auto.
Qed.
Lemma by_row_fst f k t : map fst (by_row f k t) = map fst t.
Proof. revert k. induction t as [|[r o] t IH]; intros k; simpl; auto. rewrite IH. auto. Qed.

Lemma nsqrt_ok d : standard_error d (nsqrt d).
Proof. unfold standard_error, nsqrt. destruct (Rlt_dec d 0); split; intros; auto; lra. Qed.
Lemma t_of_ok r v z d : r_value r = Fin v -> r_null r = Fin z -> t_statistic v z (nsqrt d) (t_of r (nsqrt d)).
Proof.
  intros Hv Hz. unfold t_of, t_statistic. rewrite Hv, Hz. cbn [nsub]. unfold nsqrt. destruct (Rlt_dec d 0); [reflexivity|].
  unfold ndiv. destruct (Req_EM_T (sqrt d) 0) as [E|E].
  - split; [contradiction|]. repeat split; intros.
    + destruct (Rlt_dec 0 (v - z)); [auto|lra].
    + destruct (Rlt_dec 0 (v - z)); [lra|]. destruct (Rlt_dec (v - z) 0); [auto|lra].
    + destruct (Rlt_dec 0 (v - z)); [lra|]. destruct (Rlt_dec (v - z) 0); [lra|auto].
  - split; [auto|]. repeat split; intros; contradiction.
Qed.

Lemma huge_pos_iff t : nlt (Fin 100000) t = true <-> huge_pos t.
Proof.
  destruct t as [| |a|]; try apply nlt_fin; (split; [try discriminate; simpl; auto|simpl; try contradiction; auto]).
Qed.
Lemma huge_neg_iff t : nlt t (Fin (-100000)) = true <-> huge_neg t.
Proof.
  destruct t as [| |a|]; try apply nlt_fin; (split; [try discriminate; simpl; auto|simpl; try contradiction; auto]).
Qed.
Lemma clip_shown o : shown (s_se o) (s_t o) (s_se (clip o)) (s_t (clip o)) /\
  s_rse (clip o) = s_rse o /\ s_rt (clip o) = s_rt o /\ s_unc (clip o) = s_unc o /\ s_note (clip o) = s_note o.
Proof.
  unfold clip, shown. assert (P := huge_pos_iff (s_t o)). assert (N := huge_neg_iff (s_t o)).
  destruct (nlt (Fin 100000) (s_t o)) eqn:E1; cbn [s_t].
  - change (nlt PInf (Fin (-100000))) with false. cbn [s_se s_t s_rse s_rt s_unc s_note].
    assert (HP : huge_pos (s_t o)) by (apply P; auto).
    assert (HN : ~ huge_neg (s_t o)). { destruct (s_t o); simpl in *; try tauto. lra. }
    intuition.
  - assert (HP : ~ huge_pos (s_t o)) by (rewrite <- P; discriminate).
    destruct (nlt (s_t o) (Fin (-100000))) eqn:E2; cbn [s_se s_t s_rse s_rt s_unc s_note].
    + assert (HN : huge_neg (s_t o)) by (apply N; auto). intuition.
    + assert (HN : ~ huge_neg (s_t o)) by (rewrite <- N; discriminate). intuition.
Qed.
Lemma clip_clip o : clip (clip o) = clip o.
Proof.
  unfold clip at 2 3. destruct (nlt (Fin 100000) (s_t o)) eqn:E1; cbn [s_t].
  - change (nlt PInf (Fin (-100000))) with false. cbn iota. reflexivity.
  - destruct (nlt (s_t o) (Fin (-100000))) eqn:E2; [reflexivity|].
    unfold clip. rewrite E1, E2. reflexivity.
Qed.
Lemma clip_at_nth p t i : nth_error (clip_at p t) i =
  option_map (fun q => (fst q, if String.eqb (r_name (fst q)) p then clip (snd q) else snd q)) (nth_error t i).
Proof.
  unfold clip_at. rewrite nth_error_map. destruct (nth_error t i) as [[r o]|]; simpl; auto.
  destruct (String.eqb _ _); auto.
Qed.
Lemma clip_list_nth ps t i : nth_error (fold_left (fun t p => clip_at p t) ps t) i =
  option_map (fun q => (fst q, if existsb (String.eqb (r_name (fst q))) ps then clip (snd q) else snd q)) (nth_error t i).
Proof.
  revert t. induction ps as [|p ps IH]; intros t; simpl.
  - destruct (nth_error t i) as [[r o]|]; auto.
  - rewrite IH, clip_at_nth. destruct (nth_error t i) as [[r o]|]; simpl; auto.
    destruct (String.eqb (r_name r) p); simpl; [|auto]. destruct (existsb _ _); rewrite ?clip_clip; auto.
Qed.
Lemma clip_all_nth bs t i : nth_error (fold_left (fun t c => fold_left (fun t p => clip_at p t) (parameters_of c) t) bs t) i =
  option_map (fun q => (fst q, if existsb (String.eqb (r_name (fst q))) (flat_map parameters_of bs) then clip (snd q) else snd q)) (nth_error t i).
Proof.
  revert t. induction bs as [|b bs IH]; intros t; simpl.
  - destruct (nth_error t i) as [[r o]|]; auto.
  - rewrite IH, clip_list_nth. destruct (nth_error t i) as [[r o]|]; simpl; auto. rewrite existsb_app.
    destruct (existsb _ (parameters_of b)); simpl; [|auto]. destruct (existsb _ _); rewrite ?clip_clip; auto.
Qed.
Lemma clip_at_fst p t : map fst (clip_at p t) = map fst t.
Proof. unfold clip_at. rewrite map_map. apply map_ext. intros q. destruct (String.eqb _ _); auto. Qed.
Lemma clip_all_fst bs t : map fst (fold_left (fun t c => fold_left (fun t p => clip_at p t) (parameters_of c) t) bs t) = map fst t.
Proof.
  revert t. induction bs as [|b bs IH]; intros t; simpl; auto. rewrite IH. generalize (parameters_of b) as ps. intros ps.
  revert t. induction ps as [|p ps IH2]; intros t; simpl; auto. rewrite IH2. apply clip_at_fst.
Qed.
Lemma speaks_iff c p : In p (parameters_of c) <-> speaks_of (c_spec c) p.
Proof.
  unfold parameters_of. destruct (c_spec c); simpl; split; intros H; try (inversion H; subst; now auto).
  - destruct H as [ <-|[ <-|[]]]; constructor.
  - destruct H as [ <-|[ <-|[]]]; constructor.
  - destruct H as [ <-|[]]; constructor.
Qed.
Lemma mentioned_iff cs x p : existsb (String.eqb p) (flat_map parameters_of (binding cs x)) = true <-> mentioned cs x p.
Proof.
  rewrite existsb_exists. unfold mentioned, binding. split.
  - intros (q & Hq & E). apply String.eqb_eq in E. subst q. apply in_flat_map in Hq. destruct Hq as (c & Hc & Hp).
    apply filter_In in Hc. apply speaks_iff in Hp. exists c. tauto.
  - intros (c & Hc & Hb & Hp). exists p. split; [|apply String.eqb_refl]. apply in_flat_map. apply speaks_iff in Hp. exists c. split; auto.
    apply filter_In. auto.
Qed.
Lemma binding_nil_iff cs x : match binding cs x with [] => true | _ => false end = true <-> forall c, In c cs -> is_binding c x = false.
Proof.
  unfold binding. split.
  - intros H c Hc. destruct (is_binding c x) eqn:E; auto. assert (I : In c (filter (fun c => is_binding c x) cs)) by (apply filter_In; auto).
    destruct (filter _ cs); [contradiction|discriminate].
  - intros H. destruct (filter _ cs) as [|c l] eqn:E; auto. assert (I : In c (filter (fun c => is_binding c x) cs)) by (rewrite E; simpl; auto).
    apply filter_In in I. destruct I as [I1 I2]. rewrite H in I2 by auto. discriminate.
Qed.

(** One row of the report. *)
Section Row.
Variables (inverse : nat -> matrix -> matrix) (cl : list cons) (hess : matrix) (bhhh : option matrix) (t : table).
Let f := frame_of t.
Let n := length t.
Let x := pvals f.
Let cs := all_constraints cl f.
Let s := covariance inverse (held f) n hess.
Let s' := reported_covariance inverse f cl x hess.
Let rob := match bhhh with Some b => robust_covariance inverse (held f) n hess b | None => fun _ _ => 0 end.

Lemma rows_length : length (rows f) = n.
Proof. unfold f, frame_of, n. simpl. apply map_length. Qed.
Lemma reported_eq : s' = constrained_covariance n cs x s.
Proof. unfold s', reported_covariance. rewrite rows_length. reflexivity. Qed.

Lemma report_rows : map fst (report inverse cl hess bhhh t) = map fst t.
Proof.
  unfold report. fold f n x cs. destruct cs as [|c cs'].
  - apply by_row_fst.
  - destruct (_ || _)%bool; unfold with_notes; rewrite ?by_row_fst, ?clip_all_fst, ?by_row_fst; auto.
Qed.
Let annotated := (negb (match binding cs x with [] => true | _ => false end) || existsb (fun q => negb (is_free (fst q))) t)%bool.
Lemma report_row i r o : nth_error t i = Some (r, o) ->
  nth_error (report inverse cl hess bhhh t) i = Some (r,
    let o1 := plain s rob i r o in
    match cs with
    | [] => o1
    | _ =>
      let o2 := constrained s' i r o1 in
      if annotated then
        let o3 := if existsb (String.eqb (r_name r)) (flat_map parameters_of (binding cs x)) then clip o2 else o2 in
        if is_free r then mkStat (s_se o3) (s_t o3) (s_rse o3) (s_rt o3) (s_unc o3) (Notes (notes_of cs x (r_name r)))
        else mkStat NaN NaN (s_rse o3) (s_rt o3) (s_unc o3) FixedValue
      else o2
    end).
Proof.
  intros Hi. unfold report. fold f n x cs s. unfold annotated. rewrite reported_eq. destruct cs as [|c cs'] eqn:Ecs.
  - rewrite by_row_nth, Hi. reflexivity.
  - cbv zeta. destruct (_ || _)%bool.
    + unfold with_notes. rewrite by_row_nth, clip_all_nth, by_row_nth, by_row_nth, Hi. reflexivity.
    + rewrite by_row_nth, by_row_nth, Hi. reflexivity.
Qed.
End Row.

Lemma notes_in cs x p nt : In nt (notes_of cs x p) <->
  exists c, In c cs /\ is_binding c x = true /\ speaks_of (c_spec c) p /\ nt = binding_note c x.
Proof.
  unfold notes_of. rewrite in_flat_map. unfold binding. split.
  - intros (c & Hc & Hn). apply filter_In in Hc. apply in_map_iff in Hn. destruct Hn as (q & E & Hq).
    apply filter_In in Hq. destruct Hq as [Hq Eq]. apply String.eqb_eq in Eq. subst q. apply speaks_iff in Hq. exists c. intuition.
  - intros (c & Hc & Hb & Hp & E). apply speaks_iff in Hp. exists c. split; [apply filter_In; auto|]. apply in_map_iff. exists p. split; auto.
    apply filter_In. split; auto. apply String.eqb_refl.
Qed.

Lemma abs_lt_scale a k e : 0 < k -> Rabs (a * k) < e -> Rabs a < e / k.
Proof.
  intros Hk H. rewrite Rabs_mult, (Rabs_right k) in H by lra. apply (Rmult_lt_reg_r k); [auto|]. unfold Rdiv.
  rewrite Rmult_assoc, Rinv_l by lra. lra.
Qed.

(** A free parameter at one of its bounds is mentioned by a binding constraint. *)
Lemma at_bound_mentioned cl f x i r : NoDup (names (rows f)) -> nth_error (rows f) i = Some r -> is_free r = true ->
  nle (r_min r) (r_max r) = true -> r_min r = Fin (get x i) \/ r_max r = Fin (get x i) ->
  mentioned (all_constraints cl f) x (r_name r).
Proof.
  intros Hn Hr Ef Hle Hat.
  assert (Hfin : r_min r <> NInf \/ r_max r <> PInf).
  { destruct Hat as [E|E]; rewrite E; [left|right]; discriminate. }
  destruct (bounds_constraints_in f i r Hn Hr Ef Hfin) as (l & Hl & Hc).
  set (c := mkCons _ _ _ _ _ _ _ _ _ _) in Hc.
  exists c. split; [unfold all_constraints; rewrite Hl; apply in_or_app; auto|]. split; [|simpl; constructor].
  unfold is_binding, cfun, c; simpl. unfold min_fun, max_fun, pymin; simpl.
  destruct Hat as [E|E]; rewrite E in *; simpl.
  - replace ((get x i - get x i) * 10) with 0 by ring.
    assert (Hnl : nlt (nscale (nsub (r_max r) (Fin (get x i))) 10) (Fin 0) = false).
    { destruct (r_max r); simpl in *; try discriminate.
      - destruct (Rle_dec (get x i) x0); [|discriminate]. unfold nlt, nle.
        destruct (Rle_dec 0 ((x0 - get x i) * 10)); simpl; auto. lra.
      - destruct (Req_EM_T 10 0); [lra|]. destruct (Rlt_dec 0 10); [auto|lra]. }
    rewrite Hnl. unfold nabs. apply nlt_fin. rewrite Rabs_R0. lra.
  - replace ((get x i - get x i) * 10) with 0 by ring.
    match goal with |- context [if ?t then _ else _] => destruct t eqn:El end.
    + unfold nabs. rewrite Rabs_R0. apply (proj2 (nlt_fin 0 (1/10000))). lra.
    + destruct (r_min r) as [| |m|]; try (simpl in Hle; discriminate).
      * exfalso. revert El. simpl. destruct (Req_EM_T 10 0); [lra|].
        destruct (Rlt_dec 0 10); [simpl; discriminate|lra].
      * unfold nle in Hle. destruct (Rle_dec m (get x i)); [|discriminate]. simpl.
        destruct (Rlt_dec 0 ((get x i - m) * 10)) as [G|G].
        { exfalso. apply nlt_fin in G. simpl in El, G. congruence. }
        replace ((get x i - m) * 10) with 0 by nra. rewrite Rabs_R0.
        apply (proj2 (nlt_fin 0 (1/10000))). lra.
Qed.
