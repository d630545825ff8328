(** Invariants of the parameter frame over histories of calls. *)
From Verif Require Export ParamProofs.

Lemma nodup_app_snoc (l : list string) n : NoDup l -> ~ In n l -> NoDup (l ++ [n]).
Proof.
  intros H Hn. apply (Permutation_NoDup (Permutation_cons_append l n)). constructor; auto.
Qed.
(** A row survives in another form. *)
Definition carries (R : row -> row -> Prop) (f f' : frame) : Prop :=
  forall r, In r (rows f) -> exists r', In r' (rows f') /\ R r r'.

Lemma assign_map_eq {A} (l : list A) (g : A -> row) (p : row -> bool) (h : A -> num) :
  assign (map g l) (map p (map g l)) (map h l) =
  map (fun a => if p (g a) then with_value (h a) (g a) else g a) l.
Proof. induction l as [|a l IH]; simpl; auto. rewrite IH. auto. Qed.
Lemma assign_in (p : row -> bool) l vs r' : In r' (assign l (map p l) vs) ->
  exists r, In r l /\ (r' = r \/ p r = true /\ exists v, r' = with_value v r).
Proof.
  revert vs. induction l as [|x l IH]; intros [|v vs]; simpl; try easy.
  - intros [ <-|H]; [exists x; auto|]. exists r'. auto.
  - intros [ <-|H].
    + exists x. split; auto. destruct (p x) eqn:E; auto. right. eauto.
    + destruct (IH vs H) as (r & Hr & Hc). exists r. auto.
Qed.
Lemma assign_carries (p : row -> bool) l vs r : In r l ->
  exists r', In r' (assign l (map p l) vs) /\ (r' = r \/ p r = true /\ exists v, r' = with_value v r).
Proof.
  revert vs. induction l as [|x l IH]; intros [|v vs]; simpl; try easy.
  - intros [ <-|H]; eauto.
  - intros [ <-|H].
    + eexists. split; [left; reflexivity|]. destruct (p x) eqn:E; auto. right. eauto.
    + destruct (IH vs H) as (r' & Hr & Hc). exists r'. auto.
Qed.
Lemma assign_names p l vs : map r_name (assign l (map p l) vs) = map r_name l.
Proof. revert vs. induction l as [|x l IH]; intros [|v vs]; simpl; auto. rewrite IH. destruct (p x); auto. Qed.

Lemma set_array_frame a respect f f' : set_array a respect f = Some f' ->
  has_best f' = has_best f /\ map r_name (rows f') = map r_name (rows f) /\
  (forall r, In r (rows f) -> exists r', In r' (rows f') /\
     (r' = r \/ (respect = true -> free r) /\ (a <> VNone) /\ exists v, r' = with_value v r)).
Proof.
  destruct (mask_map respect (rows f)) as (p & Ep & Hp).
  assert (K : forall vs f'', mkFrame (assign (rows f) (mask respect (rows f)) vs) (has_best f) = f'' -> a <> VNone ->
     has_best f'' = has_best f /\ map r_name (rows f'') = map r_name (rows f) /\
     (forall r, In r (rows f) -> exists r', In r' (rows f'') /\
        (r' = r \/ (respect = true -> free r) /\ (a <> VNone) /\ exists v, r' = with_value v r))).
  { intros vs f'' <- Ha. rewrite Ep. simpl. split; [auto|]. split; [apply assign_names|]. intros r Hr.
    destruct (assign_carries p (rows f) vs r Hr) as (r' & Hin & Hc). exists r'. split; auto.
    destruct Hc as [Hc|(Hc & Hv)]; auto. right. split; auto. apply Hp in Hc. intros ->. exact Hc. }
  assert (T : f = f' -> has_best f' = has_best f /\ map r_name (rows f') = map r_name (rows f) /\
     (forall r, In r (rows f) -> exists r', In r' (rows f') /\
        (r' = r \/ (respect = true -> free r) /\ (a <> VNone) /\ exists v, r' = with_value v r))).
  { intros <-. split; auto. split; auto. intros r Hr. exists r. auto. }
  destruct a as [| | | |v|vs]; simpl; intros E; try (injection E as E; apply T; assumption).
  - injection E as E. eapply K; [exact E|discriminate].
  - destruct (Nat.eqb _ _); [|discriminate]. destruct (any_nan _ _); [discriminate|]. injection E as E.
    eapply K; [exact E|discriminate].
Qed.

(** What every call keeps: the model's names, the record of the best unless it is an evaluation or
    a reset. *)
Definition keeps (R : row -> row -> Prop) (m m' : model) : Prop :=
  m_names m' = m_names m /\ m_best_ll m' = m_best_ll m /\ m_log m' = m_log m /\
  has_best (m_frame m') = has_best (m_frame m) /\ wf (m_frame m') /\ carries R (m_frame m) (m_frame m').
Lemma keeps_refl (R : row -> row -> Prop) m : (forall r, R r r) -> wf (m_frame m) -> keeps R m m.
Proof. intros HR Hw. do 5 (split; [auto|]). intros r Hr. eauto. Qed.
Lemma keeps_trans (R : row -> row -> Prop) m1 m2 m3 : (forall a b c, R a b -> R b c -> R a c) ->
  keeps R m1 m2 -> keeps R m2 m3 -> keeps R m1 m3.
Proof.
  intros HT (A1&A2&A3&A4&A5&A6) (B1&B2&B3&B4&B5&B6). do 4 (split; [congruence|]). split; auto.
  intros r Hr. destruct (A6 r Hr) as (r' & Hr' & H1). destruct (B6 r' Hr') as (r'' & Hr'' & H2). eauto.
Qed.
Lemma keeps_weaken (R R' : row -> row -> Prop) m m' : (forall a b, R a b -> R' a b) -> keeps R m m' -> keeps R' m m'.
Proof.
  intros HT (A1&A2&A3&A4&A5&A6). do 5 (split; [auto|]). intros r Hr. destruct (A6 r Hr) as (r' & ? & ?). eauto.
Qed.
(** The weakest relation used: name and best. *)
Definition nb (r r' : row) : Prop := r_name r' = r_name r /\ r_best r' = r_best r.
(** Value changes only if free. *)
Definition held_same (r r' : row) : Prop := nb r r' /\ (~ free r -> r' = r).

Lemma unmangle_keeps m : wf (m_frame m) -> names_ok (m_names m) ->
  exists m', unmangle false m = Ret tt m' /\ keeps eq m m' /\ m_mangled m' = false /\ m_null_ll m' = m_null_ll m /\
    (m_mangled m = false -> m' = m).
Proof.
  intros Hw Hn. destruct (unmangle_false_cases m Hw Hn) as (m' & E & A1 & A2 & A3 & A4 & A5 & A6 & A7 & A8).
  exists m'. split; auto. split.
  - do 5 (split; [auto|]). intros r Hr. exists r. split; auto. destruct A8 as [[_ ->]|[_ ->]]; auto. apply in_scanned; auto.
  - split; auto. split; auto. intros H. destruct A8 as [[_ ?]|[? _]]; congruence.
Qed.
Lemma set_values_keeps x respect kw m : wf (m_frame m) -> names_ok (m_names m) ->
  (respect = true \/ x = VNone) ->
  keeps held_same m (state_of (set_values x respect kw m)).
Proof.
  intros Hw Hn Hx. unfold set_values. destruct (resolve x (m_frame m)) as [a|] eqn:Er.
  2:{ simpl. apply keeps_refl; auto. intros r; split; [split; auto|auto]. }
  destruct (set_array a respect (m_frame m)) as [f|] eqn:Ea.
  2:{ simpl. apply keeps_refl; auto. intros r; split; [split; auto|auto]. }
  destruct (set_array_frame _ _ _ _ Ea) as (B1 & B2 & B3).
  assert (Hw1 : wf f) by (unfold wf; rewrite B2; exact Hw).
  assert (Hc : carries held_same (m_frame m) f).
  { intros r Hr. destruct (B3 r Hr) as (r' & Hr' & Hq). exists r'. split; auto.
    destruct Hq as [ ->|(Hq & Hq2 & v & ->)]; [split; [split; auto|auto]|]. split; [split; auto|].
    intros Hnf. exfalso. destruct Hx as [Hx|Hx]; [auto|]. subst x. simpl in Er. congruence. }
  destruct kw as [|kv kw].
  - simpl. split; [auto|]. split; [auto|]. split; [auto|]. split; [exact B1|]. split; auto.
  - set (kws := kv :: kw) in *.
    assert (K : forall f2, wf f2 -> carries held_same (m_frame m) f2 -> has_best f2 = has_best (m_frame m) ->
       keeps held_same m (state_of (Ret tt (with_frame (fold_left set_kw kws f2) (with_frame f m))))).
    { intros f2 Hw2 Hc2 Hb2. rewrite fold_set_kw. simpl. split; [auto|]. split; [auto|]. split; [auto|]. split; [exact Hb2|].
      assert (En : map r_name (map (kw_row kws) (rows f2)) = map r_name (rows f2)).
      { rewrite map_map. apply map_ext. intros r. apply (kw_row_same kws r). }
      split; [unfold wf; simpl; rewrite En; exact Hw2|].
      intros r Hr. destruct (Hc2 r Hr) as (r' & Hr' & (Hn1 & Hn2) & Hh). exists (kw_row kws r').
      split; [apply in_map; auto|]. destruct (kw_row_same kws r') as (Q1&_&_&_&_&_&Q7). split; [split; congruence|].
      intros Hnf. assert (E := Hh Hnf). subst r'. apply kw_row_held; auto. }
    cbn [m_mangled with_frame m_names m_frame]. destruct (m_mangled m).
    + destruct (scan_all_eq (m_names m) f Hw1 Hn) as [Es Hd]. rewrite Es. apply K.
      * unfold wf. simpl. eapply perm_nodup_names; [apply sort_perm|auto].
      * intros r Hr. destruct (Hc r Hr) as (r' & Hr' & H). exists r'. split; auto. apply in_scanned; auto.
      * simpl. auto.
    + apply K; auto.
Qed.
Lemma set_values_keeps_nb x respect kw m : wf (m_frame m) -> names_ok (m_names m) ->
  keeps nb m (state_of (set_values x respect kw m)).
Proof.
  intros Hw Hn. destruct respect; [|destruct x].
  1,2: eapply keeps_weaken; [|apply set_values_keeps; auto]; intros a b H; apply H.
  all: unfold set_values; destruct (resolve _ (m_frame m)) as [a|] eqn:Er; [|simpl; apply keeps_refl; auto; intros; split; auto].
  all: destruct (set_array a false (m_frame m)) as [f|] eqn:Ea; [|simpl; apply keeps_refl; auto; intros; split; auto].
  all: destruct (set_array_frame _ _ _ _ Ea) as (B1 & B2 & B3);
    assert (Hw1 : wf f) by (unfold wf; rewrite B2; exact Hw);
    assert (K1 : keeps nb m (with_frame f m)) by
     (do 4 (split; [auto|]); split; [auto|]; intros r Hr; destruct (B3 r Hr) as (r' & Hr' & Hq);
      exists r'; split; [exact Hr'|]; destruct Hq as [ ->|(_ & _ & v0 & ->)]; split; auto);
    destruct kw as [|kv kw]; [exact K1|];
    eapply keeps_trans with (m2 := with_frame f m);
      [intros ? ? ? [] []; split; congruence|exact K1|].
  all: pose proof (set_values_keeps VNone true (kv :: kw) (with_frame f m) Hw1 Hn (or_introl eq_refl)) as K2;
    apply (keeps_weaken held_same nb) in K2; [|intros ? ? H; apply H];
    unfold set_values in K2; simpl resolve in K2; cbn [set_array] in K2; exact K2.
Qed.

Lemma mem_names n (l : list row) : mem n (names l) = true <-> exists r, In r l /\ r_name r = n.
Proof. rewrite mem_In. unfold names. rewrite in_map_iff. split; intros (r & H1 & H2); eauto. Qed.
Definition setv_rel (n : string) (r r' : row) : Prop := nb r r' /\ (r_name r <> n -> r' = r).
Lemma set_value_keeps n x m : wf (m_frame m) -> names_ok (m_names m) ->
  keeps (setv_rel n) m (state_of (set_value n x m)).
Proof.
  intros Hw Hn. unfold set_value.
  assert (H0 : exists m1, (if mem n (names (rows (m_frame m))) then Ret tt m else unmangle false m) = Ret tt m1 /\ keeps eq m m1).
  { destruct (mem n (names (rows (m_frame m)))).
    - exists m. split; auto. apply keeps_refl; auto.
    - destruct (unmangle_keeps m Hw Hn) as (m1 & E & K & _). eauto. }
  destruct H0 as (m1 & -> & K). cbn [bind]. eapply keeps_trans with (m2 := m1).
  { intros a b c [Ha1 Ha2] [Hb1 Hb2]. split.
    - destruct Ha1, Hb1; split; congruence.
    - intros H. assert (E : b = a) by auto. subst b. auto. }
  { eapply keeps_weaken; [|exact K]. intros a b <-. split; [split|]; auto. }
  assert (Hw1 : wf (m_frame m1)) by apply K.
  destruct (mem n (names (rows (m_frame m1)))) eqn:Em.
  - simpl. split; [auto|]. split; [auto|]. split; [auto|]. split; [auto|]. split.
    + unfold wf. simpl. rewrite map_map. erewrite map_ext; [exact Hw1|]. intros r. destruct (String.eqb _ _); auto.
    + intros r Hr. simpl. eexists. split; [apply in_map; exact Hr|]. destruct (String.eqb_spec (r_name r) n) as [E|E].
      * split; [split; auto|]. congruence.
      * split; [split; auto|auto].
  - destruct (nothing_given x).
    + simpl. apply keeps_refl; auto. intros r. split; [split; auto|auto].
    + simpl. split; [auto|]. split; [auto|]. split; [auto|]. split; [auto|]. split.
      * unfold wf. simpl. rewrite map_app. simpl. apply nodup_app_snoc; auto. apply mem_false in Em. exact Em.
      * intros r Hr. exists r. simpl. rewrite in_app_iff. split; auto. split; [split; auto|auto].
Qed.
