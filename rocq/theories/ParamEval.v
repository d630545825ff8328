(** Evaluations: the record of the best, loglike_null, likelihood_ratio, locked parameters. *)
From Verif Require Export ParamHistory.

Lemma nle_refl a : a <> NaN -> nle a a = true.
Proof. destruct a; simpl; try congruence. intros _. destruct (Rle_dec x x); auto. exfalso; apply n; lra. Qed.
Lemma nle_trans a b c : nle a b = true -> nle b c = true -> nle a c = true.
Proof.
  destruct a, b, c; simpl; try congruence; auto.
  destruct (Rle_dec x x0), (Rle_dec x0 x1), (Rle_dec x x1); try congruence. exfalso. lra.
Qed.
Lemma nlt_true a b : nlt a b = true -> a <> NaN /\ b <> NaN /\ nle a b = true /\ b <> NInf.
Proof.
  destruct a, b; simpl; try congruence; repeat split; try congruence; auto.
  destruct (Rle_dec x0 x), (Rle_dec x x0); simpl in *; try congruence. exfalso. lra.
Qed.
Lemma nlt_false a b : nlt a b = false -> a <> NaN -> b = NaN \/ nle b a = true.
Proof.
  destruct a, b; simpl; try congruence; auto. intros H _. right.
  destruct (Rle_dec x0 x); auto.
Qed.

Section Eval.
Variable LL : sample -> list (string * num) -> num.
Variable cb : sample -> bool.
Variable full : sample.

Definition good (m : model) : Prop :=
  wf (m_frame m) /\ names_ok (m_names m) /\ m_best_ll m <> NaN /\ best_is_best (fun s => cb s = true) m.
Lemma good_keeps m m' : keeps nb m m' -> good m -> good m'.
Proof.
  intros (K1&K2&K3&K4&K5&K6) (G1&G2&G3&B1&B2&B3). split; [auto|]. split; [congruence|]. split; [congruence|].
  split; [|split].
  - rewrite K3, K2. auto.
  - rewrite K2, K4. auto.
  - rewrite K2, K3. intros H. destruct (B3 H) as (s & vals & Hi & Hc & Hb & Hv). exists s, vals.
    split; auto. split; auto. split; [congruence|]. intros n v Hn.
    destruct (Hv n v Hn) as (r & Hr & E1 & E2). destruct (K6 r Hr) as (r' & Hr' & E3 & E4).
    exists r'. split; auto. split; congruence.
Qed.
Lemma good_null m x : good m -> good (mkModel (m_frame m) (m_names m) (m_mangled m) x (m_best_ll m) (m_log m)).
Proof. intros H. exact H. Qed.
Lemma good_clear m : good m -> good (clear_best m).
Proof.
  intros (G1&G2&G3&B1&B2&B3). split; [auto|]. split; [auto|]. split; [simpl; congruence|].
  split; [|split]; simpl; try easy.
Qed.
Lemma good_mangle m : good m -> good (mangle m).
Proof. intros H. exact (good_clear m H). Qed.
Lemma wf_mangle m : wf (m_frame m) -> wf (m_frame (mangle m)).
Proof. auto. Qed.
Lemma good_unmangle b m : good m -> good (state_of (unmangle b m)).
Proof.
  intros H. assert (H' : good (if b then mangle m else m)) by (destruct b; [apply good_mangle|]; auto).
  change (unmangle b m) with (unmangle false (if b then mangle m else m)).
  destruct (unmangle_keeps _ (proj1 H') (proj1 (proj2 H'))) as (m' & -> & K & _). simpl.
  eapply good_keeps; [|exact H']. eapply keeps_weaken; [|exact K]. intros a c <-. split; auto.
Qed.
Lemma good_bind {A B} (x : outcome A) (f : A -> model -> outcome B) :
  good (state_of x) -> (forall a m, x = Ret a m -> good m -> good (state_of (f a m))) -> good (state_of (bind x f)).
Proof. destruct x; simpl; auto. Qed.
Lemma good_set_values x r kw m : good m -> good (state_of (set_values x r kw m)).
Proof. intros H. eapply good_keeps; [apply set_values_keeps_nb; apply H|auto]. Qed.
Lemma good_set_value n x m : good m -> good (state_of (set_value n x m)).
Proof.
  intros H. eapply good_keeps; [|exact H]. eapply keeps_weaken; [|apply set_value_keeps; apply H].
  intros a b Hab. apply Hab.
Qed.
Lemma cap_keeps c m : wf (m_frame m) -> keeps nb m (with_frame (mkFrame (map (cap_row c) (rows (m_frame m))) (has_best (m_frame m))) m).
Proof.
  intros Hw. do 4 (split; [auto|]). split.
  - unfold wf. simpl. rewrite map_map. exact Hw.
  - intros r Hr. exists (cap_row c r). split; [apply in_map; auto|]. split; auto.
Qed.
Lemma good_set_cap c m : good m -> good (state_of (set_cap c m)).
Proof.
  intros H. apply good_bind; [apply good_unmangle; auto|]. intros _ m1 _ H1. simpl.
  eapply good_keeps; [apply cap_keeps; apply H1|auto].
Qed.

Definition logged (s : sample) (ll : num) (m : model) : model :=
  mkModel (m_frame m) (m_names m) (m_mangled m) (m_null_ll m) (m_best_ll m)
          (Evaluated s (values_of (m_frame m)) ll :: m_log m).
Lemma good_record s ll m : good m ->
  good (if cb s then check_if_best ll (logged s ll m) else logged s ll m).
Proof.
  intros (G1&G2&G3&B1&B2&B3). destruct (cb s) eqn:Ec.
  - unfold check_if_best. destruct (nlt _ ll) eqn:En.
    + apply nlt_true in En. cbn [logged m_best_ll] in En. destruct En as (E1&E2&E3&E4).
      split; [|split; [auto|split; [auto|split; [|split]]]].
      * unfold wf. simpl. rewrite map_map. exact G1.
      * simpl. intros s' vals ll' [E|Hi] Hw.
        -- injection E as <- <- <-. right. apply nle_refl; auto.
        -- destruct (B1 _ _ _ Hi Hw) as [?|?]; auto. right. eapply nle_trans; eauto.
      * simpl. congruence.
      * simpl. intros _. exists s, (values_of (m_frame m)). split; auto. split; auto. split; auto.
        intros n v Hn. unfold values_of in Hn. apply in_map_iff in Hn. destruct Hn as (r & [= <- <-] & Hr).
        simpl. eexists. split; [apply in_map; exact Hr|]. auto.
    + apply nlt_false in En; [|auto]. cbn [logged m_best_ll] in En.
      split; [auto|split; [auto|split; [auto|split; [|split]]]].
      * simpl. intros s' vals ll' [E|Hi] Hw; [|eauto]. injection E as <- <- <-. auto.
      * auto.
      * simpl. intros H. destruct (B3 H) as (s' & vals & Hi & Hr). exists s', vals. auto.
  - split; [auto|split; [auto|split; [auto|split; [|split]]]].
    + simpl. intros s' vals ll' [E|Hi] Hw; [|eauto]. injection E as <- <- <-. congruence.
    + auto.
    + simpl. intros H. destruct (B3 H) as (s' & vals & Hi & Hr). exists s', vals. auto.
Qed.
Lemma good_loglike_at x kw s m : good m -> good (state_of (loglike_at LL cb x kw s m)).
Proof.
  intros H. apply good_bind; [apply good_unmangle; auto|]. intros _ m1 _ H1.
  apply good_bind; [apply good_set_values; auto|]. intros _ m2 _ H2. apply (good_record s _ m2 H2).
Qed.
Lemma good_loglike m : good m -> good (state_of (loglike LL cb full m)).
Proof. apply good_loglike_at. Qed.
Lemma good_loglike_null b m : good m -> good (state_of (loglike_null LL cb full b m)).
Proof.
  intros H. unfold loglike_null. destruct (_ && b); [exact H|].
  apply good_bind; [apply good_unmangle; auto|]. intros _ m1 _ H1.
  apply good_bind; [apply good_set_values; auto|]. intros _ m2 _ H2.
  apply good_bind; [apply good_loglike; auto|]. intros ll m3 _ H3.
  apply good_bind; [apply good_set_values, (good_null m3 ll H3)|]. intros _ m4 _ H4. exact H4.
Qed.
Lemma good_lr1 n ref c m : good m -> good (state_of (likelihood_ratio1 LL cb full n ref c m)).
Proof.
  intros H. apply good_bind; [apply good_unmangle; auto|]. intros _ m1 _ H1.
  destruct (find_row n _) as [r|]; [|exact H1]. cbv zeta; destruct (neqb _ _); [exact H1|].
  apply good_bind; [apply good_set_value; auto|]. intros _ m2 _ H2.
  apply good_bind; [apply good_loglike; auto|]. intros ll m3 _ H3.
  apply good_bind; [apply good_set_value; auto|]. intros _ m4 _ H4. exact H4.
Qed.
Lemma good_lrs ns ref i c m : good m -> good (state_of (likelihood_ratios_over LL cb full ns ref i c m)).
Proof.
  revert m. induction ns as [|n ns IH]; intros m H; [exact H|]. cbn [likelihood_ratios_over].
  destruct (find_row n _) as [r|]; [|exact H]. destruct (_ || i).
  - apply good_bind; [apply good_lr1; auto|]. intros v m1 _ H1. apply good_bind; [auto|]. intros ? ? _ Hx. exact Hx.
  - apply good_bind; [auto|]. intros ? ? _ Hx. exact Hx.
Qed.
Lemma good_step o m : good m -> good (step LL cb full o m).
Proof.
  intros H. destruct o; cbn [step].
  - apply good_set_values; auto.
  - apply good_set_value; auto.
  - apply good_set_value; auto.
  - apply good_set_cap; auto.
  - apply good_loglike_at; auto.
  - apply good_mangle; auto.
  - apply good_unmangle; auto.
  - apply good_loglike_null; auto.
  - apply good_bind; [apply good_loglike; auto|]. intros ll m1 _ H1.
    apply good_bind; [apply good_unmangle; auto|]. intros _ m2 _ H2. apply good_lrs; auto.
Qed.
Lemma good_run os m : good m -> good (run LL cb full os m).
Proof. revert m. induction os as [|o os IH]; intros m H; [exact H|]. apply IH, good_step; auto. Qed.
Lemma good_fresh m : fresh_model m -> names_ok (m_names m) -> good m.
Proof.
  intros (F1&F2&F3&F4&F5) Hn. split; [auto|]. split; [auto|]. split; [congruence|]. split; [|split].
  - rewrite F4. simpl. easy.
  - auto.
  - congruence.
Qed.

(** *** likelihood_ratio *)
(** Everything but the record of the best, up to the filling-in of missing initial and null
    values. *)
Definition weak_same (r r' : row) : Prop :=
  r_name r' = r_name r /\ r_value r' = r_value r /\ r_min r' = r_min r /\ r_max r' = r_max r /\
  r_hold r' = r_hold r /\ (r_init r <> NaN -> r_init r' = r_init r) /\ (r_null r <> NaN -> r_null r' = r_null r).
Lemma weak_refl r : weak_same r r.
Proof. repeat split; auto. Qed.
Lemma weak_trans a b c : weak_same a b -> weak_same b c -> weak_same a c.
Proof.
  intros (A1&A2&A3&A4&A5&A6&A7) (B1&B2&B3&B4&B5&B6&B7).
  do 5 (split; [congruence|]). split; intros H.
  - rewrite B6; [auto|]. rewrite A6; auto.
  - rewrite B7; [auto|]. rewrite A7; auto.
Qed.
Lemma weak_forall_trans l1 l2 l3 : Forall2 weak_same l1 l2 -> Forall2 weak_same l2 l3 -> Forall2 weak_same l1 l3.
Proof.
  intros H. revert l3. induction H as [|a b l1 l2 Hab H IH]; intros l3 H3; inversion H3; subst; constructor; auto.
  eapply weak_trans; eauto.
Qed.
Lemma weak_forall_refl l : Forall2 weak_same l l.
Proof. induction l; constructor; auto. apply weak_refl. Qed.
Lemma weak_names l l' : Forall2 weak_same l l' -> map r_name l' = map r_name l.
Proof. induction 1 as [|a b l l' H _ IH]; simpl; auto. destruct H as (-> & _). congruence. Qed.
Lemma weak_values l l' : Forall2 weak_same l l' ->
  map (fun r => (r_name r, r_value r)) l' = map (fun r => (r_name r, r_value r)) l.
Proof. induction 1 as [|a b l l' H _ IH]; simpl; auto. destruct H as (-> & -> & _). congruence. Qed.
Lemma weak_best l l' : (forall r, In r l -> r_init r <> NaN /\ r_null r <> NaN) ->
  Forall2 weak_same l l' -> Forall2 same_but_best l l'.
Proof.
  intros Hn H. induction H as [|a b l l' H _ IH]; constructor; auto.
  - destruct H as (H1&H2&H3&H4&H5&H6&H7). destruct (Hn a) as [N1 N2]; simpl; auto. repeat split; auto.
  - apply IH. intros r Hr. apply Hn. simpl; auto.
Qed.

Definition set_best (r : row) : row :=
  mkRow (r_name r) (r_value r) (r_init r) (r_null r) (r_min r) (r_max r) (r_hold r) (r_value r).
(** An evaluation of an unmangled model touches only the record of the best. *)
Lemma loglike_unmangled s m : m_mangled m = false ->
  exists m', loglike_at LL cb VNone [] s m = Ret (LL s (values_of (m_frame m))) m' /\
    m_mangled m' = false /\ m_names m' = m_names m /\ m_null_ll m' = m_null_ll m /\
    (rows (m_frame m') = rows (m_frame m) \/ rows (m_frame m') = map set_best (rows (m_frame m))).
Proof.
  intros Hm. unfold loglike_at, unmangle. rewrite Hm. cbn [bind].
  unfold set_values. cbn [resolve set_array bind]. destruct m as [f nn mg nl bl lg]. simpl in Hm. subst mg.
  cbn [with_frame m_frame m_names m_mangled m_null_ll m_best_ll m_log].
  eexists. split; [reflexivity|]. destruct (cb s); cbn [m_mangled m_names m_null_ll m_frame].
  - unfold check_if_best. cbn [m_best_ll]. destruct (nlt bl _); cbn; auto 10.
  - cbn; auto 10.
Qed.
Lemma set_best_weak l l' : l' = l \/ l' = map set_best l -> Forall2 weak_same l l'.
Proof.
  intros [ ->| ->]; [apply weak_forall_refl|]. induction l; simpl; constructor; auto. repeat split; auto.
Qed.
Lemma set_value_known n x m : In n (map r_name (rows (m_frame m))) ->
  set_value n x m = Ret tt (with_frame (mkFrame
      (map (fun r => if String.eqb (r_name r) n then apply_fields x r else r) (rows (m_frame m)))
      (has_best (m_frame m))) m).
Proof.
  intros H. apply mem_In in H. unfold set_value. fold (names (rows (m_frame m))) in H. rewrite H. cbn [bind].
  rewrite H. auto.
Qed.
Lemma find_row_spec n l r : find_row n l = Some r -> In r l /\ r_name r = n.
Proof. intros H. apply find_some in H. rewrite String.eqb_eq in H. auto. Qed.
Lemma find_row_complete n l : In n (map r_name l) -> exists r, find_row n l = Some r.
Proof.
  intros H. destruct (find_row n l) as [r|] eqn:E; eauto. apply in_map_iff in H. destruct H as (r & <- & Hr).
  pose proof (find_none _ _ E r Hr) as H. simpl in H. rewrite String.eqb_refl in H. discriminate.
Qed.
Lemma find_row_unique n l r r' : NoDup (map r_name l) -> find_row n l = Some r -> In r' l -> r_name r' = n -> r' = r.
Proof.
  induction l as [|x l IH]; simpl; intros Hn Hf Hi He; [easy|]. inversion Hn as [|? ? Hx Hn']; subst.
  destruct (String.eqb_spec (r_name x) (r_name r')) as [E|E].
  - injection Hf as <-. destruct Hi as [ <-|Hi]; auto. exfalso. apply Hx. rewrite E. apply in_map; auto.
  - destruct Hi as [ <-|Hi]; [congruence|]. apply IH; auto.
Qed.

Lemma values_after_set n v l :
  map (fun r => (r_name r, r_value r)) (map (fun r => if String.eqb (r_name r) n then apply_fields (only_value v) r else r) l)
  = value_set n v (map (fun r => (r_name r, r_value r)) l).
Proof.
  unfold value_set. rewrite !map_map. apply map_ext. intros r. simpl. destruct (String.eqb (r_name r) n); auto.
Qed.
Lemma set_back n r l l2 : NoDup (map r_name l) -> find_row n l = Some r ->
  Forall2 weak_same (map (fun x => if String.eqb (r_name x) n then apply_fields (only_value (r_value r)) x else x) l2)
          (map (fun x => if String.eqb (r_name x) n then apply_fields (only_value (r_value r)) x else x) l2).
Proof. intros. apply weak_forall_refl. Qed.

Lemma lr1_result n ref c m r : m_mangled m = false -> wf (m_frame m) -> find_row n (rows (m_frame m)) = Some r ->
  exists m', likelihood_ratio1 LL cb full n ref c m =
      Ret (if neqb (or_else ref (r_null r)) (r_value r) then Fin 0
           else nsub c (LL full (value_set n (or_else ref (r_null r)) (values_of (m_frame m))))) m' /\
    m_mangled m' = false /\ m_names m' = m_names m /\ m_null_ll m' = m_null_ll m /\
    Forall2 weak_same (rows (m_frame m)) (rows (m_frame m')).
Proof.
  intros Hm Hw Hf. destruct (find_row_spec _ _ _ Hf) as [Hr Hname].
  assert (Hin : In n (map r_name (rows (m_frame m)))) by (rewrite <- Hname; apply in_map; auto).
  unfold likelihood_ratio1. unfold unmangle at 1. rewrite Hm. cbn [bind]. rewrite Hf.
  set (refv := or_else ref (r_null r)). destruct (neqb refv (r_value r)).
  { exists m. split; [auto|]. split; [auto|]. split; [auto|]. split; [auto|]. apply weak_forall_refl. }
  rewrite set_value_known by auto. cbn [bind].
  set (m1 := with_frame _ m). assert (Hm1 : m_mangled m1 = false) by auto.
  destruct (loglike_unmangled full m1 Hm1) as (m2 & E2 & M2 & N2 & NL2 & R2). unfold loglike. rewrite E2. cbn [bind].
  assert (Hin2 : In n (map r_name (rows (m_frame m2)))).
  { assert (Q : map r_name (rows (m_frame m2)) = map r_name (rows (m_frame m))).
    { transitivity (map r_name (rows (m_frame m1))).
      - destruct R2 as [ ->| ->]; auto. rewrite map_map. auto.
      - simpl. rewrite map_map. apply map_ext. intros x. destruct (String.eqb _ _); auto. }
    rewrite Q. auto. }
  rewrite set_value_known by auto. cbn [bind]. eexists. split.
  { f_equal. f_equal. f_equal. unfold values_of. simpl. apply values_after_set. }
  cbn [m_mangled with_frame m_names m_null_ll m_frame rows]. split; [auto|]. split; [auto|]. split; [auto|].
  assert (G : forall l l2, (forall x, In x l -> r_name x = n -> x = r) ->
    (l2 = map (fun x => if String.eqb (r_name x) n then apply_fields (only_value refv) x else x) l \/
     l2 = map set_best (map (fun x => if String.eqb (r_name x) n then apply_fields (only_value refv) x else x) l)) ->
    Forall2 weak_same l (map (fun x => if String.eqb (r_name x) n then apply_fields (only_value (r_value r)) x else x) l2)).
  { induction l as [|x l IH]; intros l2 Hu Hl.
    - destruct Hl as [ ->| ->]; constructor.
    - assert (Hx : weak_same x (let y := if String.eqb (r_name x) n then apply_fields (only_value refv) x else x in
                       if String.eqb (r_name y) n then apply_fields (only_value (r_value r)) y else y) /\
                   weak_same x (let y := set_best (if String.eqb (r_name x) n then apply_fields (only_value refv) x else x) in
                       if String.eqb (r_name y) n then apply_fields (only_value (r_value r)) y else y)).
      { destruct (String.eqb_spec (r_name x) n) as [E|E].
        - assert (x = r) by (apply Hu; simpl; auto). subst x. cbn. rewrite E, String.eqb_refl.
          assert (K : forall a, a <> NaN -> is_nan a = false) by (intros []; simpl; congruence).
          split; unfold weak_same; cbn; (do 5 (split; [auto|])); split; intros Hn0; rewrite !(K _ Hn0); auto; rewrite !(K _ Hn0); auto.
        - cbn. rewrite (proj2 (String.eqb_neq _ _) E). split; [apply weak_refl|repeat split; auto]. }
      destruct Hl as [ ->| ->]; simpl; constructor; try apply Hx; apply IH; auto; intros y Hy; apply Hu; simpl; auto. }
  apply G; [|exact R2]. intros x Hx Ex. eapply find_row_unique; eauto.
Qed.

Definition lr_value (vals : list (string * num)) (c : num) (ref : option num) (r : row) : num :=
  if neqb (or_else ref (r_null r)) (r_value r) then Fin 0
  else nsub c (LL full (value_set (r_name r) (or_else ref (r_null r)) vals)).

Lemma weak_find n l l' r : Forall2 weak_same l l' -> find_row n l = Some r ->
  exists r', find_row n l' = Some r' /\ weak_same r r'.
Proof.
  unfold find_row. induction 1 as [|a b l l' H _ IH]; simpl; [discriminate|].
  destruct H as (E & H). rewrite E. destruct (String.eqb _ _); auto. intros [= <-]. exists b. split; auto. split; auto.
Qed.
Lemma weak_wf l l' : Forall2 weak_same l l' -> NoDup (map r_name l) -> NoDup (map r_name l').
Proof. intros H. rewrite (weak_names _ _ H). auto. Qed.
Lemma weak_free r r' : weak_same r r' -> is_free r' = is_free r.
Proof. intros (_&_&_&_&E&_). unfold is_free. rewrite E. auto. Qed.

Lemma lrs_result ns ref i c m : m_mangled m = false -> wf (m_frame m) ->
  (forall r, In r (rows (m_frame m)) -> r_null r <> NaN) ->
  (forall n, In n ns -> In n (map r_name (rows (m_frame m)))) ->
  exists m' out, likelihood_ratios_over LL cb full ns ref i c m = Ret out m' /\
    m_mangled m' = false /\ m_names m' = m_names m /\ m_null_ll m' = m_null_ll m /\
    Forall2 weak_same (rows (m_frame m)) (rows (m_frame m')) /\
    Forall2 (fun n p => exists r, find_row n (rows (m_frame m)) = Some r /\
       p = (n, if is_free r || i then lr_value (values_of (m_frame m)) c ref r else NaN)) ns out.
Proof.
  revert m. induction ns as [|n ns IH]; intros m Hm Hw Hnn Hin.
  { exists m, []. split; [auto|]. do 3 (split; [auto|]). split; [apply weak_forall_refl|constructor]. }
  cbn [likelihood_ratios_over]. destruct (find_row_complete n (rows (m_frame m))) as (r & Hf); [apply Hin; simpl; auto|].
  rewrite Hf. destruct (is_free r || i) eqn:Ei.
  - destruct (lr1_result n ref c m r Hm Hw Hf) as (m1 & E1 & M1 & N1 & NL1 & W1). rewrite E1. cbn [bind].
    destruct (IH m1) as (m2 & out & E2 & M2 & N2 & NL2 & W2 & O2).
    + auto.
    + eapply weak_wf; eauto.
    + intros r1 Hr1. assert (Q : exists r0, In r0 (rows (m_frame m)) /\ weak_same r0 r1).
      { clear -W1 Hr1. induction W1; simpl in *; [easy|]. destruct Hr1 as [ <-|Hr1]; [eauto|]. destruct (IHW1 Hr1) as (? & ? & ?); eauto. }
      destruct Q as (r0 & Hr0 & (_&_&_&_&_&_&Q7)). rewrite Q7; auto.
    + intros k Hk. rewrite (weak_names _ _ W1). apply Hin. simpl; auto.
    + rewrite E2. cbn [bind]. eexists _, _. split; [reflexivity|]. split; [auto|]. split; [congruence|]. split; [congruence|].
      split; [eapply weak_forall_trans; eauto|]. constructor.
      * exists r. split; auto. rewrite Ei. unfold lr_value. destruct (find_row_spec _ _ _ Hf) as [_ <-]. auto.
      * assert (V : values_of (m_frame m1) = values_of (m_frame m)) by (apply weak_values; auto).
        rewrite V in O2. assert (Hin' : forall k, In k ns -> In k (map r_name (rows (m_frame m)))) by (intros; apply Hin; simpl; auto).
        clear -O2 W1 Hnn Hin'. induction O2 as [|k p ns out Hp _ IH]; constructor.
        -- destruct Hp as (r1 & F1 & ->). destruct (find_row_complete k (rows (m_frame m))) as (r0 & F0); [apply Hin'; simpl; auto|].
           exists r0. split; auto. destruct (weak_find _ _ _ _ W1 F0) as (r1' & F1' & Wr). rewrite F1 in F1'. injection F1' as <-.
           rewrite (weak_free _ _ Wr). destruct Wr as (A1&A2&_&_&_&_&A7). unfold lr_value. rewrite A1, A2, A7; auto.
           apply Hnn. apply (find_row_spec _ _ _ F0).
        -- apply IH. intros; apply Hin'; simpl; auto.
  - destruct (IH m) as (m2 & out & E2 & M2 & N2 & NL2 & W2 & O2); auto.
    + intros k Hk. apply Hin; simpl; auto.
    + rewrite E2. cbn [bind]. eexists _, _. split; [reflexivity|]. do 3 (split; [auto|]). split; [auto|]. constructor; auto.
      exists r. split; auto. rewrite Ei. auto.
Qed.

(** *** loglike_null *)
Definition to_null (r : row) : row := if is_free r then with_value (r_null r) r else r.
Lemma to_null_free r : is_free (to_null r) = is_free r.
Proof. unfold to_null. destruct (is_free r) eqn:E; auto. Qed.
Lemma loglike_null_result b m m1 : unmangle false m = Ret tt m1 -> (b = false \/ m_null_ll m = Fin 0) ->
  (forall r, In r (rows (m_frame m1)) -> free r -> r_null r <> NaN /\ r_value r <> NaN) ->
  exists m', loglike_null LL cb full b m =
      Ret (LL full (map (fun r => (r_name r, r_value (to_null r))) (rows (m_frame m1)))) m' /\
    Forall2 same_but_best (rows (m_frame m1)) (rows (m_frame m')) /\
    m_mangled m' = false /\ m_names m' = m_names m1 /\
    m_null_ll m' = LL full (map (fun r => (r_name r, r_value (to_null r))) (rows (m_frame m1))).
Proof.
  intros Hu Hb Hn. unfold loglike_null.
  assert (Hc : negb (neqb (m_null_ll m) (Fin 0)) && b = false).
  { destruct Hb as [ ->| ->]; [apply andb_false_r|]. replace (neqb (Fin 0) (Fin 0)) with true; auto.
    unfold neqb. rewrite nle_refl; auto. discriminate. }
  rewrite Hc, Hu. cbn [bind].
  assert (Hm1 : m_mangled m1 = false).
  { unfold unmangle in Hu. destruct (m_mangled m) eqn:E; [|injection Hu as <-; auto].
    destruct (scan_all _ _); [injection Hu as <-; auto|discriminate]. }
  assert (Hany : forall (g : row -> row) (h : row -> num) l, (forall r, is_free (g r) = is_free r) ->
     (forall r, In r l -> free r -> h r <> NaN) -> any_nan (map is_free (map g l)) (map h l) = false).
  { intros g h l Hg. induction l as [|x l IH]; intros Hh; simpl; auto. rewrite IH by (intros; apply Hh; simpl; auto).
    rewrite orb_false_r, Hg. destruct (is_free x) eqn:E; auto. apply is_free_free in E.
    destruct (is_nan (h x)) eqn:En; auto. apply is_nan_true in En. exfalso. apply (Hh x); simpl; auto. }
  unfold set_values at 1. cbn [resolve set_array mask]. rewrite map_length, Nat.eqb_refl.
  set (l := rows (m_frame m1)) in *.
  assert (Q1 : any_nan (map is_free l) (map r_null l) = false).
  { rewrite <- (map_id l) at 1. apply Hany; auto. intros r Hr Hf. apply (Hn r Hr Hf). }
  rewrite Q1. cbn [bind].
  assert (Q2 : assign l (map is_free l) (map r_null l) = map to_null l).
  { rewrite <- (map_id l) at 1 2. rewrite assign_map_eq. reflexivity. }
  rewrite Q2. set (m2 := with_frame _ m1). assert (Hm2 : m_mangled m2 = false) by auto.
  destruct (loglike_unmangled full m2 Hm2) as (m3 & E3 & M3 & N3 & NL3 & R3). unfold loglike. rewrite E3. cbn [bind].
  unfold set_values. cbn [resolve set_array mask m_frame].
  assert (G : exists g, rows (m_frame m3) = map g l /\ (forall r, is_free (g r) = is_free r) /\
     forall r, same_but_best r (if is_free (g r) then with_value (r_value r) (g r) else g r)).
  { destruct R3 as [R3|R3]; simpl in R3.
    - exists to_null. split; auto. split; [apply to_null_free|]. intros r. rewrite to_null_free. unfold to_null.
      destruct (is_free r); repeat split; auto.
    - exists (fun r => set_best (to_null r)). rewrite map_map in R3. split; auto. split; [intros; apply to_null_free|].
      intros r. replace (is_free (set_best (to_null r))) with (is_free r) by (symmetry; apply to_null_free).
      unfold to_null. destruct (is_free r); repeat split; auto. }
  destruct G as (g & Rg & Hg & Hs). rewrite Rg, !map_length, Nat.eqb_refl.
  rewrite Hany; auto. 2:{ intros r Hr Hf. apply (Hn r Hr Hf). }
  cbn [bind]. rewrite assign_map_eq. eexists. split.
  { f_equal. f_equal. unfold values_of. simpl. rewrite map_map. apply map_ext. intros r. f_equal.
    unfold to_null. destruct (is_free r); auto. }
  split. { cbn. clear -Hs. induction l; simpl; constructor; auto. }
  cbn. split; [auto|]. split; [auto|]. f_equal. unfold values_of. simpl. rewrite map_map. apply map_ext. intros r. f_equal.
  unfold to_null. destruct (is_free r); auto.
Qed.

(** *** Locked parameters *)
Definition lockinv (n : string) (x : R) (m : model) : Prop :=
  wf (m_frame m) /\ names_ok (m_names m) /\ param_locked n (Fin x) (m_frame m).
Lemma locked_not_free v r : locked v r -> ~ free r.
Proof. intros (_&_&_&_&_&H) F. unfold free in F. congruence. Qed.
Lemma lock_carries (R : row -> row -> Prop) n x f f' :
  (forall r r', r_name r = n -> locked (Fin x) r -> R r r' -> r_name r' = n /\ locked (Fin x) r') ->
  carries R f f' -> param_locked n (Fin x) f -> param_locked n (Fin x) f'.
Proof.
  intros HR Hc (r & Hr & Hn & Hl). destruct (Hc r Hr) as (r' & Hr' & H). exists r'. split; [auto|]. eapply HR; eauto.
Qed.
Lemma lock_keeps (R : row -> row -> Prop) n x m m' :
  (forall r r', r_name r = n -> locked (Fin x) r -> R r r' -> r_name r' = n /\ locked (Fin x) r') ->
  keeps R m m' -> lockinv n x m -> lockinv n x m'.
Proof.
  intros HR (K1&K2&K3&K4&K5&K6) (L1&L2&L3). split; [auto|]. split; [congruence|]. eapply lock_carries; eauto.
Qed.
Lemma lock_bind {A B} n x (o : outcome A) (f : A -> model -> outcome B) :
  lockinv n x (state_of o) -> (forall a m, o = Ret a m -> lockinv n x m -> lockinv n x (state_of (f a m))) ->
  lockinv n x (state_of (bind o f)).
Proof. destruct o; simpl; auto. Qed.
Lemma lock_unmangle n x b m : lockinv n x m -> lockinv n x (state_of (unmangle b m)).
Proof.
  intros H. assert (H' : lockinv n x (if b then mangle m else m)) by (destruct b; [exact H|auto]).
  change (unmangle b m) with (unmangle false (if b then mangle m else m)).
  destruct (unmangle_keeps _ (proj1 H') (proj1 (proj2 H'))) as (m' & -> & K & _). simpl.
  eapply lock_keeps; [|exact K|exact H']. intros r r' ? ? <-. auto.
Qed.
Lemma lock_set_values n x a r kw m : (r = true \/ a = VNone) -> lockinv n x m -> lockinv n x (state_of (set_values a r kw m)).
Proof.
  intros Hr H. eapply lock_keeps; [|apply set_values_keeps; [apply H|apply H|exact Hr]|exact H].
  intros y y' Hy Hl [_ Hs]. rewrite Hs; auto. eapply locked_not_free; eauto.
Qed.
Lemma lock_set_value n x n' y m : n' <> n -> lockinv n x m -> lockinv n x (state_of (set_value n' y m)).
Proof.
  intros Hr H. eapply lock_keeps; [|apply set_value_keeps; apply H|exact H].
  intros z z' Hz Hl [_ Hs]. rewrite Hs; auto. congruence.
Qed.
Lemma lock_cap n x c m : lockinv n x m -> lockinv n x (state_of (set_cap c m)).
Proof.
  intros H. apply lock_bind; [apply lock_unmangle; auto|]. intros _ m1 _ (W & N & r & Hr & Hn & Hl). simpl.
  split; [unfold wf; simpl; rewrite map_map; exact W|]. split; [exact N|]. exists (cap_row c r).
  split; [apply in_map; auto|]. split; [exact Hn|]. destruct Hl as (L1&L2&L3&L4&L5&L6).
  assert (E : r_min (cap_row c r) = Fin x /\ r_max (cap_row c r) = Fin x).
  { unfold cap_row. cbn [r_min r_max]. rewrite L4, L5. unfold nmax, nmin. cbn [is_nan orb].
    cbn [nle]. destruct (Rle_dec x (- c)), (Rle_dec x c); cbn [nle];
      match goal with |- context [Rle_dec ?a ?b] => destruct (Rle_dec a b) end; cbn [is_nan]; auto;
      split; f_equal; lra. }
  destruct E as [E1 E2]. unfold locked. rewrite E1, E2. cbn. auto 10.
Qed.
Lemma lock_loglike_at n x a kw s m : lockinv n x m -> lockinv n x (state_of (loglike_at LL cb a kw s m)).
Proof.
  intros H. apply lock_bind; [apply lock_unmangle; auto|]. intros _ m1 _ H1.
  apply lock_bind; [apply lock_set_values; auto|]. intros _ m2 _ (W & N & P). simpl.
  assert (H3 : lockinv n x (logged s (LL s (values_of (m_frame m2))) m2)) by (split; [|split]; auto).
  destruct (cb s); [|exact H3]. unfold check_if_best. destruct (nlt _ _); [|exact H3].
  split; [unfold wf; simpl; rewrite map_map; exact W|]. split; [exact N|].
  destruct P as (r & Hr & Hn & Hl). simpl. eexists. split; [simpl; apply in_map; exact Hr|]. split; [exact Hn|exact Hl].
Qed.
Lemma lock_loglike_null n x b m : lockinv n x m -> lockinv n x (state_of (loglike_null LL cb full b m)).
Proof.
  intros H. unfold loglike_null. destruct (_ && b); [exact H|].
  apply lock_bind; [apply lock_unmangle; auto|]. intros _ m1 _ H1.
  apply lock_bind; [apply lock_set_values; auto|]. intros _ m2 _ H2.
  apply lock_bind; [apply lock_loglike_at; auto|]. intros ll m3 _ H3.
  apply lock_bind; [apply lock_set_values; auto|]. intros _ m4 _ H4. exact H4.
Qed.
Lemma lock_weak n x f f' : Forall2 weak_same (rows f) (rows f') -> param_locked n (Fin x) f -> param_locked n (Fin x) f'.
Proof.
  intros H. unfold param_locked. revert H. generalize (rows f) as l. generalize (rows f') as l'. intros l' l H.
  induction H as [|a b l l' Hab _ IH]; intros (r & Hr & Hn & Hl); [easy|].
  destruct Hr as [ <-|Hr].
  - exists b. simpl. split; auto. destruct Hab as (A1&A2&A3&A4&A5&A6&A7), Hl as (L1&L2&L3&L4&L5&L6).
    split; [congruence|]. unfold locked. rewrite A6, A7 by congruence. repeat split; congruence.
  - destruct IH as (r' & Hr' & H'); [eauto|]. exists r'. simpl. auto.
Qed.
Lemma lock_lr1 n x n' ref c m : lockinv n x m -> lockinv n x (state_of (likelihood_ratio1 LL cb full n' ref c m)).
Proof.
  intros H. unfold likelihood_ratio1. destruct (unmangle_keeps m) as (m1 & E & K & M & _); [apply H|apply H|].
  assert (H1 : lockinv n x m1) by (pose proof (lock_unmangle n x false m H) as Q; rewrite E in Q; exact Q).
  rewrite E. cbn [bind]. destruct (find_row n' (rows (m_frame m1))) as [r|] eqn:Ef; [|exact H1].
  destruct (lr1_result n' ref c m1 r M (proj1 H1) Ef) as (m2 & E2 & M2 & N2 & NL2 & W2).
  unfold likelihood_ratio1 in E2. unfold unmangle in E2. rewrite M in E2. cbn [bind] in E2. rewrite Ef in E2. rewrite E2.
  cbn [state_of]. destruct H1 as (A & B & C). split; [eapply weak_wf; eauto|]. split; [congruence|]. eapply lock_weak; eauto.
Qed.
Lemma lock_lrs n x ns ref i c m : lockinv n x m -> lockinv n x (state_of (likelihood_ratios_over LL cb full ns ref i c m)).
Proof.
  revert m. induction ns as [|k ns IH]; intros m H; [exact H|]. cbn [likelihood_ratios_over].
  destruct (find_row k _) as [r|]; [|exact H]. destruct (_ || i).
  - apply lock_bind; [apply lock_lr1; auto|]. intros v m1 _ H1. apply lock_bind; [auto|]. intros ? ? _ Hx. exact Hx.
  - apply lock_bind; [auto|]. intros ? ? _ Hx. exact Hx.
Qed.
(** The calls that do not explicitly set the parameter [n]. *)
Definition leaves_alone (n : string) (o : op) : Prop :=
  match o with
  | OpSetValues a respect _ => respect = true \/ a = VNone
  | OpSetValue n' _ | OpLockValue n' _ => n' <> n
  | _ => True
  end.
Lemma lock_step n x o m : leaves_alone n o -> lockinv n x m -> lockinv n x (step LL cb full o m).
Proof.
  intros Ha H. destruct o; cbn [step leaves_alone] in *.
  - apply lock_set_values; auto.
  - apply lock_set_value; auto.
  - apply lock_set_value; auto.
  - apply lock_cap; auto.
  - apply lock_loglike_at; auto.
  - exact H.
  - apply lock_unmangle; auto.
  - apply lock_loglike_null; auto.
  - apply lock_bind; [apply lock_loglike_at; auto|]. intros ll m1 _ H1.
    apply lock_bind; [apply lock_unmangle; auto|]. intros _ m2 _ H2. apply lock_lrs; auto.
Qed.
Lemma lock_run n x os m : Forall (leaves_alone n) os -> lockinv n x m -> lockinv n x (run LL cb full os m).
Proof. intros H. revert m. induction H; intros m Hm; [exact Hm|]. apply IHForall, lock_step; auto. Qed.
Lemma lock_value_locks n x m : wf (m_frame m) -> names_ok (m_names m) ->
  exists m', lock_value n (Fin x) m = Ret tt m' /\ lockinv n x m'.
Proof.
  intros Hw Hn. pose proof (set_value_keeps n (mkFields (Some (Fin x)) (Some (Fin x)) (Some (Fin x)) (Some (Fin x)) (Some (Fin x)) (Some 1%Z)) m Hw Hn) as K.
  fold (lock_value n (Fin x) m) in K. unfold lock_value in *.
  unfold set_value in *.
  assert (H0 : exists m1, (if mem n (names (rows (m_frame m))) then Ret tt m else unmangle false m) = Ret tt m1).
  { destruct (mem n (names (rows (m_frame m)))); eauto. destruct (unmangle_keeps m Hw Hn) as (m1 & E & _). eauto. }
  destruct H0 as (m1 & E). rewrite E in *. cbn [bind] in *. destruct (mem n (names (rows (m_frame m1)))) eqn:Em.
  - eexists. split; [reflexivity|]. cbn [state_of] in K. split; [apply K|]. split.
    + destruct K as (-> & _). auto.
    + apply mem_names in Em. destruct Em as (r & Hr & Hrn). eexists. split; [apply in_map; exact Hr|].
      rewrite Hrn, String.eqb_refl. split; [exact Hrn|]. repeat split.
  - cbn [nothing_given] in *. eexists. split; [reflexivity|]. cbn [state_of] in K. split; [apply K|]. split.
    + destruct K as (-> & _). auto.
    + eexists. split; [simpl; apply in_or_app; right; left; reflexivity|]. split; [reflexivity|]. repeat split.
Qed.
End Eval.
