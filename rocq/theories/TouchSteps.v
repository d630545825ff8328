From Verif Require Import TouchModel TouchSpec TouchProofs.
Open Scope string_scope.
Open Scope list_scope.

Lemma terms_good : forall l, terms_only l <-> all_good l = true.
Proof.
  intro l. unfold terms_only, all_good. induction l as [|x l IH]; [cbn; tauto|]. cbn [In forallb].
  destruct x as [c|]; cbn [andb]; [rewrite <- IH; split; [tauto|intros H [Q|Q]; [discriminate|auto]]|split; [tauto|discriminate]].
Qed.
Lemma inv_fn : forall n i w w' r f, inv n w -> (i < n)%nat -> reach (w_m w i) r -> f_owner f = Some i ->
  w' = on_fn r f w -> idle (w_m w i) -> inv n w'.
Proof.
  intros n i w w' r f V I R O -> Id. destruct (v_own n w V i I) as [O1 O2].
  apply (inv_touch n i w _ V I); auto.
  - intros k K N. unfold on_fn. cbn [w_f]. apply put_other. intros ->. contradiction.
  - unfold on_fn. cbn [w_f w_m]. unfold put. destruct (_ =? r)%nat; auto.
  - unfold on_fn. cbn [w_f w_m]. unfold put. destruct (_ =? r)%nat; auto.
  - now apply (v_excl n w V).
  - now apply idle_built.
Qed.
(** New terms for a function of model [i], which is told. *)
Lemma inv_fn_mangle : forall n i w r f, inv n w -> (i < n)%nat -> reach (w_m w i) r -> f_owner f = Some i ->
  inv n (on i mangle (on_fn r f w)).
Proof.
  intros n i w r f V I R O. destruct (v_own n w V i I) as [O1 O2].
  apply (inv_touch n i w _ V I); auto.
  - intros j J. rewrite on_other by auto. reflexivity.
  - intros k K N. unfold on, on_fn. cbn [w_f]. apply put_other. intros ->. contradiction.
  - intros k. rewrite on_same. cbn [w_m on_fn]. auto.
  - rewrite on_same. unfold on, on_fn. cbn [w_f w_m mangle m_uca set_built]. unfold put. destruct (_ =? r)%nat; auto.
  - rewrite on_same. unfold on, on_fn. cbn [w_f w_m mangle m_qca set_built]. unfold put. destruct (_ =? r)%nat; auto.
  - rewrite on_same. apply excl_mangle. now apply (v_excl n w V).
  - rewrite on_same. apply idle_built, mangle_idle.
Qed.
Lemma in_put_fn : forall l k r x, In x (map snd (put_fn l k r)) -> x = r \/ In x (map snd l).
Proof.
  intros l k r x. induction l as [|kr l IH]; cbn [put_fn map In]; [intros [<-|[]]; auto|].
  destruct (fst kr =? k)%Z; cbn [map In snd]; intros [H|H]; auto. destruct (IH H); auto.
Qed.
Lemma find_fn_in : forall l k r, find_fn l k = Some r -> In r (map snd l).
Proof.
  intros l k r H. unfold find_fn in H. destruct (find _ l) as [kr|] eqn:F; [|discriminate]. injection H as <-.
  apply find_some in F as [F _]. now apply in_map.
Qed.
Lemma find_fn_none : forall l k, find_fn l k = None <-> ~ In k (map fst l).
Proof.
  intros l k. unfold find_fn. split.
  - intros H I. apply in_map_iff in I as [kr [E I]]. destruct (find _ l) eqn:F; [discriminate|].
    pose proof (find_none _ _ F _ I) as Q. cbn in Q. rewrite E, Z.eqb_refl in Q. discriminate.
  - intros N. destruct (find _ l) as [kr|] eqn:F; [|reflexivity]. apply find_some in F as [F E]. apply Z.eqb_eq in E.
    exfalso. apply N. rewrite <- E. now apply in_map.
Qed.
(** A new function stored in model [i], which is told or idle. *)
Lemma inv_new : forall n i w k f (b : bool), inv n w -> (i < n)%nat -> (b = true \/ idle (w_m w i)) ->
  inv n (on i (fun m => mangle_if b (set_uco (put_fn (m_uco m) k (w_next w)) m)) (fst (new_fn f w))).
Proof.
  intros n i w k f b V I H. destruct (v_own n w V i I) as [O1 O2].
  assert (L1 : (m_uca (w_m w i) < w_next w)%nat) by (apply (v_refs n w V i); unfold reach; auto).
  assert (L2 : (m_qca (w_m w i) < w_next w)%nat) by (apply (v_refs n w V i); unfold reach; auto).
  apply (inv_touch n i w _ V I).
  - intros j J. rewrite on_other by auto. reflexivity.
  - intros r R _. unfold on, new_fn. cbn [w_f fst]. apply put_other. lia.
  - reflexivity.
  - unfold on, new_fn. cbn [w_next fst]. lia.
  - intros r. rewrite on_same. unfold new_fn. cbn [fst w_m on w_next]. unfold reach.
    assert (E : forall m, m_uca (mangle_if b m) = m_uca m /\ m_qca (mangle_if b m) = m_qca m /\ m_uco (mangle_if b m) = m_uco m)
      by (intro m; unfold mangle_if; destruct b; auto).
    destruct (E (set_uco (put_fn (m_uco (w_m w i)) k (w_next w)) (w_m w i))) as [-> [-> ->]]. cbn [m_uca m_qca m_uco set_uco].
    intros [Q|[Q|Q]]; auto. destruct (in_put_fn _ _ _ _ Q) as [->|Q']; [right; lia|auto].
  - rewrite on_same. unfold new_fn. cbn [fst w_m w_f on]. destruct b; cbn [mangle_if mangle m_uca set_built set_uco]; rewrite put_other by lia; exact O1.
  - rewrite on_same. unfold new_fn. cbn [fst w_m w_f on]. destruct b; cbn [mangle_if mangle m_qca set_built set_uco]; rewrite put_other by lia; exact O2.
  - rewrite on_same. unfold new_fn. cbn [fst w_m]. pose proof (v_excl n w V i I) as X. destruct b; exact X.
  - rewrite on_same. unfold new_fn. cbn [fst w_m]. apply idle_built. destruct H as [->|H]; [apply mangle_idle|].
    destruct b; [apply mangle_idle|exact H].
Qed.
(** Whole-dict assignment: new functions for all keys. *)
Lemma make_fns_ok : forall l w, let '(w', d, ok) := make_fns l w in
  w_m w' = w_m w /\ w_t w' = w_t w /\ (w_next w <= w_next w')%nat /\ (forall r, (r < w_next w)%nat -> w_f w' r = w_f w r) /\
  (forall r, In r (map snd d) -> (w_next w <= r /\ r < w_next w')%nat) /\
  (ok = forallb (fun kx => all_good (snd kx)) l).
Proof.
  induction l as [|[k x] l IH]; intro w; cbn [make_fns].
  - repeat split; auto. all: intros; cbn in *; tauto.
  - cbn [forallb snd]. destruct (all_good x) eqn:G; cbn [andb].
    + cbn [new_fn]. set (w1 := mkWorld _ _ _ _). specialize (IH w1). destruct (make_fns l w1) as [[w' d] ok].
      destruct IH as [H1 [H2 [H3 [H4 [H5 H6]]]]]. cbn [w1 w_m w_t w_next w_f] in *.
      split; [exact H1|]. split; [exact H2|]. split; [lia|]. split; [|split; [|exact H6]].
      * intros r R. rewrite H4 by lia. apply put_other. lia.
      * intros r [R|R]; [cbn in R; lia|]. specialize (H5 r R). lia.
    + split; [reflexivity|]. split; [reflexivity|]. split; [lia|]. split; [auto|]. split; [intros r []|reflexivity].
Qed.
Lemma fold_put_in : forall d a x, In x (map snd (fold_left (fun a (kr : Z * nat) => put_fn a (fst kr) (snd kr)) d a)) ->
  In x (map snd d) \/ In x (map snd a).
Proof.
  induction d as [|kr d IH]; intros a x H; [auto|]. cbn [fold_left] in H. destruct (IH _ _ H) as [Q|Q]; [left; now right|].
  destruct (in_put_fn _ _ _ _ Q) as [->|Q']; [left; now left|auto].
Qed.
Lemma in_filter_snd : forall f l (x : nat), In x (map snd (filter f l : list (Z * nat))) -> In x (map snd l).
Proof. intros f l x H. apply in_map_iff in H as [kr [E H]]. apply filter_In in H as [H _]. apply in_map_iff. eauto. Qed.
Lemma forallb_terms : forall l, (forall k x, In (k, x) l -> terms_only x) -> forallb (fun kx : Z * list (option comp) => all_good (snd kx)) l = true.
Proof. intros l H. apply forallb_forall. intros [k x] I. apply terms_good. eapply H; eauto. Qed.
Lemma access_found : forall i p w w' r, access i p w = (w', r) -> (match p with PCo k => In k (map fst (m_uco (w_m w i))) | _ => True end) ->
  forall n, inv n w -> (i < n)%nat -> inv n w' /\ reach (w_m w' i) r /\ f_owner (w_f w' r) = Some i /\ w_m w' = w_m w.
Proof.
  intros i p w w' r E H n V I. destruct (v_own n w V i I) as [O1 O2]. destruct p as [| |k]; cbn [access] in E.
  - injection E as <- <-. split; [exact V|]. split; [left; reflexivity|]. auto.
  - injection E as <- <-. split; [exact V|]. split; [right; left; reflexivity|]. auto.
  - destruct (find_fn (m_uco (w_m w i)) k) as [r0|] eqn:F; [|apply find_fn_none in F; contradiction].
    injection E as <- <-. assert (R : reach (w_m w i) r0) by (right; right; now apply find_fn_in with k).
    split; [|split; [exact R|split; [unfold on_fn; cbn [w_f]; rewrite put_same; reflexivity|reflexivity]]].
    apply (inv_touch n i w _ V I); auto.
    + intros x X N. unfold on_fn. cbn [w_f]. apply put_other. intros ->. contradiction.
    + unfold on_fn. cbn [w_f w_m]. unfold put. destruct (_ =? r0)%nat; auto.
    + unfold on_fn. cbn [w_f w_m]. unfold put. destruct (_ =? r0)%nat; auto.
    + now apply (v_excl n w V).
    + apply (built_ext w); [|auto|now apply (v_built n w V)]. intros x _. unfold on_fn. cbn [w_f]. unfold put.
      destruct (Nat.eqb_spec x r0) as [->|]; reflexivity.
Qed.
(** Reading a missing entry of an idle model makes one; in any case nothing but model [i] is touched. *)
Lemma access_idle : forall i p w w' r, access i p w = (w', r) ->
  forall n, inv n w -> (i < n)%nat -> idle (w_m w i) -> inv n w' /\ reach (w_m w' i) r /\ f_owner (w_f w' r) = Some i /\ idle (w_m w' i).
Proof.
  intros i p w w' r E n V I Id.
  assert (Q : (match p with PCo k => In k (map fst (m_uco (w_m w i))) | _ => True end) \/
              exists k, p = PCo k /\ find_fn (m_uco (w_m w i)) k = None).
  { destruct p as [| |k]; auto. destruct (find_fn (m_uco (w_m w i)) k) eqn:F; [left|right; eauto].
    destruct (in_dec Z.eq_dec k (map fst (m_uco (w_m w i)))) as [|N]; [auto|]. apply find_fn_none in N. congruence. }
  destruct Q as [Q|[k [-> F]]].
  - destruct (access_found i p w w' r E Q n V I) as [A [B [C D]]]. rewrite D in *. auto.
  - cbn [access] in E. rewrite F in E. cbn [new_fn] in E. injection E as <- <-.
    split; [|split; [|split]].
    + pose proof (inv_new n i w k (mkFn [] (Some i)) false V I (or_intror Id)) as H. exact H.
    + rewrite on_same. cbn [w_m]. right; right. cbn [m_uco set_uco].
      generalize (m_uco (w_m w i)) as l. induction l as [|kr l IH]; [now left|]. cbn [put_fn].
      destruct (fst kr =? k)%Z; cbn [map]; [now left|now right].
    + cbn [on w_f]. rewrite put_same. reflexivity.
    + rewrite on_same. exact Id.
Qed.
(** The same when the model is told afterwards. *)
Lemma access_mangle : forall i p w w' r f, access i p w = (w', r) -> f_owner f = Some i ->
  forall n, inv n w -> (i < n)%nat -> inv n (on i mangle (on_fn r f w')).
Proof.
  intros i p w w' r f E O n V I.
  assert (Q : (match p with PCo k => In k (map fst (m_uco (w_m w i))) | _ => True end) \/
              exists k, p = PCo k /\ find_fn (m_uco (w_m w i)) k = None).
  { destruct p as [| |k]; auto. destruct (find_fn (m_uco (w_m w i)) k) eqn:F; [left|right; eauto].
    destruct (in_dec Z.eq_dec k (map fst (m_uco (w_m w i)))) as [|N]; [auto|]. apply find_fn_none in N. congruence. }
  destruct Q as [Q|[k [-> F]]].
  - destruct (access_found i p w w' r E Q n V I) as [A [B [C D]]]. now apply inv_fn_mangle.
  - cbn [access] in E. rewrite F in E. cbn [new_fn] in E. injection E as <- <-.
    destruct (v_own n w V i I) as [O1 O2].
    assert (L1 : (m_uca (w_m w i) < w_next w)%nat) by (apply (v_refs n w V i); unfold reach; auto).
    assert (L2 : (m_qca (w_m w i) < w_next w)%nat) by (apply (v_refs n w V i); unfold reach; auto).
    apply (inv_touch n i w _ V I).
    + intros j J. rewrite on_other by auto. unfold on_fn. cbn [w_m]. rewrite on_other by auto. reflexivity.
    + intros x X _. cbn [on on_fn w_f]. rewrite !put_other by lia. reflexivity.
    + reflexivity.
    + cbn [on on_fn w_next]. lia.
    + intros x. rewrite on_same. unfold on_fn. cbn [w_m w_next on]. rewrite put_same. unfold reach, mangle. cbn [m_uca m_qca m_uco set_built set_uco].
      intros [X|[X|X]]; auto. destruct (in_put_fn _ _ _ _ X) as [->|X']; [right; lia|auto].
    + rewrite on_same. cbn [on on_fn w_m w_f]. rewrite put_same. cbn [mangle m_uca set_built set_uco]. rewrite !put_other by lia. exact O1.
    + rewrite on_same. cbn [on on_fn w_m w_f]. rewrite put_same. cbn [mangle m_qca set_built set_uco]. rewrite !put_other by lia. exact O2.
    + rewrite on_same. cbn [on on_fn w_m]. rewrite put_same. exact (v_excl n w V i I).
    + rewrite on_same. apply idle_built, mangle_idle.
Qed.
Lemma inv_out : forall n j g w, inv n w -> (n <= j)%nat -> inv n (on j g w).
Proof.
  intros n j g w V J.
  assert (E : forall i, (i < n)%nat -> w_m (on j g w) i = w_m w i) by (intros i I; apply on_other; lia).
  split.
  - intros i I. rewrite E by auto. apply (built_ext w); auto. now apply (v_built n w V).
  - intros i I. rewrite E by auto. now apply (v_excl n w V).
  - intros i r I. rewrite E by auto. now apply (v_refs n w V).
  - intros i I. rewrite E by auto. now apply (v_own n w V).
  - intros i k r I K. rewrite !E by auto. now apply (v_apart n w V).
Qed.
Lemma inv_notify : forall n o w, inv n w -> inv n (notify o w).
Proof.
  intros n [j|] w V; [|exact V]. cbn [notify]. destruct (le_lt_dec n j) as [L|L]; [now apply inv_out|].
  apply inv_idle; auto; [|apply mangle_idle]. apply excl_mangle. now apply (v_excl n w V).
Qed.
Lemma edit_idle : forall n i w r e, inv n w -> (i < n)%nat -> reach (w_m w i) r -> idle (w_m w i) -> inv n (edit_fn r e w).
Proof.
  intros n i w r e V I R Id. unfold edit_fn. destruct (apply_edit e (f_terms (w_f w r))) as [l|]; [|exact V].
  destruct (v_own n w V i I) as [O1 O2].
  assert (V' : inv n (on_fn r (mkFn l (f_owner (w_f w r))) w)).
  { apply (inv_touch n i w _ V I); auto.
    - intros k K N. unfold on_fn. cbn [w_f]. apply put_other. intros ->. contradiction.
    - unfold on_fn. cbn [w_f w_m]. unfold put. destruct (Nat.eqb_spec (m_uca (w_m w i)) r) as [<-|]; auto.
    - unfold on_fn. cbn [w_f w_m]. unfold put. destruct (Nat.eqb_spec (m_qca (w_m w i)) r) as [<-|]; auto.
    - now apply (v_excl n w V).
    - now apply idle_built. }
  destruct (announces e); [|exact V']. now apply inv_notify.
Qed.
Lemma excl_ch : forall m a b c d, excl m ->
  (a <> None -> b = None /\ c = None /\ d = false) -> (b <> None -> a = None /\ c = None /\ d = false) -> (c <> None -> a = None /\ b = None /\ d = false) ->
  excl (set_choice a b c d m).
Proof. intros m a b c d [_ [_ [_ [X Y]]]] H1 H2 H3. unfold excl. cbn. auto. Qed.
Lemma excl_av : forall m a b c, excl m ->
  (a <> None -> b = None /\ c = false) -> (b <> None -> a = None /\ c = false) -> excl (set_avail a b c m).
Proof. intros m a b c [X [Y [Z' _]]] H1 H2. unfold excl. cbn. auto. Qed.
Lemma set_choice_same : forall m, set_choice (m_cca m) (m_cco m) (m_ccode m) (m_cany m) m = m.
Proof. destruct m; reflexivity. Qed.
Lemma set_avail_same : forall m, set_avail (m_av m) (m_avco m) (m_avany m) m = m.
Proof. destruct m; reflexivity. Qed.
Lemma set_place_same : forall m, set_place (m_graph m) (m_type m) (m_tree m) m = m.
Proof. destruct m; reflexivity. Qed.
Lemma set_pars_same : forall m, set_pars (m_frame m) (m_cons m) m = m.
Proof. destruct m; reflexivity. Qed.
(** A setter that compares first: idle if there was a difference, and otherwise nothing has changed. *)
Lemma inv_setter : forall n i w (b : mst -> bool) (g : mst -> mst), inv n w -> (i < n)%nat ->
  m_uca (g (w_m w i)) = m_uca (w_m w i) -> m_qca (g (w_m w i)) = m_qca (w_m w i) -> m_uco (g (w_m w i)) = m_uco (w_m w i) ->
  excl (g (w_m w i)) -> (b (w_m w i) = false -> g (w_m w i) = w_m w i) ->
  inv n (on i (fun m => mangle_if (b m) (g m)) w).
Proof.
  intros n i w b g V I U Q C X S'. destruct (b (w_m w i)) eqn:B.
  - apply inv_on; auto; rewrite B; cbn [mangle_if]; auto. apply idle_built, mangle_idle.
  - apply inv_on; auto; rewrite B; cbn [mangle_if]; auto. rewrite (S' eq_refl). now apply (v_built n w V).
Qed.
Lemma differ_false : forall {A} {a b : A} (d : {a = b} + {a <> b}), differ d = false -> a = b.
Proof. intros A a b [E|E] H; [exact E|discriminate]. Qed.
Lemma inv_force : forall n i w w0 w' ok, inv n w -> (i < n)%nat -> rest_same i w w0 -> kept (w_m w i) (w_m w0 i) -> clear_m w0 (w_m w0 i) ->
  unmangle i true w0 = (w', ok) -> inv n w' /\ clear_m w' (w_m w' i) /\ rest_same i w w' /\ kept (w_m w i) (w_m w' i).
Proof.
  intros n i w w0 w' ok V I R K C E. pose proof (unmangle_step i true w0) as U. rewrite E in U. destruct U as [R' U].
  pose proof (step_force_ok w0 (w_m w0 i) C) as Q. rewrite <- U in Q. destruct Q as [K' [M [Rw [B [C' _]]]]].
  assert (R2 : rest_same i w w') by (eapply rest_trans; eauto).
  assert (K2 : kept (w_m w i) (w_m w' i)) by (eapply kept_trans; eauto).
  split; [|split; [now apply (clear_m_rest i w0 w')|auto]].
  pose proof K2 as K3. destruct K3 as [K4 [K5 [K6 _]]].
  apply (inv_rest n i w w' V I R2); auto.
  - intro r. now rewrite K6.
  - exact (excl_kept _ _ K2 (v_excl n w V i I)).
  - assert (Rv : rest_same i w0 w).
    { destruct R as [A1 [A2 [A3 A4]]]. repeat split; try congruence. intros j J. now rewrite A4. }
    now apply (built_rest i w0 w).
Qed.
Lemma overlay_names : forall old new, map fst (overlay old new) = map fst new.
Proof.
  intros old new. unfold overlay. rewrite map_map. apply map_ext. intro r. destruct (find _ old); reflexivity.
Qed.
Lemma set_row_names : forall n v fr, map fst (set_row n v fr) = map fst fr.
Proof. intros n v fr. unfold set_row. rewrite map_map. apply map_ext. intro r. destruct (string_dec (fst r) n); cbn; auto. Qed.
Lemma set_pars_kept : forall f m, kept m (set_pars f (m_cons m) m).
Proof. intros. repeat split. Qed.
Theorem act_inv : forall n w o, inv n w -> (forall i, (i < n)%nat -> clear w i) -> heard n w o -> inv n (act o w).
Proof.
  intros n w o V C H. destruct o; cbn [heard] in H; cbn [act].
  - (* OSetFn *)
    destruct H as [I H]. set (r := if q then m_qca (w_m w i) else m_uca (w_m w i)).
    destruct (v_own n w V i I) as [O1 O2].
    assert (O : f_owner (w_f w r) = Some i) by (unfold r; destruct q; auto).
    assert (R : reach (w_m w i) r) by (unfold r, reach; destruct q; auto).
    rewrite O. destruct (all_good l) eqn:G.
    + cbn [notify]. now apply inv_fn_mangle.
    + destruct H as [H|H]; [apply terms_good in H; congruence|].
      now apply (inv_fn n i w _ r (mkFn (good l) (Some i))). 
  - (* OSetCo *)
    destruct H as [I H]. pose proof (make_fns_ok l w) as M. destruct (make_fns l w) as [[w1 d] ok].
    destruct M as [M1 [M2 [M3 [M4 [M5 M6]]]]]. destruct (v_own n w V i I) as [O1 O2].
    assert (L1 : (m_uca (w_m w i) < w_next w)%nat) by (apply (v_refs n w V i); unfold reach; auto).
    assert (L2 : (m_qca (w_m w i) < w_next w)%nat) by (apply (v_refs n w V i); unfold reach; auto).
    assert (H' : ok = true \/ idle (w_m w i)) by (destruct H as [H|H]; [left; rewrite M6; now apply forallb_terms|auto]).
    set (D := fold_left _ d []). 
    apply (inv_touch n i w _ V I).
    + intros j J. rewrite on_other by auto. now rewrite M1.
    + intros r R _. cbn [on w_f]. now apply M4.
    + exact M2.
    + exact M3.
    + intros r. rewrite on_same, M1. intro R.
      assert (E : reach (set_uco D (w_m w i)) r) by (unfold mangle_if in R; destruct ok; exact R).
      destruct E as [E|[E|E]]; [left; left; exact E|left; right; left; exact E|]. cbn [m_uco set_uco] in E.
      destruct (fold_put_in d [] r E) as [E'|[]]. right. cbn [on w_next]. auto.
    + rewrite on_same, M1. cbn [on w_f].
      replace (m_uca (mangle_if ok (set_uco D (w_m w i)))) with (m_uca (w_m w i)) by (destruct ok; reflexivity). now rewrite M4.
    + rewrite on_same, M1. cbn [on w_f].
      replace (m_qca (mangle_if ok (set_uco D (w_m w i)))) with (m_qca (w_m w i)) by (destruct ok; reflexivity). now rewrite M4.
    + rewrite on_same, M1. pose proof (v_excl n w V i I) as X. destruct ok; exact X.
    + rewrite on_same, M1. apply idle_built. destruct ok; [apply mangle_idle|]. destruct H' as [H'|H']; [discriminate|exact H'].
  - (* OSetItem *)
    destruct (all_good l); [|exact V]. cbn [new_fn].
    exact (inv_new n i w k (mkFn (good l) (Some i)) true V H (or_introl eq_refl)).
  - (* ODelItem *)
    destruct (find_fn (m_uco (w_m w i)) k); [|exact V].
    apply (inv_rest n i w _ V H (rest_on i _ w)); rewrite on_same; auto.
    + intros r. cbn [mangle m_uco set_built set_uco]. apply in_filter_snd.
    + exact (v_excl n w V i H).
    + apply idle_built, mangle_idle.
  - (* OStore *)
    destruct H as [I ->]. destruct (access i p w) as [w1 r] eqn:E.
    (* telling the model twice is telling it once *)
    assert (V1 : inv n (on i mangle (on_fn r (mkFn (f_terms (w_f w1 r)) (Some i)) w1))) by (now apply (access_mangle i p w w1 r _ E)).
    set (w2 := on_fn r (mkFn (f_terms (w_f w1 r)) (Some i)) w1) in *.
    assert (R : reach (w_m (on i mangle w2) i) r).
    { rewrite on_same. unfold w2. cbn [on_fn w_m]. destruct p as [| |k']; cbn [access] in E.
      - injection E as <- <-. left. reflexivity.
      - injection E as <- <-. right; left. reflexivity.
      - destruct (find_fn (m_uco (w_m w i)) k') as [r0|] eqn:F.
        + injection E as <- <-. right; right. now apply find_fn_in with k'.
        + cbn [new_fn] in E. injection E as <- <-. rewrite on_same. right; right. cbn [mangle m_uco set_built set_uco w_m].
          generalize (m_uco (w_m w i)) as l. induction l as [|kr l IH]; [now left|]. cbn [put_fn].
          destruct (fst kr =? k')%Z; cbn [map]; [now left|now right]. }
    destruct (v_own n _ V1 i I) as [O1 O2].
    apply (inv_touch n i (on i mangle w2) _ V1 I).
    + intros j J. rewrite !on_other by auto. reflexivity.
    + reflexivity.
    + reflexivity.
    + apply le_n.
    + intros x. rewrite !on_same. unfold reach. cbn [mangle m_uca m_qca m_uco set_built set_uco].
      intros [X|[X|X]]; auto. destruct (in_put_fn _ _ _ _ X) as [->|X']; [|auto].
      left. rewrite on_same in R. exact R.
    + rewrite on_same in *. exact O1.
    + rewrite on_same in *. exact O2.
    + pose proof (v_excl n _ V1 i I) as X. rewrite on_same in *. exact X.
    + rewrite on_same. apply idle_built, mangle_idle.
  - (* OEdit *)
    destruct H as [I H]. destruct (access i p w) as [w1 r] eqn:E.
    destruct H as [Id|H].
    + destruct (access_idle i p w w1 r E n V I Id) as [V1 [R [O Id1]]]. now apply (edit_idle n i).
    + assert (A : announces e = true) by (destruct e; cbn in *; auto; contradiction).
      unfold edit_fn. rewrite A.
      destruct (apply_edit e (f_terms (w_f w1 r))) as [l|] eqn:AE.
      * assert (O : f_owner (w_f w1 r) = Some i).
        { destruct p as [| |k]; cbn [access] in E.
          - injection E as <- <-. now apply (v_own n w V).
          - injection E as <- <-. now apply (v_own n w V).
          - destruct (find_fn (m_uco (w_m w i)) k); [injection E as <- <-; cbn [on_fn w_f]; now rewrite put_same|].
            cbn [new_fn] in E. injection E as <- <-. cbn [on w_f]. now rewrite put_same. }
        rewrite O. cbn [notify]. now apply (access_mangle i p w w1 r _ E).
      * assert (Q : match p with PCo k => In k (map fst (m_uco (w_m w i))) | _ => True end).
        { destruct p as [| |k]; auto. destruct e; cbn in AE; try discriminate; exact H. }
        now destruct (access_found i p w w1 r E Q n V I).
  - (* OEditHeld *)
    destruct H as [I Id]. destruct (find_fn (m_uco (w_m w i)) k) as [r|] eqn:F; [|exact V].
    apply (edit_idle n i); auto. right; right. now apply find_fn_in with k.
  - (* OQscale *) apply inv_idle; auto; [exact (v_excl n w V i H)|apply mangle_idle].
  - (* OLogsum *) apply inv_idle; auto; [exact (v_excl n w V i H)|apply mangle_idle].
  - (* OChCa *)
    pose proof (v_excl n w V i H) as X.
    apply (inv_setter n i w (fun m => differ (str_eq (m_cca m) s)) _ V H); [destruct s; reflexivity..| |].
    + destruct X as [X1 [X2 [X3 [X4 X5]]]]. destruct s; unfold excl; cbn; intuition congruence.
    + intro D. apply differ_false in D. destruct X as [X1 _]. destruct s as [s|].
      * rewrite <- (set_choice_same (w_m w i)) at 2. destruct X1 as [-> [-> ->]]; [congruence|]. now rewrite D.
      * rewrite <- D. apply set_choice_same.
  - (* OChCo *)
    pose proof (v_excl n w V i H) as X.
    apply (inv_setter n i w (fun m => differ (map_eq (m_cco m) l)) _ V H); [destruct l; reflexivity..| |].
    + destruct X as [X1 [X2 [X3 [X4 X5]]]]. destruct l; unfold excl; cbn; intuition congruence.
    + intro D. apply differ_false in D. destruct X as [_ [X2 _]]. destruct l as [l|].
      * rewrite <- (set_choice_same (w_m w i)) at 2. destruct X2 as [-> [-> ->]]; [congruence|]. now rewrite D.
      * rewrite <- D. apply set_choice_same.
  - (* OChCoDel *)
    destruct H as [I Id]. pose proof (v_excl n w V i I) as X. apply inv_idle; auto.
    destruct X as [X1 [X2 [X3 [X4 X5]]]]. unfold excl; cbn; intuition congruence.
  - (* OChCode *)
    pose proof (v_excl n w V i H) as X.
    apply (inv_setter n i w (fun m => differ (str_eq (m_ccode m) s)) _ V H); [destruct s; reflexivity..| |].
    + destruct X as [X1 [X2 [X3 [X4 X5]]]]. destruct s; unfold excl; cbn; intuition congruence.
    + intro D. apply differ_false in D. destruct X as [_ [_ [X3 _]]]. destruct s as [s|].
      * rewrite <- (set_choice_same (w_m w i)) at 2. destruct X3 as [-> [-> ->]]; [congruence|]. now rewrite D.
      * rewrite <- D. apply set_choice_same.
  - (* OChCodeDel *)
    pose proof (v_excl n w V i H) as X.
    apply (inv_setter n i w (fun m => differ (str_eq (m_ccode m) None)) (fun m => set_choice (m_cca m) (m_cco m) None (m_cany m) m) V H);
      [reflexivity..| |].
    + destruct X as [X1 [X2 [X3 [X4 X5]]]]. unfold excl; cbn; intuition congruence.
    + intro D. apply differ_false in D. rewrite <- D. apply set_choice_same.
  - (* OChAny *)
    destruct H as [I Id]. pose proof (v_excl n w V i I) as X. apply inv_idle; auto; [destruct b; reflexivity..| |destruct b; exact Id].
    destruct X as [X1 [X2 [X3 [X4 X5]]]]. destruct b; unfold excl; cbn; intuition congruence.
  - (* OWeight *) destruct H as [I Id]. apply inv_idle; auto. exact (v_excl n w V i I).
  - (* OAvCa *)
    destruct s as [s|].
    + pose proof (v_excl n w V i H) as X.
      apply (inv_setter n i w (fun m => differ (str_eq (m_av m) (Some s))) (set_avail (Some s) None false) V H); [reflexivity..| |].
      * apply excl_av; try congruence; auto.
      * intro D. apply differ_false in D. destruct X as [_ [_ [_ [X4 _]]]].
        rewrite <- (set_avail_same (w_m w i)) at 2. destruct X4 as [-> ->]; [congruence|]. now rewrite D.
    + destruct H as [I Id]. pose proof (v_excl n w V i I) as X. apply inv_on; auto.
      * destruct (differ _); reflexivity.
      * destruct (differ _); reflexivity.
      * destruct (differ _); reflexivity.
      * assert (Y : excl (set_avail None None false (w_m w i))) by (apply excl_av; try congruence; auto). destruct (differ _); exact Y.
      * apply idle_built. destruct (differ _); [apply mangle_idle|exact Id].
  - (* OAvCo *)
    pose proof (v_excl n w V i H) as X.
    apply (inv_setter n i w (fun m => differ (map_eq (m_avco m) (Some l))) (set_avail None (Some l) false) V H); [reflexivity..| |].
    + apply excl_av; try congruence; auto.
    + intro D. apply differ_false in D. destruct X as [_ [_ [_ [_ X5]]]].
      rewrite <- (set_avail_same (w_m w i)) at 2. destruct X5 as [-> ->]; [congruence|]. now rewrite D.
  - (* OAvAny *)
    destruct H as [I Id]. pose proof (v_excl n w V i I) as X. apply inv_idle; auto. apply excl_av; try congruence; auto.
  - (* ODictCh *)
    destruct H as [I Id]. pose proof (v_excl n w V i I) as X.
    destruct (m_cco (w_m w i)) as [l0|] eqn:E.
    + apply inv_idle; auto; rewrite ?E; auto. destruct X as [X1 [X2 [X3 [X4 X5]]]].
      destruct X2 as [Q1 [Q2 Q3]]; [congruence|]. unfold excl; cbn. rewrite Q1, Q2, Q3. intuition congruence.
    + apply inv_on; auto; rewrite ?E; auto. now apply (v_built n w V).
  - (* ODictAv *)
    destruct H as [I Id]. pose proof (v_excl n w V i I) as X.
    destruct (m_avco (w_m w i)) as [l0|] eqn:E.
    + apply inv_idle; auto; rewrite ?E; auto. destruct X as [X1 [X2 [X3 [X4 X5]]]].
      destruct X5 as [Q1 Q2]; [congruence|]. unfold excl; cbn. rewrite Q1, Q2. intuition congruence.
    + apply inv_on; auto; rewrite ?E; auto. now apply (v_built n w V).
  - (* OGraph *) apply inv_idle; auto; [exact (v_excl n w V i H)|apply mangle_idle].
  - (* ONodeAttr *) destruct H as [I Id]. apply inv_idle; auto. exact (v_excl n w V i I).
  - (* OType *)
    apply (inv_setter n i w (fun m => negb (Bool.eqb (m_type m) b)) (fun m => set_place (m_graph m) b (m_tree m) m) V H); [reflexivity..| |].
    + exact (v_excl n w V i H).
    + intro D. apply negb_false_iff, eqb_prop in D. rewrite <- D. apply set_place_same.
  - (* OTree *)
    destruct (match m_tree (w_m w i), t with Some a, Some b => (a =? b)%nat | None, None => true | _, _ => false end) eqn:D.
    + apply inv_on; auto; rewrite D; auto; [exact (v_excl n w V i H)|now apply (v_built n w V)].
    + apply inv_idle; auto; rewrite D; auto; [exact (v_excl n w V i H)|apply mangle_idle].
  - (* OTreeEdit *)
    split; cbn [w_m w_f w_next].
    + intros i I. destruct (m_tree (w_m w i)) as [u|] eqn:T.
      * destruct (Nat.eq_dec u t) as [->|Ne]; [apply idle_built; auto|].
        apply (built_ext w); auto; [|now apply (v_built n w V)]. intros v Tv. cbn [w_t]. apply put_other. congruence.
      * apply (built_ext w); auto; [|now apply (v_built n w V)]. intros v Tv. congruence.
    + exact (v_excl n w V).
    + exact (v_refs n w V).
    + exact (v_own n w V).
    + exact (v_apart n w V).
  - (* OConAdd *)
    apply inv_idle; auto; cbn [mangle m_frame m_cons set_built]; destruct (link c (m_frame (w_m w i))); auto;
      try exact (v_excl n w V i H); repeat split.
  - (* OConDel *)
    destruct (_ <? _)%nat; [|exact V]. apply inv_idle; auto; [exact (v_excl n w V i H)|apply mangle_idle].
  - (* OSetValue *)
    destruct (has_row n0 (m_frame (w_m w i))) eqn:Hr.
    + apply inv_on; auto; rewrite Hr; auto; [exact (v_excl n w V i H)|]. apply built_names; [now apply (v_built n w V)|apply set_row_names].
    + pose proof (unmangle_inv n i false w V H (C i H)) as U. destruct (unmangle i false w) as [w1 ok]. destruct U as [V1 _].
      destruct ok; [|exact V1]. pose proof (v_built n w1 V1 i H) as B1. apply inv_on; auto.
      * exact (v_excl n w1 V1 i H).
      * destruct (has_row n0 (m_frame (w_m w1 i))); [apply built_names; [exact B1|apply set_row_names]|].
        apply (built_more w1 (w_m w1 i) _ [n0]); [exact B1|]. rewrite map_app. reflexivity.
  - (* OSetFrame *)
    destruct (frame_eq (m_frame (w_m w i)) fr) as [E|E].
    + apply inv_on; auto; destruct (frame_eq (m_frame (w_m w i)) fr); try contradiction; auto; [exact (v_excl n w V i H)|now apply (v_built n w V)].
    + apply inv_idle; auto; destruct (frame_eq (m_frame (w_m w i)) fr); try contradiction; auto; [exact (v_excl n w V i H)|apply mangle_idle].
  - (* OPfSort *)
    pose proof (unmangle_inv n i false w V H (C i H)) as U. destruct (unmangle i false w) as [w1 ok]. destruct U as [V1 [C1 _]].
    destruct ok; [|exact V1].
    destruct (unmangle i true _) as [w2 ok2] eqn:E. cbn [fst].
    apply (inv_force n i w1) in E; auto; [tauto|apply rest_on|rewrite on_same; apply set_pars_kept|].
    rewrite on_same. apply (clear_m_rest i w1); [apply rest_on|]. apply clear_clear_m in C1. exact C1.
  - (* ORemoveUnused *)
    destruct (unmangle i true w) as [w1 ok1] eqn:E1.
    apply (inv_force n i w) in E1; auto; [|apply rest_refl|apply kept_refl|apply clear_clear_m, C, H].
    destruct E1 as [V1 [C1 [R1 K1]]]. destruct ok1; [|exact V1].
    destruct (unmangle i true (on i _ w1)) as [w2 ok2] eqn:E2.
    apply (inv_force n i w1) in E2; auto; [|apply rest_on|rewrite on_same; apply set_pars_kept|].
    2: { rewrite on_same. apply (clear_m_rest i w1); [apply rest_on|]. exact C1. }
    destruct E2 as [V2 [C2 [R2 K2]]]. destruct ok2; [|exact V2].
    apply inv_on; auto; [exact (v_excl n w2 V2 i H)|]. apply built_names; [now apply (v_built n w2 V2)|apply overlay_names].
  - (* OUnmangle *)
    pose proof (unmangle_inv n i force w V H (C i H)) as U. destruct (unmangle i force w) as [w1 ok]. now destruct U as [V1 _].
  - (* OSetDataset *) destruct H.
  - (* ODelDataset *)
    apply inv_on; auto; [exact (v_excl n w V i H)|]. pose proof (v_built n w V i H) as B. split.
    + exact (b_names w _ B).
    + cbn [m_dset set_built]. discriminate.
    + exact (b_fix w _ B).
    + exact (b_cf w _ B).
  - (* OEval *)
    unfold eval. destruct (m_tree (w_m w i)); [|exact V].
    pose proof (unmangle_inv n i false w V H (C i H)) as U. destruct (unmangle i false w) as [w1 ok]. destruct U as [V1 _].
    destruct ok; exact V1.
Qed.
Lemma start_inv : forall n w, start n w -> inv n w.
Proof.
  intros n w [A B]. split.
  - intros i I. destruct (A i I) as [g [u [q [E _]]]]. rewrite E. apply idle_built. repeat split.
  - intros i I. destruct (A i I) as [g [u [q [E _]]]]. rewrite E. unfold excl. cbn. repeat split; congruence.
  - intros i r I R. destruct (A i I) as [g [u [q [E [L1 [L2 _]]]]]]. rewrite E in R. destruct R as [->|[->|[]]]; auto.
  - intros i I. destruct (A i I) as [g [u [q [E [_ [_ O]]]]]]. now rewrite E.
  - intros i j r I J Ne Ri Rj. destruct (B i j I J Ne) as [B1 [B2 B3]]. destruct (B j i J I (not_eq_sym Ne)) as [B4 [B5 B6]].
    destruct (A i I) as [g [u [q [E _]]]]. destruct (A j J) as [g' [u' [q' [E' _]]]].
    rewrite E in B1, B2, B3, B4, B5, B6, Ri. rewrite E' in B1, B2, B3, B4, B5, B6, Rj. unfold reach in Ri, Rj. cbn in *. destruct Ri as [Ri|[Ri|[]]], Rj as [Rj|[Rj|[]]]; congruence.
Qed.
Lemma run_inv : forall n ops w, inv n w -> heard_run n w ops -> inv n (run ops w).
Proof.
  intros n ops. induction ops as [|o ops IH]; intros w V H; [exact V|]. cbn [heard_run] in H. destruct H as [C [H1 H2]].
  cbn [run fold_left]. apply IH; [|exact H2]. now apply act_inv.
Qed.
Lemma heard_last : forall n ops w, heard_run n w ops -> forall i, (i < n)%nat -> clear (run ops w) i.
Proof.
  intros n ops. induction ops as [|o ops IH]; intros w H i I; cbn [heard_run] in H; destruct H as [C H].
  - now apply C.
  - destruct H as [_ H]. now apply (IH (act o w) H).
Qed.
