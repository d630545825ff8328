(** C67: changes to a model take effect at the next evaluation. *)
From Coq Require Import Lra Permutation.
From Verif Require Import TouchModel TouchSpec TouchProofs TouchSteps.
Open Scope string_scope.
Open Scope list_scope.

(** A check of [clear] by computation: only six flows are ever asked for. *)
Definition clearb (w : world) (i : nat) : bool :=
  match m_tree (w_m w i), m_flows (w_m w i) with
  | Some t, Some fl =>
    forallb (fun key => match asked w (w_m w i) (w_t w t) key, fl key with
                        | Some (tag, defs), Some f =>
                          if string_dec (fl_name f) (flow_name tag defs (t_feat (w_t w t)))
                          then if list_eq_dec (fun a b : string * string => ltac:(decide equality; apply string_dec)) (fl_defs f) defs then true else false
                          else true
                        | _, _ => true
                        end) ["co"; "ca"; "choice_ca"; "weight_co"; "avail_ca"; "avail_co"]
  | _, _ => true
  end.
Lemma clearb_ok : forall w i, clearb w i = true -> clear w i.
Proof.
  intros w i H t fl key tag defs f T F A K N. unfold clearb in H. rewrite T, F in H. rewrite forallb_forall in H.
  assert (I : In key ["co"; "ca"; "choice_ca"; "weight_co"; "avail_ca"; "avail_co"]).
  { unfold asked in A. destruct (String.eqb_spec key "co") as [->|]; [now left|]. destruct (String.eqb_spec key "ca") as [->|]; [right; now left|].
    destruct (String.eqb_spec key "choice_ca") as [->|]; [right; right; now left|].
    destruct (String.eqb_spec key "weight_co") as [->|]; [do 3 right; now left|].
    destruct (String.eqb_spec key "avail_ca") as [->|]; [do 4 right; now left|].
    destruct (String.eqb_spec key "avail_co") as [->|]; [do 5 right; now left|]. discriminate. }
  specialize (H key I). rewrite A, K in H. destruct (string_dec _ _) as [_|Ne]; [|contradiction].
  destruct (list_eq_dec _ (fl_defs f) defs) as [E|]; [exact E|discriminate].
Qed.

(** ** Sessions *)
Theorem C67_changes_take_effect : forall n w ops i, start n w -> heard_run n w ops -> (i < n)%nat ->
  answer (run ops w) i = wanted (run ops w) i.
Proof.
  intros n w ops i S' H I. apply eval_built.
  - apply (v_built n). apply run_inv; [now apply start_inv|exact H]. exact I.
  - now apply (heard_last n ops w).
Qed.
(** Whatever has been done before, and however: with nothing compiled, everything is read anew. *)
Theorem C67_nothing_compiled : forall w i, idle (w_m w i) -> clear w i -> answer w i = wanted w i.
Proof. intros w i H C. apply eval_built; [now apply idle_built|exact C]. Qed.
Theorem C67_force_repairs : forall w i, clear w i -> answer (fst (unmangle i true w)) i = wanted w i.
Proof.
  intros w i C. pose proof (unmangle_step i true w) as U. destruct (unmangle i true w) as [w' ok]. cbn [fst]. destruct U as [R U].
  pose proof (step_force_ok w (w_m w i) (proj1 (clear_clear_m w i) C)) as Q. rewrite <- U in Q. destruct Q as [K [M [Rw [B [C' _]]]]].
  rewrite eval_built.
  - rewrite !wanted_unfold. replace (m_tree (w_m w' i)) with (m_tree (w_m w i)).
    2: { destruct K as [?[?[?[?[?[?[?[?[?[?[?[?[?[?[?[K _]]]]]]]]]]]]]]]]. congruence. }
    destruct (m_tree (w_m w i)) as [t|]; [|reflexivity]. destruct R as [R1 [R2 [R3 R4]]] eqn:ER. rewrite R3.
    rewrite (reads_wanted i w w') by exact R. apply kept_wanted; [exact K|]. intro n. now apply named_after.
  - now apply (built_rest i w w').
  - apply clear_clear_m. now apply (clear_m_rest i w w').
Qed.
(** Evaluation changes nothing the user has set. *)
Theorem C67_evaluation_keeps_settings : forall w i, let w' := fst (eval i w) in
  rest_same i w w' /\ kept (w_m w i) (w_m w' i) /\
  (forall n v, row (m_frame (w_m w i)) n = Some v -> row (m_frame (w_m w' i)) n = Some v) /\
  (forall n, row (m_frame (w_m w i)) n = None -> row (m_frame (w_m w' i)) n <> None ->
             in_utility w (w_m w i) n = true \/ in_scale w (w_m w i) n = true).
Proof.
  intros w i. unfold eval. destruct (m_tree (w_m w i)) as [t|] eqn:T.
  2: { cbn [fst]. split; [apply rest_refl|]. split; [apply kept_refl|]. split; [auto|]. intros n A B. congruence. }
  pose proof (unmangle_step i false w) as U. destruct (unmangle i false w) as [w' ok]. destruct U as [R U].
  replace (fst (if negb ok then (w', None) else _)) with w' by (destruct ok; reflexivity). cbv zeta. split; [exact R|].
  assert (G : kept (w_m w i) (w_m w' i) /\ (m_frame (w_m w' i) = m_frame (w_m w i) \/ m_frame (w_m w' i) = scan w (w_m w i))).
  { set (m := w_m w i) in *. assert (E : w_m w' i = fst (step_unmangle w false m)) by (now rewrite <- U). rewrite E. clear U E R.
    unfold step_unmangle. set (m1 := step_scan w false m).
    assert (H1 : kept m m1 /\ (m_frame m1 = m_frame m \/ m_frame m1 = scan w m)).
    { unfold m1, step_scan. destruct (m_mangled m || false); [split; [repeat split|now right]|split; [apply kept_refl|now left]]. }
    clearbody m1.
    assert (H2 : forall m2 ok, (match m_dset m1 with None => step_load w m1 | Some _ => if false then step_load w m1 else (m1, true) end) = (m2, ok) ->
                 kept m1 m2 /\ m_frame m2 = m_frame m1).
    { intros m2 ok' E. destruct (m_dset m1); [injection E as <- _; split; [apply kept_refl|reflexivity]|].
      destruct (kept_step_load w m1) as [Q1 [Q2 _]]. rewrite E in Q1, Q2. auto. }
    destruct (match m_dset m1 with None => step_load w m1 | Some _ => if false then step_load w m1 else (m1, true) end) as [m2 ok2].
    destruct (H2 m2 ok2 eq_refl) as [K2 F2]. destruct H1 as [K1 F1].
    assert (K : kept m m2) by (eapply kept_trans; eauto). rewrite <- F2 in F1. clear H2 K1 K2 F2.
    destruct ok2; cbn [negb fst]; [|auto].
    assert (H3 : forall m3 ok, step_fix w m2 = (m3, ok) -> kept m2 m3 /\ m_frame m3 = m_frame m2).
    { intros m3 ok' E. unfold step_fix in E. destruct (m_fix m2); [injection E as <- _; split; [apply kept_refl|reflexivity]|].
      destruct (m_dset m2); [|injection E as <- _; split; [apply kept_refl|reflexivity]].
      destruct (compile w m2 d); injection E as <- _; split; try reflexivity; repeat split. }
    destruct (step_fix w m2) as [m3 ok3]. destruct (H3 m3 ok3 eq_refl) as [K3 F3]. rewrite <- F3 in F1.
    assert (K' : kept m m3) by (eapply kept_trans; eauto). destruct ok3; cbn [negb fst]; auto. }
  destruct G as [K G]. split; [exact K|]. split.
  - intros n v H. destruct G as [->| ->]; [exact H|]. rewrite row_scan. unfold named. now rewrite H.
  - intros n H N. destruct G as [G|G]; rewrite G in N; [congruence|]. rewrite row_scan in N. unfold named in N. rewrite H in N.
    destruct (in_utility w (w_m w i) n); [auto|]. destruct (in_scale w (w_m w i) n); [auto|congruence].
Qed.
(** Setting a value: it is the one used from then on, and no other value changes. *)
Lemma row_set_other : forall n v fr x, n <> x -> row (set_row n v fr) x = row fr x.
Proof.
  intros n v fr x N. induction fr as [|y fr IH]; [reflexivity|]. cbn [set_row map]. fold (set_row n v fr). rewrite !row_cons, IH.
  destruct (string_dec (fst y) n) as [E|E]; cbn [fst snd]; [|reflexivity]. rewrite E. destruct (String.eqb_spec n x); [contradiction|reflexivity].
Qed.
Lemma row_set_same : forall n v fr, has_row n fr = true -> row (set_row n v fr) n = Some v.
Proof.
  intros n v fr H. unfold has_row in H. apply existsb_names in H. induction fr as [|y fr IH]; [destruct H|].
  cbn [set_row map]. fold (set_row n v fr). rewrite row_cons. destruct (string_dec (fst y) n) as [E|E]; cbn [fst snd].
  - now rewrite String.eqb_refl.
  - destruct (String.eqb_spec (fst y) n); [contradiction|]. apply IH. destruct H; [contradiction|auto].
Qed.
Lemma row_set_row : forall n v fr x, has_row n fr = true -> row (set_row n v fr) x = if String.eqb n x then Some v else row fr x.
Proof.
  intros n v fr x H. destruct (String.eqb_spec n x) as [<-|N]; [now apply row_set_same|now apply row_set_other].
Qed.
Lemma has_row_row : forall n fr, has_row n fr = true <-> row fr n <> None.
Proof. intros n fr. unfold has_row. rewrite existsb_names, row_some_in. reflexivity. Qed.
Lemma set_value_ok : forall n w i name v, inv n w -> (i < n)%nat -> clear w i -> wanted w i <> None ->
  let w' := act (OSetValue i name v) w in
  forall x, named w' (w_m w' i) x = if String.eqb name x then Some v else named w (w_m w i) x.
Proof.
  intros n w i name v V I C W. cbv zeta. cbn [act].
  destruct (has_row name (m_frame (w_m w i))) eqn:H.
  - intro x. rewrite on_same, H. cbn [on]. 
    set (m' := set_pars (set_row name v (m_frame (w_m w i))) (m_cons (w_m w i)) (w_m w i)).
    unfold named. change (in_utility _ m' x) with (in_utility w (w_m w i) x). change (in_scale _ m' x) with (in_scale w (w_m w i) x).
    change (m_frame m') with (set_row name v (m_frame (w_m w i))). rewrite row_set_row by exact H. destruct (String.eqb name x); reflexivity.
  - pose proof (unmangle_step i false w) as U. pose proof (unmangle_inv n i false w V I C) as Q.
    destruct (unmangle i false w) as [w1 ok] eqn:E. destruct Q as [V1 [C1 [K [R Rw]]]].
    assert (Ok : ok = true).
    { destruct ok; [reflexivity|]. exfalso. apply W. unfold answer in *. rewrite <- (eval_built w i (v_built n w V i I) C). unfold answer, eval.
      rewrite E. destruct (m_tree (w_m w i)); reflexivity. }
    subst ok. intro x. rewrite on_same.
    set (fr := if has_row name (m_frame (w_m w1 i)) then set_row name v (m_frame (w_m w1 i)) else m_frame (w_m w1 i) ++ [(name, v)]).
    set (m' := set_pars fr (m_cons (w_m w1 i)) (w_m w1 i)).
    assert (Fr : row fr x = if String.eqb name x then Some v else row (m_frame (w_m w1 i)) x).
    { unfold fr. destruct (has_row name (m_frame (w_m w1 i))) eqn:H1; [now apply row_set_row|].
      rewrite row_app, row_cons. cbn [fst snd]. destruct (String.eqb_spec name x) as [->|].
      - destruct (row (m_frame (w_m w1 i)) x) eqn:P; [|reflexivity]. assert (Y : has_row x (m_frame (w_m w1 i)) = true) by (apply has_row_row; congruence). congruence.
      - destruct (row (m_frame (w_m w1 i)) x); reflexivity. }
    unfold named at 1. change (m_frame m') with fr. rewrite Fr. destruct (String.eqb name x); [reflexivity|]. rewrite Rw.
    destruct (named w (w_m w i) x) as [y|] eqn:N; [reflexivity|].
    assert (U' : in_utility w (w_m w i) x = false /\ in_scale w (w_m w i) x = false).
    { unfold named in N. destruct (row (m_frame (w_m w i)) x); [discriminate|]. destruct (in_utility w (w_m w i) x); [discriminate|].
      destruct (in_scale w (w_m w i) x); [discriminate|auto]. }
    destruct (kept_used w (w_m w i) (w_m w1 i) K x) as [U1 U2]. destruct U' as [U3 U4]. rewrite U3 in U1. rewrite U4 in U2.
    destruct R as [R1 _].
    assert (A : in_utility (on i (fun m => set_pars (if has_row name (m_frame m) then set_row name v (m_frame m) else m_frame m ++ [(name, v)]) (m_cons m) m) w1) m' x = in_utility w (w_m w1 i) x)
      by (unfold in_utility; cbn [on w_f]; rewrite R1; reflexivity).
    assert (B : in_scale (on i (fun m => set_pars (if has_row name (m_frame m) then set_row name v (m_frame m) else m_frame m ++ [(name, v)]) (m_cons m) m) w1) m' x = in_scale w (w_m w1 i) x)
      by (unfold in_scale; cbn [on w_f]; rewrite R1; reflexivity).
    rewrite A, B, U1, U2. reflexivity.
Qed.
Theorem C67_set_value : forall n w0 ops i name v, start n w0 -> heard_run n w0 ops -> (i < n)%nat ->
  let w := run ops w0 in let w' := act (OSetValue i name v) w in
  wanted w i <> None -> forall x, named w' (w_m w' i) x = if String.eqb name x then Some v else named w (w_m w i) x.
Proof.
  intros n w0 ops i name v S' H I w w' W. apply (set_value_ok n); auto.
  - apply run_inv; [now apply start_inv|exact H].
  - now apply (heard_last n ops w0).
Qed.

(** ** Assignments store what they are given *)
Theorem C67_settings_are_stored : forall w i, let m := w_m w i in let after o := w_m (act o w) i in
  let qs := (m_qs m, m_ls m) in let ch := (m_cca m, m_cco m, m_ccode m, m_cany m) in
  let av := (m_av m, m_avco m, m_avany m) in let pl := (m_graph m, m_type m, m_tree m) in
  let same o := m_uca (after o) = m_uca m /\ m_qca (after o) = m_qca m /\ m_uco (after o) = m_uco m /\
                m_frame (after o) = m_frame m /\ m_cons (after o) = m_cons m /\ w_f (act o w) = w_f w /\
                (forall j, j <> i -> w_m (act o w) j = w_m w j) in
  let stored o g := groups (after o) = g /\ same o in
  (forall s, stored (OQscale i s) ((s, m_ls m), ch, m_wt m, av, pl)) /\
  (forall s, stored (OLogsum i s) ((m_qs m, s), ch, m_wt m, av, pl)) /\
  (forall v, stored (OChCa i (Some v)) (qs, (Some v, None, None, false), m_wt m, av, pl)) /\
  stored (OChCa i None) (qs, (None, m_cco m, m_ccode m, m_cany m), m_wt m, av, pl) /\
  (forall l, stored (OChCo i (Some l)) (qs, (None, Some l, None, false), m_wt m, av, pl)) /\
  stored (OChCo i None) (qs, (m_cca m, None, m_ccode m, m_cany m), m_wt m, av, pl) /\
  stored (OChCoDel i) (qs, (m_cca m, None, m_ccode m, m_cany m), m_wt m, av, pl) /\
  (forall v, stored (OChCode i (Some v)) (qs, (None, None, Some v, false), m_wt m, av, pl)) /\
  stored (OChCode i None) (qs, (m_cca m, m_cco m, None, m_cany m), m_wt m, av, pl) /\
  stored (OChCodeDel i) (qs, (m_cca m, m_cco m, None, m_cany m), m_wt m, av, pl) /\
  stored (OChAny i true) (qs, (None, None, None, true), m_wt m, av, pl) /\
  stored (OChAny i false) (qs, (m_cca m, m_cco m, m_ccode m, false), m_wt m, av, pl) /\
  (forall s, stored (OWeight i s) (qs, ch, s, av, pl)) /\
  (forall s, stored (OAvCa i s) (qs, ch, m_wt m, (s, None, false), pl)) /\
  (forall l, stored (OAvCo i l) (qs, ch, m_wt m, (None, Some l, false), pl)) /\
  stored (OAvAny i) (qs, ch, m_wt m, (None, None, true), pl) /\
  (forall l, m_cco m <> None -> stored (ODictCh i l) (qs, (m_cca m, Some l, m_ccode m, m_cany m), m_wt m, av, pl)) /\
  (forall l, m_avco m <> None -> stored (ODictAv i l) (qs, ch, m_wt m, (m_av m, Some l, m_avany m), pl)) /\
  (forall g, stored (OGraph i g) (qs, ch, m_wt m, av, (g, m_type m, m_tree m))) /\
  (forall g, stored (ONodeAttr i g) (qs, ch, m_wt m, av, (g, m_type m, m_tree m))) /\
  (forall b, stored (OType i b) (qs, ch, m_wt m, av, (m_graph m, b, m_tree m))) /\
  (forall t, stored (OTree i t) (qs, ch, m_wt m, av, (m_graph m, m_type m, t))).
Proof.
  intros w i. cbv zeta.
  assert (Q : forall o g, (act o w = on i g w) -> 
    m_uca (g (w_m w i)) = m_uca (w_m w i) -> m_qca (g (w_m w i)) = m_qca (w_m w i) -> m_uco (g (w_m w i)) = m_uco (w_m w i) ->
    m_frame (g (w_m w i)) = m_frame (w_m w i) -> m_cons (g (w_m w i)) = m_cons (w_m w i) -> forall x, groups (g (w_m w i)) = x ->
    groups (w_m (act o w) i) = x /\ m_uca (w_m (act o w) i) = m_uca (w_m w i) /\ m_qca (w_m (act o w) i) = m_qca (w_m w i) /\
    m_uco (w_m (act o w) i) = m_uco (w_m w i) /\ m_frame (w_m (act o w) i) = m_frame (w_m w i) /\ m_cons (w_m (act o w) i) = m_cons (w_m w i) /\
    w_f (act o w) = w_f w /\ (forall j, j <> i -> w_m (act o w) j = w_m w j)).
  { intros o g E H1 H2 H3 H4 H5 x H6. rewrite E, on_same. repeat split; auto. intros j J. now apply on_other. }
  Ltac stored_tac Q := intros; eapply Q; [cbn [act]; reflexivity|..]; cbv beta; try reflexivity; try (destruct (differ _); reflexivity).
  do 16 (split; [stored_tac Q|]).
  split.
  { intros l N. eapply Q; [cbn [act]; reflexivity|..]; cbv beta; destruct (m_cco (w_m w i)); [reflexivity|contradiction|..]; try reflexivity; contradiction. }
  split.
  { intros l N. eapply Q; [cbn [act]; reflexivity|..]; cbv beta; destruct (m_avco (w_m w i)); [reflexivity|contradiction|..]; try reflexivity; contradiction. }
  do 2 (split; [stored_tac Q|]).
  split.
  { intros b. eapply Q; [cbn [act]; reflexivity|..]; cbv beta; destruct (negb _); reflexivity. }
  intros t. eapply Q; [cbn [act]; reflexivity|..]; cbv beta;
    destruct (match m_tree (w_m w i), t with Some a, Some b => (a =? b)%nat | None, None => true | _, _ => false end) eqn:E; try reflexivity.
  unfold groups. destruct (m_tree (w_m w i)) as [a|], t as [b|]; try discriminate; [apply Nat.eqb_eq in E; subst|]; reflexivity.
Qed.

(** Functions.  [w] is reached by a session. *)
Lemma session_inv : forall n w, session n w -> inv n w.
Proof. intros n w [w0 [ops [A [B ->]]]]. apply run_inv; [now apply start_inv|exact B]. Qed.
Lemma object_find : forall m k, object m (PCo k) = find_fn (m_uco m) k.
Proof. reflexivity. Qed.
Lemma object_reach : forall m p r, object m p = Some r -> reach m r.
Proof.
  intros m [| |k] r H; cbn in H.
  - injection H as <-. now left.
  - injection H as <-. right; now left.
  - right; right. exact (find_fn_in (m_uco m) k r H).
Qed.
Lemma find_put_same : forall l k r, find_fn (put_fn l k r) k = Some r.
Proof.
  intros l k r. unfold find_fn. induction l as [|kr l IH]; cbn [put_fn].
  - cbn. now rewrite Z.eqb_refl.
  - destruct (fst kr =? k)%Z eqn:E; cbn [find fst]; [now rewrite Z.eqb_refl|]. now rewrite E.
Qed.
Lemma find_put_other : forall l k r k', k' <> k -> find_fn (put_fn l k r) k' = find_fn l k'.
Proof.
  intros l k r k' N. unfold find_fn. induction l as [|kr l IH]; cbn [put_fn].
  - cbn. destruct (Z.eqb_spec k k'); [congruence|reflexivity].
  - destruct (Z.eqb_spec (fst kr) k) as [E|E]; cbn [find fst].
    + destruct (Z.eqb_spec k k'); [congruence|]. destruct (Z.eqb_spec (fst kr) k'); [congruence|reflexivity].
    + destruct (fst kr =? k')%Z; [reflexivity|exact IH].
Qed.
Lemma find_filter : forall l k k', find_fn (filter (fun kr => negb (fst kr =? k)%Z) l) k' = if (k' =? k)%Z then None else find_fn l k'.
Proof.
  intros l k k'. unfold find_fn. induction l as [|kr l IH]; cbn [filter find].
  - destruct (k' =? k)%Z; reflexivity.
  - destruct (Z.eqb_spec (fst kr) k) as [E|E]; cbn [negb].
    + rewrite IH. destruct (Z.eqb_spec k' k); [reflexivity|]. destruct (Z.eqb_spec (fst kr) k'); [congruence|reflexivity].
    + cbn [find]. destruct (Z.eqb_spec (fst kr) k') as [E'|E']; [destruct (Z.eqb_spec k' k); [congruence|reflexivity]|exact IH].
Qed.
Lemma good_terms : forall l, terms_only l -> map Some (good l) = l.
Proof.
  intros l H. apply terms_good in H. unfold all_good in H. induction l as [|[c|] l IH]; cbn in *; [reflexivity| |discriminate]. now rewrite IH.
Qed.
Lemma skipn_next : forall {A} (a b : list A) d, skipn (S (length a)) (a ++ d :: b) = b.
Proof. intros A a b d. induction a as [|x a IH]; [reflexivity|exact IH]. Qed.
Lemma apply_edited : forall e l l', apply_edit e l = Some l' -> edited e l l'.
Proof.
  intros e l l' H. destruct e; unfold apply_edit in H; cbn [edited].
  - now injection H.
  - injection H as <-. exists (firstn i l), (skipn i l). rewrite firstn_skipn, firstn_length. auto.
  - now injection H.
  - destruct (Nat.ltb_spec i (length l)) as [L|]; [|discriminate]. injection H as <-.
    destruct (nth_error l i) as [d|] eqn:N; [|apply nth_error_None in N; lia].
    destruct (nth_error_split l i N) as [a [b [-> La]]]. exists a, b, d. split; [reflexivity|]. split; [|exact La]. subst i.
    rewrite firstn_app, Nat.sub_diag, firstn_all, firstn_O, app_nil_r. f_equal. f_equal.
    apply skipn_next.
  - destruct (Nat.ltb_spec i (length l)) as [L|]; [|discriminate]. injection H as <-.
    destruct (nth_error l i) as [d|] eqn:N; [|apply nth_error_None in N; lia].
    destruct (nth_error_split l i N) as [a [b [-> La]]]. exists a, b, d. split; [reflexivity|]. split; [|exact La]. subst i.
    rewrite firstn_app, Nat.sub_diag, firstn_all, firstn_O, app_nil_r. f_equal.
    apply skipn_next.
  - now injection H.
  - injection H as <-. apply filter_ext. intro c. destruct (String.eqb_spec (c_data c) d), (string_dec (c_data c) d); try reflexivity; contradiction.
  - injection H as <-. apply filter_ext. intro c. destruct (String.eqb_spec (c_par c) p), (string_dec (c_par c) p); try reflexivity; contradiction.
Qed.
(** A list of terms assigned to utility_ca or quantity_ca. *)
Theorem C67_assigned_functions : forall n w i q l, session n w -> (i < n)%nat -> terms_only l ->
  let p := if q : bool then PQ else PCa in let w' := act (OSetFn i q l) w in
  (exists x, seen w' i p = Some x /\ map Some x = l) /\
  (forall p', object (w_m w i) p' <> object (w_m w i) p -> seen w' i p' = seen w i p') /\
  (forall j p', (j < n)%nat -> j <> i -> seen w' j p' = seen w j p').
Proof.
  intros n w i q l S' I T p w'. pose proof (session_inv n w S') as V. destruct (v_own n w V i I) as [O1 O2].
  set (r := if q then m_qca (w_m w i) else m_uca (w_m w i)).
  assert (Ob : object (w_m w i) p = Some r) by (unfold p, r; destruct q; reflexivity).
  assert (O : f_owner (w_f w r) = Some i) by (unfold r; destruct q; auto).
  assert (E : w' = on i mangle (on_fn r (mkFn (good l) (Some i)) w)).
  { unfold w'. cbn [act]. fold r. rewrite O. apply terms_good in T. rewrite T. reflexivity. }
  assert (Om : forall j p', object (w_m w' j) p' = object (w_m w j) p').
  { intros j p'. rewrite E. destruct (Nat.eq_dec j i) as [->|N]; [rewrite on_same; destruct p'; reflexivity|rewrite on_other by auto; reflexivity]. }
  assert (Fr : forall x, w_f w' x = if (x =? r)%nat then mkFn (good l) (Some i) else w_f w x) by (intro x; rewrite E; reflexivity).
  split; [|split].
  - exists (good l). split; [|now apply good_terms]. unfold seen. rewrite Om, Ob, Fr, Nat.eqb_refl. reflexivity.
  - intros p' N. unfold seen. rewrite Om. destruct (object (w_m w i) p') as [x|]; [|reflexivity]. rewrite Fr.
    destruct (Nat.eqb_spec x r) as [->|]; [congruence|reflexivity].
  - intros j p' J N. unfold seen. rewrite Om. destruct (object (w_m w j) p') as [x|] eqn:X; [|reflexivity]. rewrite Fr.
    destruct (Nat.eqb_spec x r) as [->|]; [|reflexivity]. exfalso.
    apply (v_apart n w V j i r J I N); [now apply object_reach with p'|now apply object_reach with p].
Qed.
(** One entry of utility_co assigned or deleted. *)
Theorem C67_assigned_entries : forall n w i k, session n w -> (i < n)%nat ->
  (forall l, terms_only l -> let w' := act (OSetItem i k l) w in
     (exists x, seen w' i (PCo k) = Some x /\ map Some x = l) /\
     (forall p, p <> PCo k -> seen w' i p = seen w i p) /\ (forall j p, (j < n)%nat -> j <> i -> seen w' j p = seen w j p)) /\
  (let w' := act (ODelItem i k) w in
     seen w' i (PCo k) = None /\
     (forall p, p <> PCo k -> seen w' i p = seen w i p) /\ (forall j p, (j < n)%nat -> j <> i -> seen w' j p = seen w j p)).
Proof.
  intros n w i k S' I. pose proof (session_inv n w S') as V. split.
  - intros l T w'. 
    assert (E : w' = on i (fun m => mangle (set_uco (put_fn (m_uco m) k (w_next w)) m)) (fst (new_fn (mkFn (good l) (Some i)) w))).
    { unfold w'. cbn [act]. apply terms_good in T. rewrite T. reflexivity. }
    assert (Fr : forall x, w_f w' x = if (x =? w_next w)%nat then mkFn (good l) (Some i) else w_f w x) by (intro x; rewrite E; reflexivity).
    assert (Old : forall j p r, (j < n)%nat -> object (w_m w j) p = Some r -> w_f w' r = w_f w r).
    { intros j p r J Ob. rewrite Fr. destruct (Nat.eqb_spec r (w_next w)) as [->|]; [|reflexivity].
      apply object_reach in Ob. pose proof (v_refs n w V j _ J Ob). lia. }
    split; [|split].
    + exists (good l). split; [|now apply good_terms]. unfold seen. rewrite object_find.
      rewrite E at 1. rewrite on_same. cbn [mangle m_uco set_built set_uco]. rewrite find_put_same, Fr, Nat.eqb_refl. reflexivity.
    + intros p N. assert (Ob : object (w_m w' i) p = object (w_m w i) p).
      { rewrite E, on_same. destruct p as [| |k']; [reflexivity..|]. rewrite !object_find. cbn [mangle m_uco set_built set_uco new_fn fst w_m].
        apply find_put_other. congruence. }
      unfold seen. rewrite Ob. destruct (object (w_m w i) p) as [r|] eqn:X; [|reflexivity]. now rewrite (Old i p r I X).
    + intros j p J N. assert (Ob : object (w_m w' j) p = object (w_m w j) p) by (rewrite E, on_other by auto; reflexivity).
      unfold seen. rewrite Ob. destruct (object (w_m w j) p) as [r|] eqn:X; [|reflexivity]. now rewrite (Old j p r J X).
  - intro w'. unfold w'. cbn [act]. destruct (find_fn (m_uco (w_m w i)) k) as [r|] eqn:F.
    + split; [|split].
      * unfold seen. rewrite object_find, on_same. cbn [mangle m_uco set_built set_uco]. rewrite find_filter, Z.eqb_refl. reflexivity.
      * intros p N. unfold seen. rewrite on_same. destruct p as [| |k']; [reflexivity..|]. rewrite !object_find. cbn [mangle m_uco set_built set_uco].
        rewrite find_filter. destruct (Z.eqb_spec k' k); [congruence|reflexivity].
      * intros j p J N. unfold seen. rewrite on_other by auto. reflexivity.
    + split; [|split]; auto. unfold seen. rewrite object_find, F. reflexivity.
Qed.
(** A dict assigned to utility_co. *)
Lemma make_fns_seen : forall l w, (forall k x, In (k, x) l -> terms_only x) -> let '(w', d, ok) := make_fns l w in
  map fst d = map fst l /\ (forall k r, In (k, r) d -> exists x, In (k, x) l /\ map Some (f_terms (w_f w' r)) = x).
Proof.
  induction l as [|[k x] l IH]; intros w H; cbn [make_fns].
  - split; [reflexivity|intros k r []].
  - assert (G : all_good x = true) by (apply terms_good; eapply H; left; reflexivity). rewrite G. cbn [new_fn].
    set (w1 := mkWorld _ _ _ _). pose proof (make_fns_ok l w1) as M. specialize (IH w1 (fun k x i => H k x (or_intror i))).
    destruct (make_fns l w1) as [[w' d] ok]. destruct IH as [I1 I2]. destruct M as [M1 [M2 [M3 [M4 [M5 M6]]]]].
    split; [cbn; now rewrite I1|]. intros k' r [Q|Q].
    + injection Q as <- <-. exists x. split; [now left|]. rewrite M4 by (cbn; lia). cbn [w1 w_f]. rewrite put_same. cbn [f_terms].
      apply good_terms. eapply H. left. reflexivity.
    + destruct (I2 k' r Q) as [y [Y1 Y2]]. exists y. split; [now right|exact Y2].
Qed.
Lemma fold_put_find : forall d a k, NoDup (map fst d) ->
  find_fn (fold_left (fun a (kr : Z * nat) => put_fn a (fst kr) (snd kr)) d a) k =
  match find_fn d k with Some r => Some r | None => find_fn a k end.
Proof.
  induction d as [|[k0 r0] d IH]; intros a k N; [reflexivity|]. cbn [map] in N. inversion N as [|? ? N1 N2]; subst.
  cbn [fold_left fst snd]. rewrite (IH _ k N2). cbn [fst] in N1. apply find_fn_none in N1.
  unfold find_fn at 3. cbn [find fst]. destruct (Z.eqb_spec k0 k) as [->|Ne].
  - rewrite N1, find_put_same. reflexivity.
  - fold (find_fn d k). destruct (find_fn d k); [reflexivity|]. apply find_put_other. congruence.
Qed.
Theorem C67_assigned_dict : forall n w i l, session n w -> (i < n)%nat -> NoDup (map fst l) -> (forall k x, In (k, x) l -> terms_only x) ->
  let w' := act (OSetCo i l) w in
  (forall k x, In (k, x) l -> exists y, seen w' i (PCo k) = Some y /\ map Some y = x) /\
  (forall k, ~ In k (map fst l) -> seen w' i (PCo k) = None) /\
  seen w' i PCa = seen w i PCa /\ seen w' i PQ = seen w i PQ /\
  (forall j p, (j < n)%nat -> j <> i -> seen w' j p = seen w j p).
Proof.
  intros n w i l S' I N T w'. pose proof (session_inv n w S') as V. unfold w'. cbn [act].
  pose proof (make_fns_ok l w) as M. pose proof (make_fns_seen l w T) as Q. destruct (make_fns l w) as [[w1 d] ok].
  destruct M as [M1 [M2 [M3 [M4 [M5 M6]]]]]. destruct Q as [Q1 Q2].
  assert (Ok : ok = true) by (rewrite M6; now apply forallb_terms). rewrite Ok. cbn [mangle_if].
  set (D := fold_left _ d []).
  assert (Fd : forall k, find_fn D k = find_fn d k).
  { intro k. unfold D. rewrite fold_put_find by (now rewrite Q1). destruct (find_fn d k); reflexivity. }
  assert (Old : forall j p r, (j < n)%nat -> object (w_m w j) p = Some r -> w_f w1 r = w_f w r).
  { intros j p r J Ob. apply M4. apply object_reach in Ob. exact (v_refs n w V j _ J Ob). }
  split; [|split; [|split; [|split]]].
  - intros k x K. unfold seen. rewrite object_find, on_same. cbn [mangle m_uco set_built set_uco]. rewrite Fd. cbn [on w_f].
    destruct (find_fn d k) as [r|] eqn:F.
    + exists (f_terms (w_f w1 r)). split; [reflexivity|].
      assert (Dk : In (k, r) d).
      { unfold find_fn in F. destruct (find _ d) as [kr|] eqn:G; [|discriminate]. injection F as <-. apply find_some in G as [G1 G2].
        apply Z.eqb_eq in G2. rewrite <- G2. now destruct kr. }
      destruct (Q2 k r Dk) as [y [Y1 Y2]]. rewrite Y2.
      assert (U : forall (l : list (Z * list (option comp))) a b, NoDup (map fst l) -> In (k, a) l -> In (k, b) l -> a = b).
      { clear. induction l as [|[k0 z] l IH]; intros a b N A B; [destruct A|]. cbn in N. inversion N as [|? ? N1 N2]; subst.
        destruct A as [A|A], B as [B|B].
        - congruence.
        - injection A as -> ->. exfalso. apply N1. apply in_map_iff. exists (k, b). auto.
        - injection B as -> ->. exfalso. apply N1. apply in_map_iff. exists (k, a). auto.
        - now apply IH. }
      exact (U l y x N Y1 K).
    + exfalso. apply find_fn_none in F. apply F. rewrite Q1. apply in_map_iff. exists (k, x). auto.
  - intros k K. unfold seen. rewrite object_find, on_same. cbn [mangle m_uco set_built set_uco]. rewrite Fd.
    assert (F : find_fn d k = None) by (apply find_fn_none; now rewrite Q1). now rewrite F.
  - unfold seen. rewrite on_same, M1. cbn [object mangle m_uca set_built set_uco on w_f]. now rewrite (Old i PCa _ I eq_refl).
  - unfold seen. rewrite on_same, M1. cbn [object mangle m_qca set_built set_uco on w_f]. now rewrite (Old i PQ _ I eq_refl).
  - intros j p J Ne. unfold seen. rewrite on_other, M1 by auto. cbn [on w_f]. destruct (object (w_m w j) p) as [r|] eqn:X; [|reflexivity].
    now rewrite (Old j p r J X).
Qed.
(** A function edited in place; a missing entry of utility_co counts as empty. *)
Theorem C67_edited_functions : forall n w i p e, session n w -> (i < n)%nat ->
  let old := match seen w i p with Some l => l | None => [] end in let w' := act (OEdit i p e) w in
  (apply_edit e old <> None -> exists new, seen w' i p = Some new /\ edited e old new) /\
  (apply_edit e old = None -> seen w' i p = Some old) /\
  (forall p', p' <> p -> object (w_m w i) p' <> object (w_m w i) p -> seen w' i p' = seen w i p') /\
  (forall j p', (j < n)%nat -> j <> i -> seen w' j p' = seen w j p').
Proof.
  intros n w i p e S' I old w'. pose proof (session_inv n w S') as V.
  (* the state after reading the attribute *)
  assert (A : exists w1 r, access i p w = (w1, r) /\ object (w_m w1 i) p = Some r /\ f_terms (w_f w1 r) = old /\
    (forall p', p' <> p -> object (w_m w1 i) p' = object (w_m w i) p') /\ (forall j, j <> i -> w_m w1 j = w_m w j) /\
    (forall x, x <> r -> w_f w1 x = w_f w x) /\ (object (w_m w i) p = Some r \/ r = w_next w)).
  { unfold old, seen. destruct p as [| |k]; cbn [access].
    - exists w, (m_uca (w_m w i)). repeat split; auto.
    - exists w, (m_qca (w_m w i)). repeat split; auto.
    - rewrite object_find. destruct (find_fn (m_uco (w_m w i)) k) as [r|] eqn:F.
      + exists (on_fn r (mkFn (f_terms (w_f w r)) (Some i)) w), r. repeat split; auto.
        * cbn [on_fn w_f]. now rewrite put_same.
        * intros x X. cbn [on_fn w_f]. now apply put_other.
      + cbn [new_fn]. eexists. exists (w_next w). split; [reflexivity|]. rewrite on_same. cbn [m_uco set_uco w_m].
        split; [rewrite object_find; apply find_put_same|]. split; [cbn [on w_f]; now rewrite put_same|].
        split; [|split; [|split]].
        * intros p' N. destruct p' as [| |k']; [reflexivity..|]. rewrite !object_find. cbn [m_uco set_uco]. apply find_put_other. congruence.
        * intros j J. rewrite on_other by auto. reflexivity.
        * intros x X. cbn [on w_f]. now apply put_other.
        * now right. }
  destruct A as [w1 [r [E [Ob [Te [Op [Om [Of Or]]]]]]]]. unfold w'. cbn [act]. rewrite E. unfold edit_fn. rewrite Te.
  assert (Nt : forall l o j p', seen (notify o (on_fn r (mkFn l o) w1)) j p' = seen (on_fn r (mkFn l o) w1) j p').
  { intros l [j0|] j p'; [|reflexivity]. cbn [notify]. unfold seen. destruct (Nat.eq_dec j j0) as [->|N].
    - rewrite on_same. destruct p'; reflexivity.
    - rewrite on_other by auto. reflexivity. }
  assert (Se : forall l o j p', seen (on_fn r (mkFn l o) w1) j p' =
     match object (w_m w1 j) p' with Some x => Some (if (x =? r)%nat then l else f_terms (w_f w1 x)) | None => None end).
  { intros l o j p'. unfold seen. cbn [on_fn w_m w_f]. destruct (object (w_m w1 j) p') as [x|]; [|reflexivity]. unfold put. destruct (x =? r)%nat; reflexivity. }
  assert (Oth : forall x p' j, (j < n)%nat -> j <> i \/ (p' <> p /\ object (w_m w i) p' <> object (w_m w i) p) -> object (w_m w j) p' = Some x -> x <> r).
  { intros x p' j J D X ->. destruct Or as [Or| ->].
    - destruct D as [D|[D1 D2]].
      + apply (v_apart n w V j i r J I D); [now apply object_reach with p'|now apply object_reach with p].
      + destruct (Nat.eq_dec j i) as [->|D]; [congruence|].
        apply (v_apart n w V j i r J I D); [now apply object_reach with p'|now apply object_reach with p].
    - apply object_reach in X. pose proof (v_refs n w V j _ J X). lia. }
  split; [|split; [|split]].
  - intro H. destruct (apply_edit e old) as [l|] eqn:Ae; [|contradiction]. exists l. split; [|now apply apply_edited].
    destruct (announces e); rewrite ?Nt, Se, Ob, Nat.eqb_refl; reflexivity.
  - intro H. rewrite H. unfold seen. rewrite Ob, Te. reflexivity.
  - intros p' N1 N2. pose proof (fun x => Oth x p' i I (or_intror (conj N1 N2))) as Oi.
    assert (B : seen w1 i p' = seen w i p').
    { unfold seen. rewrite (Op p' N1). destruct (object (w_m w i) p') as [x|] eqn:X; [|reflexivity]. rewrite Of; [reflexivity|].
      exact (Oi x eq_refl). }
    rewrite <- B. destruct (apply_edit e old) as [l|]; [|reflexivity].
    assert (D : seen (on_fn r (mkFn l (f_owner (w_f w1 r))) w1) i p' = seen w1 i p').
    { rewrite Se. unfold seen. rewrite (Op p' N1). destruct (object (w_m w i) p') as [x|] eqn:X; [|reflexivity].
      destruct (Nat.eqb_spec x r) as [Q|]; [|reflexivity]. exfalso. revert Q. exact (Oi x eq_refl). }
    destruct (announces e); rewrite ?Nt; exact D.
  - intros j p' J N.
    assert (B : seen w1 j p' = seen w j p').
    { unfold seen. rewrite (Om j N). destruct (object (w_m w j) p') as [x|] eqn:X; [|reflexivity]. rewrite Of; [reflexivity|].
      apply (Oth x p' j J); auto. }
    rewrite <- B. destruct (apply_edit e old) as [l|]; [|reflexivity].
    assert (D : seen (on_fn r (mkFn l (f_owner (w_f w1 r))) w1) j p' = seen w1 j p').
    { rewrite Se. unfold seen. rewrite (Om j N). destruct (object (w_m w j) p') as [x|] eqn:X; [|reflexivity].
      destruct (Nat.eqb_spec x r) as [Q|]; [|reflexivity]. exfalso. revert Q. apply (Oth x p' j J); auto. }
    destruct (announces e); rewrite ?Nt; exact D.
Qed.

(** ** Parameters and constraints *)
Lemma force_ok : forall w i, clear w i -> forall w' ok, unmangle i true w = (w', ok) ->
  rest_same i w w' /\ kept (w_m w i) (w_m w' i) /\ (forall n, row (m_frame (w_m w' i)) n = named w (w_m w i) n) /\
  built w' (w_m w' i) /\ clear w' i /\ (ok = false -> wanted w i = None).
Proof.
  intros w i C w' ok E. pose proof (unmangle_step i true w) as U. rewrite E in U. destruct U as [R U].
  pose proof (step_force_ok w (w_m w i) (proj1 (clear_clear_m w i) C)) as Q. rewrite <- U in Q. destruct Q as [K [M [Rw [B [C' Q]]]]].
  split; [exact R|]. split; [exact K|]. split; [exact Rw|]. split; [now apply (built_rest i w w')|].
  split; [apply clear_clear_m; now apply (clear_m_rest i w w')|]. intros ->. destruct Q as [t [T Q]].
  rewrite wanted_unfold, T.
  assert (W : wanted_at w (w_m w' i) (w_t w t) = wanted_at w (w_m w i) (w_t w t)).
  { apply kept_wanted; [exact K|]. intro n. now apply named_after. }
  rewrite <- W. destruct Q as [Q|[d [Q1 Q2]]].
  - apply direct_none. now rewrite (kept_direct w (w_m w i) (w_m w' i) K).
  - rewrite <- (kept_direct w (w_m w i) (w_m w' i) K) in Q1.
    rewrite <- (compile_give w (w_m w' i) (w_t w t) d [] (covered_rows w _ _ K Rw) Q1), Q2. reflexivity.
Qed.
Lemma row_overlay : forall old new n, row (overlay old new) n =
  match row new n with None => None | Some v => match row old n with Some x => Some x | None => Some v end end.
Proof.
  intros old new n. unfold overlay. induction new as [|r new IH]; [reflexivity|]. cbn [map]. rewrite !row_cons, IH.
  assert (E : fst (match find (fun o => String.eqb (fst o) (fst r)) old with Some o => (fst r, snd o) | None => r end) = fst r)
    by (destruct (find _ old); reflexivity).
  rewrite E. destruct (String.eqb_spec (fst r) n) as [<-|]; [|reflexivity]. unfold row.
  destruct (find (fun o => String.eqb (fst o) (fst r)) old); reflexivity.
Qed.
(** Removing the unused parameters: the used ones keep their values, and the answers stay the same. *)
Theorem C67_remove_unused : forall w i, clear w i -> wanted w i <> None ->
  (forall s, text (m_qs (w_m w i)) = Some s -> used w (w_m w i) s = true) ->
  let w' := act (ORemoveUnused i) w in
  (forall n, row (m_frame (w_m w' i)) n = if used w (w_m w i) n then named w (w_m w i) n else None) /\
  kept (w_m w i) (w_m w' i) /\ rest_same i w w' /\ wanted w' i = wanted w i /\ answer w' i = wanted w i.
Proof.
  intros w i C W Sc. cbv zeta. cbn [act]. destruct (unmangle i true w) as [w1 ok1] eqn:E1.
  destruct (force_ok w i C w1 ok1 E1) as [R1 [K1 [Rw1 [B1 [C1 F1]]]]].
  destruct ok1; [|exfalso; apply W; now apply F1].
  set (w2 := on i (fun m => set_pars [] (m_cons m) m) w1).
  assert (R2 : rest_same i w w2) by (eapply rest_trans; [exact R1|apply rest_on]).
  assert (M2 : w_m w2 i = set_pars [] (m_cons (w_m w1 i)) (w_m w1 i)) by (unfold w2; rewrite on_same; reflexivity).
  assert (K2 : kept (w_m w i) (w_m w2 i)) by (rewrite M2; eapply kept_trans; [exact K1|apply set_pars_kept]).
  assert (C2 : clear w2 i).
  { apply clear_clear_m. rewrite M2. apply (clear_m_rest i w1 w2); [apply rest_on|]. apply clear_clear_m in C1. exact C1. }
  assert (N2 : forall n, named w (w_m w2 i) n = if in_utility w (w_m w i) n then Some 0%R else if in_scale w (w_m w i) n then Some 1%R else None).
  { intro n. unfold named. rewrite M2 at 1. cbn [m_frame set_pars row find]. destruct (kept_used w (w_m w i) (w_m w2 i) K2 n) as [-> ->]. reflexivity. }
  destruct (unmangle i true w2) as [w3 ok3] eqn:E3.
  destruct (force_ok w2 i C2 w3 ok3 E3) as [R3 [K3 [Rw3 [B3 [C3 F3]]]]].
  assert (Ok : ok3 = true).
  { destruct ok3; [reflexivity|]. exfalso. specialize (F3 eq_refl). apply W. clear -F3 W R2 K2 N2 Sc.
    rewrite wanted_unfold in *. assert (Tr : m_tree (w_m w2 i) = m_tree (w_m w i)) by (destruct K2 as [?[?[?[?[?[?[?[?[?[?[?[?[?[?[?[K _]]]]]]]]]]]]]]]]; exact K).
    rewrite Tr in F3. destruct (m_tree (w_m w i)) as [t|]; [|reflexivity].
    rewrite (reads_wanted i w w2 _ _ R2) in F3. destruct R2 as [_ [_ [R2 _]]]. rewrite R2 in F3.
    unfold wanted_at in F3, W. rewrite (kept_chosen _ _ K2) in F3. destruct (kept_rest _ _ K2 (w_t w t)) as [_ [_ X]]. rewrite X in F3.
    rewrite (kept_alts _ _ K2) in F3. assert (U : m_uco (w_m w2 i) = m_uco (w_m w i)) by (destruct K2 as [?[?[K _]]]; exact K).
    assert (Q : m_qs (w_m w2 i) = m_qs (w_m w i)) by (destruct K2 as [?[?[?[K _]]]]; exact K). rewrite U, Q in F3.
    destruct (chosen (w_m w i) (w_t w t)); [|contradiction]. destruct (any_available (w_m w i)); [contradiction|].
    destruct (negb _); [contradiction|]. exfalso. destruct (text (m_qs (w_m w i))) as [s|]; [|discriminate].
    specialize (Sc s eq_refl). unfold used in Sc. rewrite (N2 s) in F3.
    destruct (in_utility w (w_m w i) s); [discriminate|]. cbn [orb] in Sc. rewrite Sc in F3. discriminate. }
  subst ok3. set (w4 := on i (fun m => set_pars (overlay (m_frame (w_m w1 i)) (m_frame m)) (m_cons m) m) w3).
  assert (R4 : rest_same i w w4) by (eapply rest_trans; [exact R2|]; eapply rest_trans; [exact R3|apply rest_on]).
  assert (M4 : w_m w4 i = set_pars (overlay (m_frame (w_m w1 i)) (m_frame (w_m w3 i))) (m_cons (w_m w3 i)) (w_m w3 i)) by (unfold w4; rewrite on_same; reflexivity).
  assert (K4 : kept (w_m w i) (w_m w4 i)).
  { eapply kept_trans; [exact K2|]. eapply kept_trans; [exact K3|]. rewrite M4. apply set_pars_kept. }
  assert (Rows : forall n, row (m_frame (w_m w4 i)) n = if used w (w_m w i) n then named w (w_m w i) n else None).
  { intro n. rewrite M4. cbn [m_frame set_pars]. rewrite row_overlay, Rw3, Rw1, (reads_named i w w2 _ _ R2), N2. unfold used.
    unfold named. destruct (in_utility w (w_m w i) n), (in_scale w (w_m w i) n), (row (m_frame (w_m w i)) n); reflexivity. }
  split; [exact Rows|]. split; [exact K4|]. split; [exact R4|].
  assert (Nm : forall n, used w (w_m w i) n = true -> named w (w_m w4 i) n = named w (w_m w i) n).
  { intros n U. unfold named at 1. rewrite Rows, U. destruct (named w (w_m w i) n) eqn:N; [reflexivity|].
    unfold used in U. unfold named in N. destruct (row _ n); [discriminate|]. destruct (in_utility w (w_m w i) n); [discriminate|].
    cbn [orb] in U. rewrite U in N. discriminate. }
  assert (Wn : wanted w4 i = wanted w i).
  { rewrite !wanted_unfold. assert (Tr : m_tree (w_m w4 i) = m_tree (w_m w i)) by (destruct K4 as [?[?[?[?[?[?[?[?[?[?[?[?[?[?[?[K _]]]]]]]]]]]]]]]]; exact K).
    rewrite Tr. destruct (m_tree (w_m w i)) as [t|]; [|reflexivity]. rewrite (reads_wanted i w w4 _ _ R4).
    destruct R4 as [_ [_ [R4 _]]]. rewrite R4. unfold wanted_at. rewrite (kept_chosen _ _ K4).
    destruct (kept_rest _ _ K4 (w_t w t)) as [-> [-> ->]]. rewrite (kept_alts _ _ K4).
    destruct K4 as [H1[H2[H3[H4[H5[H6[H7[H8[H9[HA[HB[HC[HD[HE [HF _]]]]]]]]]]]]]]].
    rewrite H1, H2, H3, H4, HE, HF. destruct (chosen (w_m w i) (w_t w t)) as [chd0|]; [|reflexivity]. destruct (any_available (w_m w i)); [reflexivity|].
    destruct (negb _); [reflexivity|].
    assert (Q : forall s, text (m_qs (w_m w i)) = Some s -> named w (w_m w4 i) s = named w (w_m w i) s) by (intros s Hs; apply Nm; now apply Sc).
    assert (X : match text (m_qs (w_m w i)) with Some s => match named w (w_m w4 i) s with None => true | Some _ => false end | None => false end =
                match text (m_qs (w_m w i)) with Some s => match named w (w_m w i) s with None => true | Some _ => false end | None => false end).
    { destruct (text (m_qs (w_m w i))) as [s|]; [now rewrite (Q s eq_refl)|reflexivity]. }
    rewrite X. destruct (match text (m_qs (w_m w i)) with Some s => match named w (w_m w i) s with None => true | Some _ => false end | None => false end); [reflexivity|].
    f_equal. f_equal.
    - apply map_ext_in. intros c Ic. rewrite Nm; [reflexivity|]. unfold used. rewrite (in_utility_ca w (w_m w i) c); [reflexivity|now left].
    - apply map_ext_in. intros c Ic. rewrite Nm; [reflexivity|]. unfold used. rewrite (in_utility_ca w (w_m w i) c); [reflexivity|now right].
    - destruct (text (m_qs (w_m w i))) as [s|]; [now rewrite (Q s eq_refl)|reflexivity].
    - assert (G : forall l, incl l (m_uco (w_m w i)) ->
        flat_map (fun kr => map (fun c => (place (fst kr) (alternatives (w_m w i) (w_t w t)), c_scale c, named w (w_m w4 i) (c_par c),
                                            if String.eqb (c_data c) "1" then None else Some (Some (t_col (w_t w t) (c_data c)))))
                                 (f_terms (w_f w (snd kr)))) l =
        flat_map (fun kr => map (fun c => (place (fst kr) (alternatives (w_m w i) (w_t w t)), c_scale c, named w (w_m w i) (c_par c),
                                            if String.eqb (c_data c) "1" then None else Some (Some (t_col (w_t w t) (c_data c)))))
                                 (f_terms (w_f w (snd kr)))) l).
      { induction l as [|kr l IH]; intro In'; [reflexivity|]. cbn [flat_map]. rewrite IH by (intros x X'; apply In'; now right). f_equal.
        apply map_ext_in. intros c Ic. rewrite Nm; [reflexivity|]. unfold used.
        assert (Y : In (fst kr, c) (co_terms w (w_m w i))).
        { unfold co_terms. apply in_flat_map. exists kr. split; [apply In'; now left|]. apply in_map_iff. exists c. auto. }
        apply in_utility_co in Y. cbn [snd] in Y. now rewrite Y. }
      apply G. apply incl_refl.
    - apply map_ext_in. intros x Ix. destruct (snd x) as [p|] eqn:Ex; [|reflexivity]. rewrite Nm; [reflexivity|]. unfold used.
      assert (Y : in_scale w (w_m w i) p = true).
      { unfold in_scale. apply orb_true_iff; left. apply orb_true_iff; left. apply existsb_exists. exists x. split; [exact Ix|].
        rewrite Ex. apply String.eqb_refl. }
      rewrite Y. apply orb_true_r. }
  split; [exact Wn|]. rewrite <- Wn. apply eval_built.
  - rewrite M4. apply (built_rest i w3 w4); [apply rest_on|]. apply built_names; [exact B3|apply overlay_names].
  - apply clear_clear_m. rewrite M4. apply (clear_m_rest i w3 w4); [apply rest_on|]. apply clear_clear_m in C3. exact C3.
Qed.
(** Constraints apply to the parameters they name, as long as the frame has the same names in the same order as when they
    were added. *)
Lemma linked_values : forall (fr : list (string * R)) names pos, NoDup (map fst fr) -> Forall2 (fun n p => nth_error (map fst fr) p = Some n) names pos ->
  forall fr' : list (string * R), map fst fr' = map fst fr ->
  map (fun p => nth p (map snd fr') 0%R) pos = map (fun n => match row fr' n with Some v => v | None => 0%R end) names.
Proof.
  intros fr names pos N H fr' E. rewrite <- E in N, H. clear E fr. induction H as [|n p names pos Hp H IH]; [reflexivity|].
  cbn [map]. rewrite IH. f_equal. clear IH H names pos.
  revert p Hp. induction fr' as [|[x v] fr IHf]; intros p Hp; [destruct p; discriminate|].
  cbn [map fst] in N. inversion N as [|? ? N1 N2]; subst. rewrite row_cons. cbn [fst snd map].
  destruct p as [|p]; cbn in Hp.
  - injection Hp as <-. rewrite String.eqb_refl. reflexivity.
  - assert (I : In n (map fst fr)) by (eapply nth_error_In; exact Hp).
    destruct (String.eqb_spec x n) as [->|_]; [contradiction|]. cbn [nth]. now apply IHf.
Qed.
Theorem C67_constraints_apply_to_names : forall n w i g, session n w -> (i < n)%nat -> clear w i -> snd (eval i w) = Some g ->
  NoDup (map fst (m_frame (w_m w i))) -> (forall c, In c (m_cons (w_m w i)) -> linked c (m_frame (w_m w i))) ->
  let fr := m_frame (w_m (fst (eval i w)) i) in
  map fst fr = map fst (m_frame (w_m w i)) ->
  v_cons g = map (fun c => k_fun c (map (fun x => match row fr x with Some v => v | None => 0%R end) (k_names c))) (m_cons (w_m w i)).
Proof.
  intros n w i g S' I C E N L fr F. pose proof (session_inv n w S') as V. unfold fr in *. clear fr. unfold eval in *.
  destruct (m_tree (w_m w i)) as [t|] eqn:T; [|discriminate].
  pose proof (unmangle_step i false w) as U. destruct (unmangle i false w) as [w' ok]. destruct U as [R U].
  pose proof (step_unmangle_ok w false (w_m w i) (v_built n w V i I) (proj1 (clear_clear_m w i) C)) as Q. rewrite <- U in Q.
  destruct Q as [K [M [Rw [B [C' Q]]]]]. destruct ok; cbn [negb fst snd] in *; [|discriminate].
  destruct Q as [_ Cf]. rewrite Cf in E.
  destruct (m_dset (w_m w' i)) as [d|]; [|discriminate]. destruct (m_arr (w_m w' i)) as [a|]; [|discriminate].
  destruct (m_fix (w_m w' i)) as [x|]; [|discriminate]. destruct (d_ch d); [|discriminate]. injection E as <-.
  unfold give. cbn [v_cons]. apply map_ext_in. intros k0 Ic. f_equal. unfold linked in L. now apply (linked_values _ _ _ N (L k0 Ic)).
Qed.
Theorem C67_constraint_added : forall w i c, (forall x, In x (k_names c) -> row (m_frame (w_m w i)) x <> None) ->
  let m' := w_m (act (OConAdd i c) w) i in
  exists c', m_cons m' = m_cons (w_m w i) ++ [c'] /\ k_names c' = k_names c /\ k_fun c' = k_fun c /\ linked c' (m_frame m') /\
    m_frame m' = m_frame (w_m w i).
Proof.
  intros w i c H. cbn [act]. rewrite on_same. cbn [mangle m_frame m_cons set_built].
  assert (L : exists l, all_some (map (fun n => index_of n (map fst (m_frame (w_m w i)))) (k_names c)) = Some l /\
     Forall2 (fun n p => nth_error (map fst (m_frame (w_m w i))) p = Some n) (k_names c) l).
  { induction (k_names c) as [|x l IH]; [exists []; split; constructor|].
    destruct IH as [r [R1 R2]]; [intros; apply H; now right|].
    assert (I : In x (map fst (m_frame (w_m w i)))) by (apply row_some_in, H; now left).
    destruct (index_in _ _ I) as [p [P1 P2]]. exists (p :: r). cbn [map all_some]. rewrite P1, R1. split; [reflexivity|now constructor]. }
  destruct L as [l [L1 L2]]. unfold link. rewrite L1. exists (mkCon (k_names c) l (k_fun c)). repeat split; try reflexivity. exact L2.
Qed.
(** pf_sort: the same values in order of name. *)
Lemma sort_perm : forall fr : list (string * R), Permutation (sort_by fst fr) fr.
Proof.
  assert (P : forall (x : string * R) l, Permutation (insert_by fst x l) (x :: l)).
  { intros x l. induction l as [|y l IH]; [reflexivity|]. cbn [insert_by]. destruct (String.leb (fst x) (fst y)); [reflexivity|].
    rewrite IH. apply perm_swap. }
  induction fr as [|x fr IH]; [reflexivity|]. unfold sort_by in *. cbn [fold_right]. rewrite P. now constructor.
Qed.

Theorem C67_sorted_frame : forall n w i, session n w -> (i < n)%nat -> clear w i ->
  let w' := act (OPfSort i) w in
  (forall x, row (m_frame (w_m w' i)) x = named w (w_m w i) x) /\ kept (w_m w i) (w_m w' i) /\ rest_same i w w'.
Proof.
  intros n w i S' I C. cbv zeta. cbn [act]. destruct (unmangle i false w) as [w1 ok1] eqn:E1.
  pose proof (unmangle_step i false w) as U. rewrite E1 in U. destruct U as [R1 U].
  pose proof (step_unmangle_ok w false (w_m w i) (v_built n w (session_inv n w S') i I) (proj1 (clear_clear_m w i) C)) as Q. rewrite <- U in Q.
  destruct Q as [K1 [_ [Rw1 [_ [C1 _]]]]]. destruct ok1; [|auto].
  set (w2 := on i (fun m => set_pars (sort_by fst (m_frame m)) (m_cons m) m) w1).
  assert (R2 : rest_same i w w2) by (eapply rest_trans; [exact R1|apply rest_on]).
  assert (M2 : w_m w2 i = set_pars (sort_by fst (m_frame (w_m w1 i))) (m_cons (w_m w1 i)) (w_m w1 i)) by (unfold w2; rewrite on_same; reflexivity).
  assert (K2 : kept (w_m w i) (w_m w2 i)) by (rewrite M2; eapply kept_trans; [exact K1|apply set_pars_kept]).
  assert (C2 : clear w2 i).
  { apply clear_clear_m. rewrite M2. apply (clear_m_rest i w w2); [exact R2|]. exact C1. }
  destruct (unmangle i true w2) as [w3 ok3] eqn:E3. destruct (force_ok w2 i C2 w3 ok3 E3) as [R3 [K3 [Rw3 _]]]. cbn [fst].
  split; [|split; [eapply kept_trans; eassumption|eapply rest_trans; eassumption]].
  intro x. rewrite Rw3, (reads_named i w w2 _ _ R2). unfold named at 1. rewrite M2 at 1. cbn [m_frame set_pars]. rewrite row_sort, Rw1.
  destruct (kept_used w (w_m w i) (w_m w2 i) K2 x) as [-> ->]. unfold named. destruct (row (m_frame (w_m w i)) x); [reflexivity|].
  destruct (in_utility w (w_m w i) x); [reflexivity|]. destruct (in_scale w (w_m w i) x); reflexivity.
Qed.

(** Assigning the frame, and deleting a constraint. *)
Theorem C67_frame_and_constraints_stored : forall w i,
  (forall fr, let w' := act (OSetFrame i fr) w in
     m_frame (w_m w' i) = fr /\ kept (w_m w i) (w_m w' i) /\ rest_same i w w') /\
  (forall n a c b, m_cons (w_m w i) = a ++ c :: b -> length a = n -> let w' := act (OConDel i n) w in
     m_cons (w_m w' i) = a ++ b /\ groups (w_m w' i) = groups (w_m w i) /\ m_frame (w_m w' i) = m_frame (w_m w i) /\ rest_same i w w').
Proof.
  intros w i. split.
  - intros fr w'. unfold w'. cbn [act]. split; [|split; [|apply rest_on]].
    + rewrite on_same. destruct (frame_eq (m_frame (w_m w i)) fr) as [<-|]; reflexivity.
    + rewrite on_same. destruct (frame_eq (m_frame (w_m w i)) fr); [apply kept_refl|]. repeat split.
  - intros n a c b E L w'. unfold w'. cbn [act].
    assert (Lt : (n <? length (m_cons (w_m w i)))%nat = true) by (apply Nat.ltb_lt; rewrite E, app_length; cbn [length]; lia).
    rewrite Lt. rewrite on_same. cbn [mangle set_built set_pars m_cons m_frame].
    split; [|split; [reflexivity|split; [reflexivity|apply rest_on]]].
    rewrite E, <- L. rewrite firstn_app, Nat.sub_diag, firstn_all, skipn_app. cbn [firstn]. rewrite app_nil_r.
    rewrite skipn_all2 by lia. replace (S (length a) - length a)%nat with 1 by lia. reflexivity.
Qed.

(** ** A session to try them on: two models, four alternatives' worth of settings *)
Definition g0 : graph := mkGraph [1; 2; 3]%Z [(4%Z, Some "mu")] [(4, 1); (4, 2); (0, 4); (0, 3)]%Z.
Definition t0 : tree := mkTree "t" (Some [1; 2; 3]%Z) (fun v => String.eqb v "avail") (fun e _ => INR (String.length e)).
Definition t1 : tree := mkTree "t" (Some [1; 2; 3]%Z) (fun v => String.eqb v "avail") (fun e _ => 0%R).
Definition w0 : world :=
  mkWorld (fun r => mkFn [] (Some (Nat.div2 r))) 4 (fun i => new_model i (2 * i) (2 * i + 1) g0) (fun t => if (t =? 0)%nat then t0 else t1).
Example w0_start : start 2 w0.
Proof.
  split.
  - intros i I. exists g0, (2 * i)%nat, (2 * i + 1)%nat. cbn [w0 w_m w_next w_f f_owner]. split; [reflexivity|]. split; [lia|]. split; [lia|].
    split; f_equal; [apply Nat.div2_double|replace (2 * i + 1)%nat with (S (2 * i)) by lia; apply Nat.div2_succ_double].
  - intros i j I J N. cbn. lia.
Qed.
Definition cx : comp := mkComp "b" "x" 1.
Definition base : list op :=
  [OTree 0 (Some 0); OChCode 0 (Some "ch"); OSetFn 0 false [Some cx]; OSetCo 0 [(2%Z, [Some (mkComp "asc" "1" 1)])]; OEval 0].
(** A session with changes of all kinds between evaluations. *)
Definition busy : list op :=
  base ++ [OSetValue 0 "b" 2; OEdit 0 PCa (EAppend (mkComp "a" "y" 1)); OEval 0; OEdit 0 (PCo 3) (EExtend [mkComp "c" "z" 1]); OWeight 0 (Some "w");
           OEval 0; OAvCo 0 [(1%Z, "u"); (2%Z, "v")]; OGraph 0 g0; OEval 0; OChCa 0 (Some "chosen"); OSetFn 0 true [Some (mkComp "q" "x" 1)];
           OQscale 0 (Some "th"); OEval 0; ORemoveUnused 0; OEdit 0 (PCo 3) (EDelItem 0); OPfSort 0; ODelDataset 0; OTree 1 (Some 1); OEval 1].
Fixpoint heard_from (n : nat) (w : world) (pre ops : list op) : Prop :=
  match ops with [] => True | o :: r => heard n (run pre w) o /\ heard_from n w (pre ++ [o]) r end.
Lemma run_app : forall a b w, run (a ++ b) w = run b (run a w).
Proof. intros a b w. unfold run. apply fold_left_app. Qed.
Lemma heard_check : forall n ops pre w,
  (forall k, (k <= length ops)%nat -> forall i, (i < n)%nat -> clear (run (pre ++ firstn k ops) w) i) ->
  heard_from n w pre ops -> heard_run n (run pre w) ops.
Proof.
  intros n ops. induction ops as [|o ops IH]; intros pre w C H; cbn [heard_run].
  - split; [|exact I]. intros i Hi. specialize (C 0 (le_n 0) i Hi). now rewrite app_nil_r in C.
  - destruct H as [H1 H2]. split; [intros i Hi; specialize (C 0 (Nat.le_0_l _) i Hi); cbn [firstn] in C; now rewrite app_nil_r in C|].
    split; [exact H1|]. replace (act o (run pre w)) with (run (pre ++ [o]) w) by (rewrite run_app; reflexivity). apply IH; [|exact H2].
    intros k K i Hi. specialize (C (S k) (le_n_S _ _ K) i Hi). cbn [firstn] in C. now rewrite <- app_assoc.
Qed.
Definition all_clear (n : nat) (ops : list op) (w : world) : bool :=
  forallb (fun k => forallb (fun i => clearb (run (firstn k ops) w) i) (seq 0 n)) (seq 0 (S (length ops))).
Lemma heard_check0 : forall n ops w, all_clear n ops w = true -> heard_from n w [] ops -> heard_run n w ops.
Proof.
  intros n ops w A H. apply (heard_check n ops [] w); [|exact H]. intros k K i Hi. apply clearb_ok. unfold all_clear in A.
  rewrite forallb_forall in A. specialize (A k (proj2 (in_seq _ _ _) (conj (Nat.le_0_l _) (le_n_S _ _ K)))). rewrite forallb_forall in A.
  apply A. apply in_seq. lia.
Qed.
Ltac lt2 := first [exact (le_n 2)|exact (le_S 1 1 (le_n 1))].
Ltac heard_tac :=
  match goal with
  | |- heard _ _ (OSetFn _ _ _) => cbn [heard]; split; [lt2|left; intros [Q|[]]; discriminate Q]
  | |- heard _ _ (OSetCo _ _) => cbn [heard]; split; [lt2|left; intros k' x [Q|[]]; injection Q as <- <-; intros [Q|[]]; discriminate Q]
  | |- heard _ _ (OStore _ _ _ _) => cbn [heard]; split; [lt2|reflexivity]
  | |- heard _ _ (OEdit _ (PCo _) (EDelItem _)) => cbn [heard]; split; [lt2|right; vm_compute; tauto]
  | |- heard _ _ (OEdit _ _ _) => cbn [heard]; split; [lt2|right; exact I]
  | |- heard _ _ (OWeight _ _) => cbn [heard]; split; [lt2|vm_compute; repeat split]
  | |- heard _ _ _ => cbn [heard]; lt2
  end.
Example busy_heard : heard_run 2 w0 busy.
Proof.
  apply heard_check0; [vm_compute; reflexivity|]. unfold busy, base. cbn [app heard_from].
  repeat (match goal with |- heard _ _ _ /\ _ => split; [heard_tac|] end). exact I.
Qed.
Example busy_answer : answer (run busy w0) 0 = wanted (run busy w0) 0 /\ wanted (run busy w0) 0 <> None /\
  option_map (fun g => (length (v_ca g), length (v_q g), length (v_co g))) (wanted (run busy w0) 0) = Some (2, 1, 1).
Proof.
  split; [|split].
  - apply (C67_changes_take_effect 2); [exact w0_start|exact busy_heard|lia].
  - vm_compute. discriminate.
  - vm_compute. reflexivity.
Qed.

(** ** Changes that are not heard *)
Ltac session_tac := apply heard_check0; [vm_compute; reflexivity|]; cbn [app base heard_from];
  repeat (match goal with |- heard _ _ _ /\ _ => split; [heard_tac|] end); exact I.
Ltac unheard_tac ops proj :=
  exists 2, w0, ops; split; [exact w0_start|]; split; [session_tac|];
  let w' := fresh in intro w'; let E := fresh "E" in intro E; apply (f_equal proj) in E; vm_compute in E; discriminate E.
Definition s_wt (g : option given) := option_map (fun g => match v_wt g with None => 0 | Some _ => 1 end) g.
Definition s_av (g : option given) := option_map (fun g => match v_av g with None => 0 | Some (AvTable _) => 1 | Some (AvCols l) => 2 + length l end) g.
Definition s_some (g : option given) := match g with None => 0 | Some _ => 1 end.
Definition s_ch (g : option given) := option_map (fun g => match v_ch g with None => 0 | Some (ChTable _) => 1 | Some (ChCode _) => 2 | Some (ChCols l) => 3 + length l end) g.
Definition s_ca (g : option given) := option_map (fun g => length (v_ca g)) g.
Definition s_co (g : option given) := option_map (fun g => length (v_co g)) g.
Definition s_mu (g : option given) := option_map (fun g => map (fun x => match x with None => 0 | Some None => 1 | Some (Some _) => 2 end) (v_mu g)) g.
(** Setting, changing or clearing the weight. *)
Theorem C67_weight_unheard_refuted : unheard (OWeight 0 (Some "w")).
Proof. unheard_tac base s_wt. Qed.
Theorem C67_weight_cleared_unheard_refuted : unheard (OWeight 0 None).
Proof. unheard_tac (OWeight 0 (Some "w") :: base) s_wt. Qed.
(** del m.choice_co_vars, m.choice_any = True. *)
Theorem C67_choice_unheard_refuted : unheard (OChCoDel 0) /\ unheard (OChAny 0 true).
Proof.
  split.
  - unheard_tac (base ++ [OChCo 0 (Some [(1%Z, "c"); (2%Z, "c"); (3%Z, "c")]); OEval 0]) s_some.
  - unheard_tac base s_some.
Qed.
(** m.availability_ca_var = None when dict availability was set, m.availability_any = True. *)
Theorem C67_availability_unheard_refuted : unheard (OAvCa 0 None) /\ unheard (OAvAny 0).
Proof.
  split.
  - unheard_tac (OAvCo 0 [(1%Z, "u")] :: base) s_av.
  - unheard_tac (OAvCo 0 [(1%Z, "u")] :: base) s_some.
Qed.
(** Dicts changed in place, even if they are then assigned again. *)
Theorem C67_dicts_unheard_refuted : unheard (ODictCh 0 [(1%Z, "c")]) /\ unheard (ODictAv 0 []).
Proof.
  split.
  - unheard_tac (base ++ [OChCo 0 (Some [(1%Z, "c"); (2%Z, "c"); (3%Z, "c")]); OEval 0]) s_some.
  - unheard_tac (OAvCo 0 [(1%Z, "u")] :: base) s_av.
Qed.
Theorem C67_dict_assigned_again_unheard_refuted : exists l, let w := run (OAvCo 0 [(1%Z, "u")] :: base ++ [ODictAv 0 l; OAvCo 0 l; OEval 0]) w0 in
  answer w 0 <> wanted w 0.
Proof. exists []. intros w E. apply (f_equal s_av) in E. vm_compute in E. discriminate E. Qed.
(** remove_data and remove_param; a function reached by way of values(). *)
Theorem C67_functions_unheard_refuted : unheard (OEdit 0 PCa (ERemoveData "x")) /\ unheard (OEdit 0 PCa (ERemoveParam "b")) /\
  unheard (OEditHeld 0 2 (EAppend cx)).
Proof.
  split; [|split].
  - unheard_tac base s_ca.
  - unheard_tac base s_ca.
  - unheard_tac base s_co.
Qed.
(** A refused assignment is half applied, and not heard. *)
Theorem C67_refused_assignment_unheard_refuted : unheard (OSetFn 0 false [Some cx; Some cx; None]).
Proof. unheard_tac base s_ca. Qed.
(** A node's parameter. *)
Theorem C67_node_parameter_unheard_refuted : unheard (ONodeAttr 0 (mkGraph (g_alts g0) [(4%Z, None)] (g_edges g0))).
Proof. unheard_tac base s_mu. Qed.
(** New data in the same tree. *)
Theorem C67_new_data_unheard_refuted : unheard (OTreeEdit 0 t1).
Proof.
  exists 2, w0, base. split; [exact w0_start|]. split; [session_tac|]. intros w' E.
  apply (f_equal (fun g => option_map (fun g => match v_ca g with (_, _, Some c) :: _ => c 0 | _ => 5%R end) g)) in E.
  vm_compute in E. injection E as E. exact (R1_neq_R0 E).
Qed.
(** Assigning a dataset: nothing can be computed any more. *)
Theorem C67_dataset_refuted : forall d, unheard (OSetDataset 0 d).
Proof.
  intro d. exists 2, w0, base. split; [exact w0_start|]. split; [session_tac|]. intros w' E. apply (f_equal s_some) in E.
  vm_compute in E. discriminate E.
Qed.
(** A function object put into another model as well: the first model hears no more of its changes. *)
Theorem C67_shared_function_refuted : exists w ops, start 2 w /\ heard_run 2 w ops /\
  let w' := run [OStore 1 2 0 PCa; OEdit 0 PCa (EAppend cx)] (run ops w) in answer w' 0 <> wanted w' 0.
Proof.
  exists w0, base. split; [exact w0_start|]. split; [session_tac|]. intros w' E. apply (f_equal s_ca) in E. vm_compute in E. discriminate E.
Qed.
(** Flows of the same name: the model is told, and still answers from what was prepared before, or fails. *)
Definition ab : list op := [OTree 0 (Some 0); OChCode 0 (Some "ch"); OSetFn 0 false [Some (mkComp "b" "a" 1); Some (mkComp "b" "aa" 1)]; OEval 0].
Definition sep : list op := [OTree 0 (Some 0); OChCode 0 (Some "ch"); OSetFn 0 false [Some cx]; OAvCo 0 [(1%Z, "x"); (2%Z, "y2z")]; OEval 0].
Theorem C67_flow_names_refuted :
  (exists w ops l, start 2 w /\ heard_run 2 w ops /\ terms_only l /\
     let w' := act (OSetFn 0 false l) (run ops w) in answer w' 0 = None /\ wanted w' 0 <> None) /\
  (exists w ops l, start 2 w /\ heard_run 2 w ops /\
     let w' := act (OAvCo 0 l) (run ops w) in
     answer w' 0 <> None /\ wanted w' 0 <> None /\ option_map v_av (answer w' 0) <> option_map v_av (wanted w' 0)).
Proof.
  split.
  - exists w0, ab, [Some (mkComp "b" "aaa" 1)]. split; [exact w0_start|]. split.
    { apply heard_check0; [vm_compute; reflexivity|]. cbn [ab heard_from]. split; [heard_tac|]. split; [heard_tac|].
      split; [cbn [heard]; split; [lt2|left; intros [Q|[Q|[]]]; discriminate Q]|]. split; [heard_tac|exact I]. }
    split; [intros [Q|[]]; discriminate|]. intro w'. split; [vm_compute; reflexivity|vm_compute; discriminate].
  - exists w0, sep, [(1%Z, "x2y"); (2%Z, "z")]. split; [exact w0_start|]. split.
    { apply heard_check0; [vm_compute; reflexivity|]. cbn [sep heard_from].
      repeat (match goal with |- heard _ _ _ /\ _ => split; [heard_tac|] end); exact I. }
    intro w'. split; [vm_compute; discriminate|]. split; [vm_compute; discriminate|]. intro E.
    apply (f_equal (fun o => match o with Some (Some (AvCols ((_, c) :: _))) => c 0 | _ => 0%R end)) in E.
    vm_compute in E. lra.
Qed.
(** A constraint keeps the positions it had when it was added: a new parameter that sorts before makes it apply to another. *)
Definition kb : con := mkCon ["b"] [] (fun l => nth 0 l 0%R).
Definition valued : list op := base ++ [OSetValue 0 "b" 2; OConAdd 0 kb; OEval 0].
Theorem C67_constraint_moves_refuted : exists w ops e, start 2 w /\ heard_run 2 w ops /\ heard 2 (run ops w) e /\
  let w1 := run ops w in let w2 := act e w1 in
  (exists c, m_cons (w_m w1 0) = [c] /\ m_cons (w_m w2 0) = [c] /\ k_names c = ["b"] /\ forall x, k_fun c [x] = x) /\
  row (m_frame (w_m w1 0)) "b" = Some 2%R /\ row (m_frame (w_m (fst (eval 0 w2)) 0)) "b" = Some 2%R /\
  option_map v_cons (snd (eval 0 w1)) = Some [2%R] /\ option_map v_cons (snd (eval 0 w2)) <> Some [2%R].
Proof.
  exists w0, valued, (OEdit 0 PCa (EAppend (mkComp "a" "y" 1))). split; [exact w0_start|]. split.
  { apply heard_check0; [vm_compute; reflexivity|]. cbn [valued base app heard_from].
    repeat (match goal with |- heard _ _ _ /\ _ => split; [heard_tac|] end); exact I. }
  split; [cbn [heard]; split; [lt2|right; exact I]|]. intros w1 w2. split; [|split; [|split; [|split]]].
  - exists (mkCon ["b"] [1] (fun l => nth 0 l 0%R)). split; [vm_compute; reflexivity|]. split; [vm_compute; reflexivity|]. split; [reflexivity|].
    intro x. reflexivity.
  - vm_compute. reflexivity.
  - vm_compute. reflexivity.
  - vm_compute. reflexivity.
  - intro E. apply (f_equal (fun o => match o with Some (x :: _) => x | _ => 5%R end)) in E. vm_compute in E. lra.
Qed.
(** A constraint on an unknown parameter is refused with an error and yet kept, applying to nothing. *)
Theorem C67_refused_constraint_refuted : exists w ops c, start 2 w /\ heard_run 2 w ops /\
  let w1 := run ops w in let w2 := act (OConAdd 0 c) w1 in
  link c (m_frame (w_m w1 0)) = None /\ m_cons (w_m w2 0) = [c] /\ option_map (fun g => length (v_cons g)) (snd (eval 0 w2)) = Some 1 /\
  ~ linked c (m_frame (w_m w2 0)).
Proof.
  exists w0, base, (mkCon ["zz"] [] (fun l => nth 0 l 0%R)). split; [exact w0_start|]. split; [session_tac|]. intros w1 w2.
  split; [vm_compute; reflexivity|]. split; [vm_compute; reflexivity|]. split; [vm_compute; reflexivity|]. intro L. inversion L.
Qed.
(** A quantity scale without quantities: an error, though nothing in the likelihood depends on it. *)
Theorem C67_scale_without_quantity_refuted : exists w ops, start 2 w /\ heard_run 2 w ops /\ answer (run ops w) 0 <> None /\
  answer (act (OQscale 0 (Some "th")) (run ops w)) 0 = None.
Proof.
  exists w0, base. split; [exact w0_start|]. split; [session_tac|]. split; [vm_compute; discriminate|vm_compute; reflexivity].
Qed.
(** A nest that names no parameter brings in a parameter "None". *)
Theorem C67_parameter_None_refuted : exists w ops, start 2 w /\ heard_run 2 w ops /\
  row (m_frame (w_m (run ops w) 0)) "None" = Some 1%R /\
  (forall p, In p (map snd (g_nests (m_graph (w_m (run ops w) 0)))) -> p = None) /\ in_utility (run ops w) (w_m (run ops w) 0) "None" = false.
Proof.
  exists w0, (OGraph 0 (mkGraph (g_alts g0) [(4%Z, None)] (g_edges g0)) :: base). split; [exact w0_start|].
  split; [session_tac|]. split; [vm_compute; reflexivity|]. split; [|vm_compute; reflexivity].
  intros p H. vm_compute in H. destruct H as [<-|[]]. reflexivity.
Qed.
(** remove_unused_parameters loses every value when the quantity scale is a parameter that nothing else uses. *)
Definition scaled : list op := base ++ [OSetValue 0 "b" 2; OSetValue 0 "th" 3; OQscale 0 (Some "th"); OEval 0].
Theorem C67_remove_unused_refuted : exists w ops, start 2 w /\ heard_run 2 w ops /\
  let w1 := run ops w in let w2 := act (ORemoveUnused 0) w1 in
  answer w1 0 <> None /\ used w1 (w_m w1 0) "b" = true /\ row (m_frame (w_m w1 0)) "b" = Some 2%R /\
  answer w2 0 = None /\ row (m_frame (w_m w2 0)) "b" = Some 0%R.
Proof.
  exists w0, scaled. split; [exact w0_start|]. split.
  { apply heard_check0; [vm_compute; reflexivity|]. cbn [scaled base app heard_from].
    repeat (match goal with |- heard _ _ _ /\ _ => split; [heard_tac|] end); exact I. }
  intros w1 w2. split; [vm_compute; discriminate|]. repeat split; vm_compute; reflexivity.
Qed.

(** ** Cases that meet the hypotheses *)
Example busy_session : session 2 (run busy w0).
Proof. exists w0, busy. split; [exact w0_start|]. split; [exact busy_heard|reflexivity]. Qed.
Example busy_clear : clear (run busy w0) 0 /\ clear (run busy w0) 1.
Proof. split; apply clearb_ok; vm_compute; reflexivity. Qed.
(** Nothing compiled, after changes that are not heard themselves. *)
Example silent_then_heard : let w := run (base ++ [OWeight 0 (Some "w"); ODictAv 0 []; OEdit 0 PCa (ERemoveData "x"); OLogsum 0 None]) w0 in
  idle (w_m w 0) /\ clear w 0 /\ s_wt (answer w 0) = Some 1 /\ s_ca (answer w 0) = Some 0.
Proof. cbv zeta. split; [vm_compute; repeat split|]. split; [apply clearb_ok; vm_compute; reflexivity|]. split; vm_compute; reflexivity. Qed.
Example forced : let w := run (base ++ [OWeight 0 (Some "w")]) w0 in
  clear w 0 /\ s_wt (answer w 0) = Some 0 /\ s_wt (answer (act (OUnmangle 0 true) w) 0) = Some 1.
Proof. cbv zeta. split; [apply clearb_ok; vm_compute; reflexivity|]. split; vm_compute; reflexivity. Qed.
(** A used parameter keeps its value, an unused one goes. *)
Example unused_goes : let w := run (base ++ [OSetValue 0 "b" 2; OSetValue 0 "spare" 3; OEval 0]) w0 in let w' := act (ORemoveUnused 0) w in
  clear w 0 /\ wanted w 0 <> None /\ text (m_qs (w_m w 0)) = None /\ row (m_frame (w_m w 0)) "spare" = Some 3%R /\
  row (m_frame (w_m w' 0)) "spare" = None /\ row (m_frame (w_m w' 0)) "b" = Some 2%R.
Proof.
  cbv zeta. split; [apply clearb_ok; vm_compute; reflexivity|]. split; [vm_compute; discriminate|]. repeat split; vm_compute; reflexivity.
Qed.
(** Constraints linked and kept by later evaluations. *)
Example constraint_stays : let w := run valued w0 in
  clear w 0 /\ map fst (m_frame (w_m w 0)) = ["asc"; "b"; "mu"] /\ (forall c, In c (m_cons (w_m w 0)) -> linked c (m_frame (w_m w 0))) /\
  map fst (m_frame (w_m (fst (eval 0 w)) 0)) = map fst (m_frame (w_m w 0)) /\ m_cons (w_m w 0) <> [] /\ snd (eval 0 w) <> None.
Proof.
  cbv zeta. split; [apply clearb_ok; vm_compute; reflexivity|]. split; [vm_compute; reflexivity|]. split.
  { assert (E : m_cons (w_m (run valued w0) 0) = [mkCon ["b"] [1] (fun l => nth 0 l 0%R)]) by (vm_compute; reflexivity).
    intros c Hc. rewrite E in Hc. destruct Hc as [<-|[]]. unfold linked. cbn [k_names k_pos]. constructor; [|constructor]. vm_compute. reflexivity. }
  split; [vm_compute; reflexivity|]. split; vm_compute; discriminate.
Qed.
(** An edit of an entry that is there, in a session state. *)
Example edited_seen : let w := run busy w0 in
  seen w 0 (PCo 2) = Some [mkComp "asc" "1" 1] /\ seen (act (OEdit 0 (PCo 2) (EInsert 0 cx)) w) 0 (PCo 2) = Some [cx; mkComp "asc" "1" 1] /\
  seen w 0 (PCo 9) = None /\ seen (act (OSetItem 0 9 [Some cx]) w) 0 (PCo 9) = Some [cx].
Proof. cbv zeta. repeat split; vm_compute; reflexivity. Qed.
Example dict_seen : let w := act (OSetCo 0 [(1%Z, [Some cx]); (3%Z, [])]) (run busy w0) in
  seen w 0 (PCo 1) = Some [cx] /\ seen w 0 (PCo 2) = None /\ seen w 0 (PCo 3) = Some [].
Proof. cbv zeta. repeat split; vm_compute; reflexivity. Qed.
